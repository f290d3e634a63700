(** The column loop of the isentropic kernel, and consequences of
    [profile_value]. *)
From Coq Require Import Permutation Sorted.
From Verif Require Import Base Buffer Loops I2P_Model VH_Model VH_Spec VH_Proofs VH_Proofs3 VH_Proofs4 IS_Model IS_Spec IS_Proofs.
Local Open Scope nat_scope.

Lemma rd_ext_all (T : Type) (a b : list T) : (forall i, rd a i = rd b i) -> a = b.
Proof. intros H. apply nth_ext_all. intros q. exact (H (Datatypes.S q)). Qed.
Lemma flat_store_twice (T : Type) (f g : T -> option (option Qc)) ninner (ts : list T) vs ws idx b b1 :
  0 < ninner -> mapM f ts = Some vs -> mapM g ts = Some ws -> 1 <= idx -> (ts <> [] -> idx + (length ts - 1) * ninner <= length b) ->
  flat_store g ts idx ninner b = Some b1 -> flat_store f ts idx ninner b1 = flat_store f ts idx ninner b.
Proof.
  intros Hn Mf Mg Hi Hb E.
  assert (Lv := mapM_length _ _ _ _ _ Mf). assert (Lw := mapM_length _ _ _ _ _ Mg).
  assert (K : forall us : list (option Qc), length us = length ts -> us <> [] -> idx + (length us - 1) * ninner <= length b).
  { intros us L N. rewrite L. apply Hb. intros ->. destruct us; [auto|discriminate]. }
  destruct (flat_store_ok T g ninner (length b) Hn ts ws idx b Mg eq_refl Hi (K ws Lw)) as [b1' [E1 [L1 [_ O1]]]].
  rewrite E in E1. injection E1 as <-.
  destruct (flat_store_ok T f ninner (length b) Hn ts vs idx b1 Mf L1 Hi (K vs Lv)) as [b2 [E2 [L2 [I2 O2]]]].
  destruct (flat_store_ok T f ninner (length b) Hn ts vs idx b Mf eq_refl Hi (K vs Lv)) as [b3 [E3 [L3 [I3 O3]]]].
  rewrite E2, E3. f_equal. apply rd_ext_all. intros i.
  destruct (in_dec Nat.eq_dec i (map fst (strided idx ninner vs))) as [X|X].
  - apply in_map_iff in X. destruct X as [[i' v] [<- X]]. cbn [fst]. rewrite (I2 _ _ X), (I3 _ _ X). auto.
  - rewrite O2, O3 by auto. apply O1. rewrite strided_fst in *. rewrite Lw, <- Lv. auto.
Qed.
Lemma foldM_map (A B C : Type) (f : C -> B -> option C) (g : A -> B) l : forall s, foldM f (map g l) s = foldM (fun s a => f s (g a)) l s.
Proof. induction l; simpl; intros s; auto. destruct (f s (g a)); simpl; auto. Qed.
Lemma columns_shifted nouter ninner : flat_map (fun outer => map (fun inner => (outer, inner)) (seq 0 ninner)) (seq 0 nouter) =
  map (fun oi => (fst oi, snd oi - 1)) (columns_in_order nouter ninner).
Proof.
  unfold columns_in_order. generalize (seq 0 nouter) as l. induction l as [|o l IH]; simpl; auto. rewrite map_app, IH, map_map. f_equal.
  rewrite <- seq_shift, map_map. apply map_ext. intros k. cbn [fst snd]. f_equal. lia.
Qed.

Section P.
Variable pw : Qc -> Qc -> Qc.
Lemma valid_unmark sp v : valid_value v sp = unmark sp v. Proof. destruct v; auto. Qed.
Lemma skipn_nth (T : Type) (l : list T) k x : nth_error l k = Some x -> skipn k l = x :: skipn (k + 1) l.
Proof. revert k. induction l; intros [|k] H; simpl in *; try discriminate; auto. injection H as ->. auto. Qed.
Lemma gather_ok data temp pressure p0 kappa sp nouter nlev ninner o i :
  length data = nouter * nlev * ninner -> length temp = nouter * nlev * ninner -> length pressure = nouter * nlev * ninner -> o < nouter -> i < ninner ->
  let D := take_column None data nlev ninner o i in let T := take_column None temp nlev ninner o i in let P := take_column None pressure nlev ninner o i in
  forall m k, k + m = nlev ->
  gather pw data temp pressure p0 kappa sp (o * nlev * ninner + 1 + i + k * ninner) ninner m =
    Some (usable_levels pw p0 kappa (map (unmark sp) (skipn k D)) (map (unmark sp) (skipn k T)) (map (unmark sp) (skipn k P))).
Proof.
  intros Ld Lt Lp Ho Hi D T P. induction m as [|m IH]; intros k Hk.
  - assert (k = nlev) as -> by lia. rewrite (skipn_all2 D) by (unfold D; rewrite take_column_length; lia). reflexivity.
  - cbn [gather].
    assert (R : forall a, length a = nouter * nlev * ninner -> exists x, nth_error (take_column (None : option Qc) a nlev ninner o i) k = Some x /\ rd a (o * nlev * ninner + 1 + i + k * ninner) = Some x).
    { intros a La. destruct (nth_error (take_column None a nlev ninner o i) k) as [x|] eqn:E.
      - exists x. split; auto. pose proof (rd_column _ None a nouter nlev ninner o i (Datatypes.S k) La Ho Hi) as X. simpl rd in X at 2. rewrite E in X. rewrite <- X by lia. f_equal. nia.
      - apply nth_error_None in E. rewrite take_column_length in E. lia. }
    destruct (R data Ld) as [d [Ed Rd]], (R temp Lt) as [t [Et Rt]], (R pressure Lp) as [p [Ep Rp]]. rewrite Rd, Rt, Rp. cbn [bind].
    replace (o * nlev * ninner + 1 + i + k * ninner + ninner) with (o * nlev * ninner + 1 + i + (k + 1) * ninner) by nia.
    rewrite IH by lia. cbn [bind]. rewrite !valid_unmark.
    rewrite (skipn_nth _ D k d Ed), (skipn_nth _ T k t Et), (skipn_nth _ P k p Ep). cbn [map usable_levels usable_level].
    destruct (unmark sp d), (unmark sp t), (unmark sp p); simpl; auto. destruct (0 <? q1)%Qc; auto.
Qed.
Definition column_profile (L : list (Qc * Qc)) (kx : Z) sp (t : Qc) : option (option Qc) :=
  if length L <? 2 then Some (Some sp)
  else let* xy := sort_pairs (map fst L) (map snd L) in
       let* v := interp_sorted_profile (fst xy) (snd xy) (length L) t kx sp in Some (Some v).
Lemma column_profile_ok L (ex : bool) sp t : exists w, column_profile L (if ex then 1 else 0)%Z sp t = Some (Some (spv_of sp w)) /\ profile_value ex L t w.
Proof.
  unfold column_profile. destruct (Nat.ltb_spec (length L) 2) as [H|H].
  - exists None. split; auto. apply pv_few. auto.
  - destruct (profile_ok L t ex sp H) as [R [E [w [Ew V]]]]. exists w. rewrite E. cbn [bind]. rewrite Ew. cbn [bind]. auto.
Qed.
Lemma flat_profile_ok data temp pressure thetas p0 kappa sp (ex : bool) nouter nlev ninner o i b :
  length data = nouter * nlev * ninner -> length temp = nouter * nlev * ninner -> length pressure = nouter * nlev * ninner -> o < nouter -> i < ninner ->
  length b = nouter * length thetas * ninner ->
  let L := usable_levels pw p0 kappa (map (unmark sp) (take_column None data nlev ninner o i)) (map (unmark sp) (take_column None temp nlev ninner o i)) (map (unmark sp) (take_column None pressure nlev ninner o i)) in
  interp_isentropic_flat_profile pw data temp pressure thetas b p0 kappa sp (if ex then 1 else 0)%Z (o * nlev * ninner + 1) (o * length thetas * ninner + 1) i ninner nlev =
  flat_store (column_profile L (if ex then 1 else 0)%Z sp) thetas (o * length thetas * ninner + (i + 1)) ninner b.
Proof.
  intros Ld Lt Lp Ho Hi Lb L. unfold interp_isentropic_flat_profile.
  pose proof (gather_ok data temp pressure p0 kappa sp nouter nlev ninner o i Ld Lt Lp Ho Hi nlev 0 eq_refl) as G. cbn [skipn] in G.
  rewrite Nat.add_0_r in G. rewrite G. cbn [bind]. fold L. clear G.
  set (idx := o * length thetas * ninner + (i + 1)). replace (o * length thetas * ninner + 1 + i) with idx by (unfold idx; lia).
  assert (Hidx : thetas <> [] -> idx + (length thetas - 1) * ninner <= length b).
  { intros N. rewrite Lb. assert (length thetas <> 0) by (destruct thetas; simpl; congruence).
    pose proof (flat_index_lt nouter (length thetas) ninner o (length thetas - 1) i Ho) as X. unfold flat_index in X. unfold idx. nia. }
  destruct (flat_store_ok _ (fun _ : Qc => Some (Some sp)) ninner (length b) (ltac:(lia)) thetas (map (fun _ => Some sp) thetas) idx b (mapM_const _ _ _ _) eq_refl) as [b1 [E1 _]].
  { unfold idx. lia. } { rewrite map_length. intros N. apply Hidx. intros ->. apply N. reflexivity. }
  rewrite E1. cbn [bind]. unfold column_profile. destruct (length L <? 2) eqn:C; [symmetry; exact E1|].
  assert (C' : 2 <= length L) by (apply Nat.ltb_ge; auto).
  destruct (sort_pairs_ok L) as [R [E [SR [PR _]]]]. rewrite E. cbn [bind fst snd].
  set (f := fun t : Qc => let* v := interp_sorted_profile (map fst R) (map snd R) (length L) t (if ex then 1 else 0)%Z sp in Some (Some v)).
  destruct (mapM_some _ _ f thetas) as [vs Mf].
  { intros t _. unfold f. rewrite <- (Permutation_length PR). destruct (search_ok R t ex sp SR) as [w [Ew _]]. rewrite Ew. simpl. eauto. }
  apply flat_store_twice with (vs := vs) (g := fun _ => Some (Some sp)) (ws := map (fun _ => Some sp) thetas); auto; try lia. apply mapM_const.
Qed.
Lemma flat_with_missing_unmark sp a nlev ninner o i : map (unmark sp) (take_column None (flat_with_missing a sp) nlev ninner o i) = map (unmark sp) (take_column None a nlev ninner o i).
Proof.
  unfold take_column. rewrite !map_map. apply map_ext. intros k. unfold flat_with_missing.
  destruct (nth_error a (flat_index nlev ninner o k i)) as [v|] eqn:E.
  - rewrite (nth_error_nth _ _ None E). erewrite nth_error_nth; [|rewrite nth_error_map, E; reflexivity].
    destruct v as [v|]; auto. simpl. destruct (Qceqb_spec sp sp); congruence.
  - rewrite !nth_overflow; auto; [apply nth_error_None; auto|rewrite map_length; apply nth_error_None; auto].
Qed.
Definition marker (missing : option Qc) : Qc := match missing with Some m => m | None => spvl end.
Definition column_levels p0 kappa sp data temp pressure nlev ninner o i : list (Qc * Qc) :=
  usable_levels pw p0 kappa (map (unmark sp) (take_column None data nlev ninner o i)) (map (unmark sp) (take_column None temp nlev ninner o i)) (map (unmark sp) (take_column None pressure nlev ninner o i)).
Lemma isentropic_ok data temp pressure thetas p0 kappa ex missing nouter nlev ninner e :
  length data = nouter * nlev * ninner -> length temp = nouter * nlev * ninner -> length pressure = nouter * nlev * ninner ->
  length e = nouter * length thetas * ninner ->
  exists out, interp_to_isentropic pw data temp pressure thetas p0 kappa ex missing nouter nlev ninner e = Some out /\
    by_columns nouter (length thetas) ninner (fun o i => map (fun t => match column_profile (column_levels p0 kappa (marker missing) data temp pressure nlev ninner o i) (if ex then 1 else 0)%Z (marker missing) t with
        Some v => unmark (marker missing) v | None => None end) thetas) out.
Proof.
  intros Ld Lt Lp Le. unfold interp_to_isentropic. fold (marker missing). set (sp := marker missing).
  unfold dinterp_to_isentropic_corder. rewrite columns_shifted, foldM_map.
  set (cl := fun o i => column_levels p0 kappa sp data temp pressure nlev ninner o i).
  set (F := fun o i t => match column_profile (cl o i) (if ex then 1 else 0)%Z sp t with Some v => v | None => None end).
  match goal with |- context [foldM ?st _ _] => pose (step := st) end.
  (* the loop with the length of the buffer tested first *)
  assert (X : exists out, foldM step (columns_in_order nouter ninner) e = Some out /\ by_columns nouter (length thetas) ninner (fun o i => map (F o i) thetas) out).
  { assert (Y : foldM step (columns_in_order nouter ninner) e =
       foldM (fun b oi => flat_store (column_profile (cl (fst oi) (snd oi - 1)) (if ex then 1 else 0)%Z sp) thetas (fst oi * length thetas * ninner + snd oi) ninner b) (columns_in_order nouter ninner) e).
    { assert (GG : forall l b, (forall oi, In oi l -> In oi (columns_in_order nouter ninner)) -> length b = nouter * length thetas * ninner ->
        foldM step l b = foldM (fun b oi => flat_store (column_profile (cl (fst oi) (snd oi - 1)) (if ex then 1 else 0)%Z sp) thetas (fst oi * length thetas * ninner + snd oi) ninner b) l b); [|apply GG; auto].
      induction l as [|[o i'] l IH]; intros b Hl Lb; auto. cbn [foldM].
      assert (Hin := Hl (o, i') (or_introl eq_refl)). apply in_columns in Hin. destruct i' as [|i]; [lia|].
      assert (E : step b (o, Datatypes.S i) = flat_store (column_profile (cl o i) (if ex then 1 else 0)%Z sp) thetas (o * length thetas * ninner + Datatypes.S i) ninner b).
      { unfold step. cbn [fst snd]. rewrite Nat.sub_succ, Nat.sub_0_r. rewrite (flat_profile_ok _ _ _ _ _ _ _ _ nouter); try (unfold flat_with_missing; rewrite map_length); try lia.
        rewrite !flat_with_missing_unmark. rewrite Nat.add_1_r. reflexivity. }
      cbn [fst snd]. rewrite Nat.sub_succ, Nat.sub_0_r. rewrite E.
      destruct (mapM_some _ _ (column_profile (cl o i) (if ex then 1 else 0)%Z sp) thetas) as [vs Mv].
      { intros t _. destruct (column_profile_ok (cl o i) ex sp t) as [w [Ew _]]. eauto. }
      destruct (flat_store_ok _ (column_profile (cl o i) (if ex then 1 else 0)%Z sp) ninner (length b) (ltac:(lia)) thetas vs (o * length thetas * ninner + Datatypes.S i) b Mv eq_refl) as [b' [E' [Lb' _]]]; [lia| |].
      { rewrite (mapM_length _ _ _ _ _ Mv). intros N. assert (length thetas <> 0). { rewrite <- (mapM_length _ _ _ _ _ Mv). destruct vs; simpl; congruence. }
        pose proof (flat_index_lt nouter (length thetas) ninner o (length thetas - 1) i). unfold flat_index in *. nia. }
      rewrite E'. cbn [bind]. apply IH; [intros; apply Hl; simpl; auto|]. lia. }
    rewrite Y. apply corder_fold with (f := fun o i => column_profile (cl o i) (if ex then 1 else 0)%Z sp) (ts := fun _ _ => thetas); auto.
    - intros o i b Ho Hi. cbn [fst snd]. rewrite Nat.add_sub. reflexivity.
    - intros o i Ho Hi. split; auto. apply mapM_Some_map. intros t _. unfold F. destruct (column_profile_ok (cl o i) ex sp t) as [w [Ew _]]. rewrite Ew. auto. }
  destruct X as [out [E B]]. unfold step in E. rewrite E. cbn [bind]. eexists. split; [reflexivity|].
  apply (by_columns_map _ _ (fun v => match v with Some x => if Qceqb x sp then None else Some x | None => None end)) in B.
  eapply by_columns_ext; [exact B|]. intros o i _ _. cbv beta. rewrite map_map. apply map_ext. intros t. unfold F, unmark, cl.
  destruct (column_profile _ _ _ t); auto.
Qed.
End P.

(** ** Consequences of [profile_value] *)
Lemma first_at_unique L x y y' : first_at L x y -> first_at L x y' -> y = y'.
Proof. rewrite !first_at_key. intros [r E] [r' E']. rewrite E in E'. congruence. Qed.
Lemma last_at_unique L x y y' : last_at L x y -> last_at L x y' -> y = y'.
Proof. rewrite !last_at_key. intros [r E] [r' E']. rewrite E in E'. apply app_inj_tail in E'. tauto. Qed.
Lemma first_at_in L x y : first_at L x y -> In (x, y) L.
Proof. intros [l1 [l2 [-> _]]]. apply in_app_iff. simpl. auto. Qed.
Lemma last_at_in L x y : last_at L x y -> In (x, y) L.
Proof. intros [l1 [l2 [-> _]]]. apply in_app_iff. simpl. auto. Qed.
Lemma profile_value_unique ex L t w w' : profile_value ex L t w -> profile_value ex L t w' -> w = w'.
Proof.
  assert (LT : forall a b, (a < b)%Qc -> (b < a)%Qc -> False) by (intros a b H H'; apply (Qclt_not_le _ _ H); apply Qclt_le_weak; auto).
  assert (LF : forall a b, (a < b)%Qc -> (b <= a)%Qc -> False) by (intros a b H H'; apply (Qclt_not_le _ _ H); auto).
  assert (IX : forall x y, first_at L x y -> In x (map fst L)) by (intros x y H; apply (in_map fst) in H || (apply first_at_in, (in_map fst) in H; exact H)).
  assert (FIN : forall x, In x (map fst L) -> exists y, In (x, y) L).
  { intros x H. apply in_map_iff in H. destruct H as [[a b] [<- H]]. simpl. eauto. }
  assert (NB : forall x0 x1 x, neighbours L t x0 x1 -> In x (map fst L) -> (x <= x0)%Qc \/ (x1 <= x)%Qc).
  { intros x0 x1 x [_ [_ [_ [_ N]]]] H. destruct (FIN _ H) as [y Hy]. exact (N _ Hy). }
  assert (LS : forall m x, least L m -> In x (map fst L) -> (m <= x)%Qc).
  { intros m x [_ N] H. destruct (FIN _ H) as [y Hy]. exact (N _ Hy). }
  assert (GR : forall m x, greatest L m -> In x (map fst L) -> (x <= m)%Qc).
  { intros m x [_ N] H. destruct (FIN _ H) as [y Hy]. exact (N _ Hy). }
  intros V V'. destruct V as [H|y H1 H2|x0 x1 y0 y1 H1 H2 H3 H4|x y H1 H2 H3 H4|x y H1 H2 H3 H4], V' as [H'|y' H1' H2'|x0' x1' y0' y1' H1' H2' H3' H4'|x' y' H1' H2' H3' H4'|x' y' H1' H2' H3' H4']; auto; try lia.
  - f_equal. eapply first_at_unique; eauto.
  - exfalso. pose proof H2' as [_ [_ [A [B _]]]]. destruct (NB _ _ _ H2' (IX _ _ H2)); eauto.
  - exfalso. pose proof (LS _ _ H2' (IX _ _ H2)). eauto.
  - exfalso. pose proof (GR _ _ H2' (IX _ _ H2)). eauto.
  - exfalso. pose proof H2 as [_ [_ [A [B _]]]]. destruct (NB _ _ _ H2 (IX _ _ H2')); eauto.
  - pose proof H2 as [A0 [A1 [A [B _]]]]. pose proof H2' as [A0' [A1' [A' [B' _]]]].
    assert (LE : forall a b c, (a <= b)%Qc -> (c < a)%Qc -> (b < c)%Qc -> False) by (intros a b c U W Y; apply (LT b c Y); apply Qclt_le_trans with a; auto).
    assert (x0 = x0').
    { apply Qcle_antisym.
      - destruct (NB _ _ _ H2' A0) as [Z|Z]; auto. destruct (LE _ _ _ Z B' A).
      - destruct (NB _ _ _ H2 A0') as [Z|Z]; auto. destruct (LE _ _ _ Z B A'). }
    assert (x1 = x1').
    { apply Qcle_antisym.
      - destruct (NB _ _ _ H2 A1') as [Z|Z]; auto. destruct (LE _ _ _ Z B' A).
      - destruct (NB _ _ _ H2' A1) as [Z|Z]; auto. destruct (LE _ _ _ Z B A'). }
    subst. rewrite (last_at_unique _ _ _ _ H3 H3'), (first_at_unique _ _ _ _ H4 H4'). auto.
  - exfalso. pose proof H2 as [A0 [_ [A _]]]. pose proof (LS _ _ H2' A0). apply (LT _ _ A). apply Qclt_le_trans with x'; auto.
  - exfalso. pose proof H2 as [_ [A0 [_ [A _]]]]. pose proof (GR _ _ H2' A0). apply (LT _ _ A). apply Qcle_lt_trans with x'; auto.
  - exfalso. pose proof (LS _ _ H2 (IX _ _ H2')). eauto.
  - exfalso. pose proof H2' as [A0 [_ [A _]]]. pose proof (LS _ _ H2 A0). apply (LT _ _ A). apply Qclt_le_trans with x; auto.
  - assert (x = x') as <- by (apply Qcle_antisym; [apply (LS _ _ H2), H2'|apply (LS _ _ H2'), H2]). rewrite (first_at_unique _ _ _ _ H4 H4'). auto.
  - exfalso. destruct H2 as [A0 _]. pose proof (GR _ _ H2' A0). apply (LT _ _ H3). apply Qcle_lt_trans with x'; auto.
  - exfalso. pose proof (GR _ _ H2 (IX _ _ H2')). eauto.
  - exfalso. pose proof H2' as [_ [A0 [_ [A _]]]]. pose proof (GR _ _ H2 A0). apply (LT _ _ A). apply Qcle_lt_trans with x; auto.
  - exfalso. destruct H2' as [A0 _]. pose proof (GR _ _ H2 A0). apply (LT _ _ H3'). apply Qcle_lt_trans with x; auto.
  - assert (x = x') as <- by (apply Qcle_antisym; [apply (GR _ _ H2'), H2|apply (GR _ _ H2), H2']). rewrite (last_at_unique _ _ _ _ H4 H4'). auto.
Qed.
Lemma at_key_perm R L : Permutation R L -> NoDup (map fst L) -> forall x, at_key x R = at_key x L.
Proof.
  intros P N x. assert (PK : Permutation (at_key x R) (at_key x L)).
  { unfold at_key. apply Permutation_map. clear N. induction P; simpl; auto; try (destruct (Qceqb (fst x0) x)); auto; try (destruct (Qceqb (fst y) x)); auto. constructor. etransitivity; eauto. }
  assert (S : length (at_key x L) <= 1).
  { unfold at_key. rewrite map_length. clear PK P. induction L as [|[a b] L IH]; simpl; auto. inversion N; subst. destruct (Qceqb_spec a x) as [->|]; auto.
    simpl. destruct (filter _ L) as [|q l] eqn:E; auto. exfalso. apply H1. assert (X : In q (filter (fun p => Qceqb (fst p) x) L)) by (rewrite E; simpl; auto).
    apply filter_In in X. destruct X as [X Y]. destruct (Qceqb_spec (fst q) x) as [<-|]; [|discriminate]. apply in_map. auto. }
  destruct (at_key x L) as [|a [|b l]] eqn:E; simpl in S; try lia.
  - apply Permutation_sym, Permutation_nil in PK. auto.
  - apply Permutation_sym, Permutation_length_1_inv in PK. auto.
Qed.
Lemma profile_between ex L t w lo hi : profile_value ex L t (Some w) -> (forall p, In p L -> (lo <= snd p)%Qc /\ (snd p <= hi)%Qc) -> (lo <= w)%Qc /\ (w <= hi)%Qc.
Proof.
  intros V H. inversion V as [|y H1 H2|x0 x1 y0 y1 H1 [_ [_ [A [B _]]]] H3 H4|x y H1 H2 H3 H4 E|x y H1 H2 H3 H4 E]; subst.
  - apply first_at_in in H2. apply (H _ H2).
  - apply last_at_in in H3. apply first_at_in in H4. destruct (H _ H3) as [K1 K2], (H _ H4) as [K3 K4]. cbn [snd] in *.
    assert (D : (0 < x1 - x0)%Qc). { qclra. }
    set (r := ((t - x0) / (x1 - x0))%Qc).
    assert (R0 : (0 <= r)%Qc). { unfold r, Qcdiv. apply Qcmul_nonneg; [qclra|]. apply Qclt_le_weak, Qcinv_pos. auto. }
    assert (R1 : (r <= 1)%Qc).
    { unfold r. assert (Z : (1 - (t - x0) / (x1 - x0) = (x1 - t) / (x1 - x0))%Qc). { field. intros Z. rewrite Z in D. discriminate D. }
      assert (0 <= (x1 - t) / (x1 - x0))%Qc. { unfold Qcdiv. apply Qcmul_nonneg; [qclra|]. apply Qclt_le_weak, Qcinv_pos. auto. }
      rewrite <- Z in H0. qclra. }
    replace (y0 + (y1 - y0) * (t - x0) / (x1 - x0))%Qc with (y0 * (1 - r) + y1 * r)%Qc by (unfold r; field; intros Z; rewrite Z in D; discriminate D).
    clearbody r. split.
    + assert (0 <= (y0 - lo) * (1 - r))%Qc by (apply Qcmul_nonneg; qclra). assert (0 <= (y1 - lo) * r)%Qc by (apply Qcmul_nonneg; qclra).
      replace (y0 * (1 - r) + y1 * r)%Qc with (lo + ((y0 - lo) * (1 - r) + (y1 - lo) * r))%Qc by ring. set (u := ((y0 - lo) * (1 - r))%Qc) in *. set (v := ((y1 - lo) * r)%Qc) in *. clearbody u v. qclra.
    + assert (0 <= (hi - y0) * (1 - r))%Qc by (apply Qcmul_nonneg; qclra). assert (0 <= (hi - y1) * r)%Qc by (apply Qcmul_nonneg; qclra).
      replace (y0 * (1 - r) + y1 * r)%Qc with (hi - ((hi - y0) * (1 - r) + (hi - y1) * r))%Qc by ring. set (u := ((hi - y0) * (1 - r))%Qc) in *. set (v := ((hi - y1) * r)%Qc) in *. clearbody u v. qclra.
  - destruct ex; [|discriminate]. injection E as ->. apply first_at_in in H4. apply (H _ H4).
  - destruct ex; [|discriminate]. injection E as ->. apply last_at_in in H4. apply (H _ H4).
Qed.
