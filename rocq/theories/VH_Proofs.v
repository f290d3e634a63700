(** Lists of optional results, flat buffers, layer thickness. *)
From Verif Require Import Base Buffer Loops I2P_Model VH_Model VH_Spec.
Local Open Scope nat_scope.

(** ** mapM / foldM *)
Lemma mapM_length (A B : Type) (f : A -> option B) l : forall r, mapM f l = Some r -> length r = length l.
Proof.
  induction l as [|x l IH]; simpl; intros r H; [injection H as <-; auto|].
  destruct (f x); simpl in H; [|discriminate]. destruct (mapM f l) as [ys|]; simpl in H; [|discriminate].
  injection H as <-. simpl. f_equal. auto.
Qed.
Lemma mapM_nth (A B : Type) (f : A -> option B) l : forall r k x, mapM f l = Some r -> nth_error l k = Some x ->
  exists y, f x = Some y /\ nth_error r k = Some y.
Proof.
  induction l as [|a l IH]; simpl; intros r k x H Hk; [destruct k; discriminate|].
  destruct (f a) as [y|] eqn:Ea; simpl in H; [|discriminate].
  destruct (mapM f l) as [ys|]; simpl in H; [|discriminate]. injection H as <-.
  destruct k; simpl in *; [injection Hk as <-; eauto|]. eapply IH; eauto.
Qed.
Lemma mapM_ext_in (A B : Type) (f g : A -> option B) l : (forall x, In x l -> f x = g x) -> mapM f l = mapM g l.
Proof. induction l; simpl; intros H; auto. rewrite (H a) by auto. rewrite IHl by auto. reflexivity. Qed.
Lemma mapM_some (A B : Type) (f : A -> option B) l : (forall x, In x l -> exists y, f x = Some y) -> exists r, mapM f l = Some r.
Proof.
  induction l as [|a l IH]; simpl; intros H; [eauto|]. destruct (H a) as [y E]; auto. rewrite E. simpl.
  destruct IH as [r Er]; [auto|]. rewrite Er. simpl. eauto.
Qed.
Lemma mapM_map (A B C : Type) (f : B -> option C) (g : A -> B) l : mapM f (map g l) = mapM (fun x => f (g x)) l.
Proof. induction l; simpl; auto. rewrite IHl. reflexivity. Qed.
Lemma mapM_Some_map (A B : Type) (f : A -> option B) (g : A -> B) l : (forall x, In x l -> f x = Some (g x)) -> mapM f l = Some (map g l).
Proof. induction l; simpl; intros H; auto. rewrite H by auto. simpl. rewrite IHl by auto. reflexivity. Qed.
Lemma bind_some (A B : Type) (x : option A) (f : A -> option B) b : bind x f = Some b -> exists a, x = Some a /\ f a = Some b.
Proof. destruct x; simpl; [eauto|discriminate]. Qed.

Lemma wrx_ok (A : Type) (a : list A) i v : 1 <= i <= length a -> wrx a i v = Some (wr a i v).
Proof. intros H. unfold wrx. destruct (Nat.leb_spec 1 i), (Nat.leb_spec i (length a)); auto; lia. Qed.

(** a fold whose steps each write a known set of cells *)
Definition writes {V A : Type} (step : list V -> A -> option (list V)) (cells : A -> list (nat * V)) (n : nat) (a : A) : Prop :=
  forall b, length b = n -> exists b', step b a = Some b' /\ length b' = n /\
    (forall i v, In (i, v) (cells a) -> rd b' i = Some v) /\
    (forall i, ~ In i (map fst (cells a)) -> rd b' i = rd b i).
Lemma foldM_cells (V A : Type) (step : list V -> A -> option (list V)) cells n : forall (l : list A) buf,
  length buf = n -> (forall a, In a l -> writes step cells n a) ->
  NoDup (flat_map (fun a => map fst (cells a)) l) ->
  exists b', foldM step l buf = Some b' /\ length b' = n /\
    (forall a i v, In a l -> In (i, v) (cells a) -> rd b' i = Some v) /\
    (forall i, ~ In i (flat_map (fun a => map fst (cells a)) l) -> rd b' i = rd buf i).
Proof.
  induction l as [|a l IH]; simpl; intros buf Hb Hw Hn.
  - exists buf. split; auto. split; auto. split; [tauto|auto].
  - destruct (Hw a (or_introl eq_refl) buf Hb) as [b1 [E1 [L1 [W1 K1]]]]. rewrite E1. simpl.
    assert (Hsep : forall i, In i (map fst (cells a)) -> ~ In i (flat_map (fun a => map fst (cells a)) l)).
    { clear - Hn. induction (map fst (cells a)) as [|x r IHr]; simpl in *; [tauto|].
      inversion Hn; subst. intros i [<-|Hi].
      - intros X. apply H1. apply in_or_app. auto.
      - auto. }
    assert (Hn' : NoDup (flat_map (fun a => map fst (cells a)) l)).
    { clear - Hn. induction (map fst (cells a)); simpl in *; auto. inversion Hn; auto. }
    destruct (IH b1) as [b' [E [L [W K]]]]; auto.
    exists b'. split; auto. split; auto. split.
    + intros c i v [<-|Hc] Hi.
      * rewrite K; [auto|]. apply Hsep. apply in_map_iff. exists (i, v). auto.
      * eauto.
    + intros i Hi. rewrite in_app_iff in Hi. rewrite K by tauto. apply K1. tauto.
Qed.

(** the strided store of the flat kernels *)
Fixpoint strided {V : Type} (idx ninner : nat) (vs : list V) : list (nat * V) :=
  match vs with [] => [] | v :: r => (idx, v) :: strided (idx + ninner) ninner r end.
Lemma strided_fst (V : Type) ninner (vs : list V) : forall idx,
  map fst (strided idx ninner vs) = map (fun k => idx + k * ninner) (seq 0 (length vs)).
Proof.
  induction vs; simpl; intros idx; auto. rewrite IHvs. f_equal; [lia|].
  rewrite <- seq_shift, map_map. apply map_ext. intros k. lia.
Qed.
Lemma strided_in (V : Type) ninner (vs : list V) : forall idx k v, nth_error vs k = Some v -> In (idx + k * ninner, v) (strided idx ninner vs).
Proof.
  induction vs; simpl; intros idx k v H; [destruct k; discriminate|].
  destruct k; simpl in *; [injection H as ->; left; f_equal; lia|].
  right. replace (idx + (ninner + k * ninner)) with (idx + ninner + k * ninner) by lia. auto.
Qed.
Lemma strided_NoDup (V : Type) ninner (vs : list V) idx : 0 < ninner -> NoDup (map fst (strided idx ninner vs)).
Proof.
  intros H. rewrite strided_fst. apply NoDup_map_inj; [|apply seq_NoDup]. intros a b _ _ E.
  assert (a * ninner = b * ninner) by lia. nia.
Qed.
Lemma flat_store_ok (T : Type) (f : T -> option (option Qc)) ninner n : 0 < ninner -> forall (ts : list T) vs idx buf,
  mapM f ts = Some vs -> length buf = n -> 1 <= idx -> (vs <> [] -> idx + (length vs - 1) * ninner <= n) ->
  exists b', flat_store f ts idx ninner buf = Some b' /\ length b' = n /\
    (forall i v, In (i, v) (strided idx ninner vs) -> rd b' i = Some v) /\
    (forall i, ~ In i (map fst (strided idx ninner vs)) -> rd b' i = rd buf i).
Proof.
  intros Hn. induction ts as [|t ts IH]; simpl; intros vs idx buf M L H1 H2.
  - injection M as <-. exists buf. simpl. split; auto. split; auto. split; [tauto|auto].
  - destruct (f t) as [v|]; simpl in *; [|discriminate]. destruct (mapM f ts) as [ws|] eqn:E; simpl in M; [|discriminate].
    injection M as <-. assert (B : idx + length ws * ninner <= n).
    { specialize (H2 ltac:(discriminate)). simpl in H2. rewrite Nat.sub_0_r in H2. auto. }
    rewrite wrx_ok by lia. cbn [bind].
    destruct (IH ws (idx + ninner) (wr buf idx v)) as [b' [E' [L' [W K]]]]; auto; try lia.
    { rewrite wr_length. auto. }
    { intros Hw. destruct ws; [congruence|]. simpl in *. nia. }
    exists b'. split; auto. split; auto. simpl. split.
    + intros i x [Q|Hi]; [|auto]. injection Q as <- <-. rewrite K.
      * apply rd_wr_eq. lia.
      * rewrite strided_fst. rewrite in_map_iff. intros [k [Q _]]. nia.
    + intros i Hi. rewrite K by tauto. apply rd_wr_neq. tauto.
Qed.

(** ** Flat addresses (C29) *)
Definition addresses (nouter nlev ninner : nat) : list nat :=
  flat_map (fun '(outer, inner) => build_flat_level_offsets (outer * nlev * ninner) inner ninner nlev) (columns_in_order nouter ninner).
Lemma offsets_map idx ninner n : offsets_from idx ninner n = map (fun k => idx + k * ninner) (seq 0 n).
Proof.
  revert idx. induction n; simpl; intros idx; auto. rewrite IHn. f_equal; [lia|].
  rewrite <- seq_shift, map_map. apply map_ext. intros k. lia.
Qed.
Lemma in_columns o i nouter ninner : In (o, i) (columns_in_order nouter ninner) <-> o < nouter /\ 1 <= i <= ninner.
Proof.
  unfold columns_in_order. rewrite in_flat_map. split.
  - intros [x [Hx H]]. apply in_map_iff in H. destruct H as [y [E Hy]]. injection E as <- <-.
    rewrite in_seq in *. lia.
  - intros H. exists o. rewrite in_seq. split; [lia|]. apply in_map_iff. exists i. rewrite in_seq. split; auto. lia.
Qed.
Lemma NoDup_columns nouter ninner : NoDup (columns_in_order nouter ninner).
Proof.
  unfold columns_in_order. apply NoDup_flat_map.
  - apply seq_NoDup.
  - intros o _. apply NoDup_map_inj; [|apply seq_NoDup]. congruence.
  - intros o1 o2 x _ _ H1 H2. apply in_map_iff in H1, H2. destruct H1 as [a [<- _]], H2 as [b [E _]]. congruence.
Qed.
(** an address determines its triple *)
Lemma address_inj nlev ninner o k i o' k' i' : k < nlev -> k' < nlev -> 1 <= i <= ninner -> 1 <= i' <= ninner ->
  o * nlev * ninner + i + k * ninner = o' * nlev * ninner + i' + k' * ninner -> o = o' /\ k = k' /\ i = i'.
Proof.
  intros Hk Hk' Hi Hi' E.
  assert (E1 : (o * nlev + k) * ninner + (i - 1) = (o' * nlev + k') * ninner + (i' - 1)) by nia.
  assert (Q : (o * nlev + k) = (o' * nlev + k')).
  { apply (f_equal (fun x => x / ninner)) in E1. rewrite !Nat.div_add_l in E1 by lia. rewrite !(Nat.div_small (_ - 1)) in E1 by lia. lia. }
  assert (i = i') by (rewrite Q in E1; lia).
  assert (o = o').
  { apply (f_equal (fun x => x / nlev)) in Q. rewrite !Nat.div_add_l in Q by lia. rewrite !Nat.div_small in Q by lia. lia. }
  subst. split; auto. split; lia.
Qed.
Lemma address_range nouter nlev ninner o k i : o < nouter -> k < nlev -> 1 <= i <= ninner ->
  1 <= o * nlev * ninner + i + k * ninner <= nouter * nlev * ninner.
Proof.
  intros Ho Hk Hi. split; [lia|].
  assert ((o * nlev + k + 1) * ninner <= nouter * nlev * ninner).
  { apply Nat.mul_le_mono_r. assert ((o + 1) * nlev <= nouter * nlev) by (apply Nat.mul_le_mono_r; lia). lia. }
  nia.
Qed.
Lemma addresses_in nouter nlev ninner a :
  In a (addresses nouter nlev ninner) <-> exists o k i, o < nouter /\ k < nlev /\ 1 <= i <= ninner /\ a = o * nlev * ninner + i + k * ninner.
Proof.
  unfold addresses. rewrite in_flat_map. split.
  - intros [[o i] [Hc H]]. apply in_columns in Hc. unfold build_flat_level_offsets in H. rewrite offsets_map in H.
    apply in_map_iff in H. destruct H as [k [<- Hk]]. rewrite in_seq in Hk. exists o, k, i. repeat split; lia.
  - intros [o [k [i [Ho [Hk [Hi ->]]]]]]. exists (o, i). split; [apply in_columns; lia|].
    unfold build_flat_level_offsets. rewrite offsets_map. apply in_map_iff. exists k. rewrite in_seq. split; lia.
Qed.
Lemma addresses_NoDup nouter nlev ninner : NoDup (addresses nouter nlev ninner).
Proof.
  unfold addresses. apply NoDup_flat_map.
  - apply NoDup_columns.
  - intros [o i] H. apply in_columns in H. unfold build_flat_level_offsets. rewrite offsets_map.
    apply NoDup_map_inj; [|apply seq_NoDup]. intros a b _ _ E. nia.
  - intros [o i] [o' i'] x H1 H2 X Y. apply in_columns in H1, H2.
    unfold build_flat_level_offsets in *. rewrite offsets_map in *. apply in_map_iff in X, Y.
    destruct X as [k [E Hk]], Y as [k' [E' Hk']]. rewrite in_seq in *.
    assert (Q : o = o' /\ k = k' /\ i = i') by (apply (address_inj nlev ninner); lia).
    destruct Q as [-> [_ ->]]. reflexivity.
Qed.
Lemma addresses_perm nouter nlev ninner : Permutation (addresses nouter nlev ninner) (seq 1 (nouter * nlev * ninner)).
Proof.
  apply NoDup_Permutation; [apply addresses_NoDup|apply seq_NoDup|]. intros a. rewrite addresses_in, in_seq. split.
  - intros [o [k [i [Ho [Hk [Hi ->]]]]]]. pose proof (address_range nouter nlev ninner o k i Ho Hk Hi). lia.
  - intros H. set (b := a - 1). assert (Hi : 0 < ninner) by (destruct ninner; lia).
    assert (Hl : 0 < nlev) by (destruct nlev; lia).
    exists (b / ninner / nlev), (b / ninner mod nlev), (b mod ninner + 1).
    pose proof (Nat.div_mod b ninner ltac:(lia)). pose proof (Nat.div_mod (b / ninner) nlev ltac:(lia)).
    pose proof (Nat.mod_upper_bound b ninner ltac:(lia)). pose proof (Nat.mod_upper_bound (b / ninner) nlev ltac:(lia)).
    assert (b / ninner / nlev < nouter)%nat.
    { apply Nat.div_lt_upper_bound; [lia|]. apply Nat.div_lt_upper_bound; [lia|]. subst b. nia. }
    repeat split; try lia; subst b; nia.
Qed.

(** ** Layer thickness (C27) *)
Local Open Scope Qc_scope.
Lemma qcabs_sub x y : qcabs (x - y) = distance x y.
Proof.
  unfold qcabs, distance. destruct (Qcleb_spec 0 (x - y)), (Qcleb_spec x y); try ring.
  - assert (x = y) by (apply Qcle_antisym; [auto|qclra]). subst. ring.
  - exfalso. qclra.
Qed.
Lemma thickness_gaps a : forall b p0 ps, length a = length b ->
  delta_pressure_column a b p0 ps = gaps (hybrid_pressures a b p0 ps).
Proof.
  unfold delta_pressure_column, hybrid_pressures.
  induction a as [|x a IH]; intros [|y b] p0 ps L; try discriminate; auto.
  destruct a as [|x' a], b as [|y' b]; try discriminate; auto.
  assert (L' : length (x' :: a) = length (y' :: b)) by (simpl in *; lia).
  specialize (IH (y' :: b) p0 ps L'). cbn [deltas combine map gaps fst snd] in *. f_equal.
  - rewrite <- qcabs_sub. f_equal. ring.
  - exact IH.
Qed.
Lemma distance_nonneg x y : 0 <= distance x y.
Proof. unfold distance. destruct (Qcleb_spec x y); qclra. Qed.
Lemma gaps_nonneg P g : In g (gaps P) -> 0 <= g.
Proof.
  induction P as [|x P IH]; [intros []|]. destruct P as [|y P]; [intros []|]. cbn [gaps]. intros [<-|H]; [apply distance_nonneg|auto].
Qed.
Lemma total_cons x l : total (x :: l) = x + total l. Proof. reflexivity. Qed.
Lemma distance_triangle x y z : distance x z <= distance x y + distance y z.
Proof. unfold distance. destruct (Qcleb_spec x y), (Qcleb_spec y z), (Qcleb_spec x z); qclra. Qed.
Lemma last_cons_dflt (P : list Qc) : forall x y, last (y :: P) x = last P y.
Proof. induction P as [|z P IH]; intros x y; auto. change (last (y :: z :: P) x) with (last (z :: P) x). rewrite IH. rewrite (IH y z). reflexivity. Qed.
Lemma total_gaps_ge P : forall x, distance x (last P x) <= total (gaps (x :: P)).
Proof.
  induction P as [|y P IH]; intros x.
  - cbn [gaps last total fold_right]. unfold distance. destruct (Qcleb_spec x x); qclra.
  - specialize (IH y). change (gaps (x :: y :: P)) with (distance x y :: gaps (y :: P)). rewrite total_cons.
    rewrite last_cons_dflt. pose proof (distance_triangle x y (last P y)). qclra.
Qed.
Lemma total_gaps_up P : forall x, (forall i j p q, (i < j)%nat -> nth_error (x :: P) i = Some p -> nth_error (x :: P) j = Some q -> p <= q) ->
  total (gaps (x :: P)) = last P x - x.
Proof.
  induction P as [|y P IH]; intros x H.
  - cbn. ring.
  - change (gaps (x :: y :: P)) with (distance x y :: gaps (y :: P)). rewrite total_cons, last_cons_dflt.
    rewrite (IH y) by (intros i j p q Hi; apply (H (Datatypes.S i) (Datatypes.S j)); lia).
    pose proof (H 0%nat 1%nat x y ltac:(lia) eq_refl eq_refl) as Hxy. unfold distance. destruct (Qcleb_spec x y); [ring|contradiction].
Qed.
Lemma total_gaps_down P : forall x, (forall i j p q, (i < j)%nat -> nth_error (x :: P) i = Some p -> nth_error (x :: P) j = Some q -> q <= p) ->
  total (gaps (x :: P)) = x - last P x.
Proof.
  induction P as [|y P IH]; intros x H.
  - cbn. ring.
  - change (gaps (x :: y :: P)) with (distance x y :: gaps (y :: P)). rewrite total_cons, last_cons_dflt.
    rewrite (IH y) by (intros i j p q Hi; apply (H (Datatypes.S i) (Datatypes.S j)); lia).
    pose proof (H 0%nat 1%nat x y ltac:(lia) eq_refl eq_refl) as Hxy. unfold distance. destruct (Qcleb_spec x y); [|ring].
    assert (x = y) by (apply Qcle_antisym; auto). subst. ring.
Qed.
Lemma last_nth (P : list Qc) : forall x, nth_error (x :: P) (length P) = Some (last P x).
Proof. induction P as [|y P IH]; intros x; auto. rewrite last_cons_dflt. simpl. apply (IH y). Qed.
Lemma total_gaps P x : weakly_monotone (x :: P) -> total (gaps (x :: P)) = distance x (last P x).
Proof.
  intros H. assert (E : forall (R : Qc -> Qc -> Prop), (forall a, R a a) -> (forall i j p q, (i < j)%nat -> nth_error (x :: P) i = Some p -> nth_error (x :: P) j = Some q -> R p q) -> R x (last P x)).
  { intros R Rr HR. destruct P as [|y P]; [apply Rr|]. apply (HR 0%nat (length (y :: P))); [simpl; lia|auto|apply last_nth]. }
  destruct H as [H|H].
  - rewrite total_gaps_up by auto. pose proof (E (fun a b => a <= b) (fun a => Qcle_refl a) H) as L. unfold distance.
    destruct (Qcleb_spec x (last P x)); [ring|contradiction].
  - rewrite total_gaps_down by auto. pose proof (E (fun a b => b <= a) (fun a => Qcle_refl a) H) as L. cbn beta in L. unfold distance.
    destruct (Qcleb_spec x (last P x)); [|ring]. assert (x = last P x) by (apply Qcle_antisym; auto). rewrite <- H0. ring.
Qed.
