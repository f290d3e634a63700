(** Searches, walks, and one column. *)
From Verif Require Import Base Buffer Loops I2P_Model I2P_Proofs VH_Model VH_Spec VH_Proofs.
Local Open Scope nat_scope.
Local Opaque spvl.

(** ** Reads of monotone lists *)
Lemma get_nth P i : 1 <= i <= length P -> nth_error P (i - 1) = Some (get P i).
Proof. intros H. rewrite <- (rd_get P H). destruct i; [lia|]. simpl. f_equal. lia. Qed.
Lemma up_lt P i j : goes_up P -> 1 <= i -> i < j -> j <= length P -> (get P i < get P j)%Qc.
Proof. intros U H1 H2 H3. apply (U (i - 1) (j - 1)); [lia|apply get_nth; lia|apply get_nth; lia]. Qed.
Lemma up_le P i j : goes_up P -> 1 <= i -> i <= j -> j <= length P -> (get P i <= get P j)%Qc.
Proof. intros U H1 H2 H3. destruct (Nat.eq_dec i j) as [->|]; [apply Qcle_refl|]. apply Qclt_le_weak, up_lt; auto. lia. Qed.
Lemma down_lt P i j : goes_down P -> 1 <= i -> i < j -> j <= length P -> (get P j < get P i)%Qc.
Proof. intros U H1 H2 H3. apply (U (i - 1) (j - 1)); [lia|apply get_nth; lia|apply get_nth; lia]. Qed.
Lemma down_le P i j : goes_down P -> 1 <= i -> i <= j -> j <= length P -> (get P j <= get P i)%Qc.
Proof. intros U H1 H2 H3. destruct (Nat.eq_dec i j) as [->|]; [apply Qcle_refl|]. apply Qclt_le_weak, down_lt; auto. lia. Qed.
Lemma in_get P p : In p P -> exists i, 1 <= i <= length P /\ get P i = p.
Proof. intros H. apply In_nth_error in H. destruct H as [k Hk]. exists (k + 1).
  assert (k < length P) by (apply nth_error_Some; congruence). split; [lia|].
  assert (E := get_nth P (k + 1) ltac:(lia)). rewrite Nat.add_sub in E. congruence. Qed.
Lemma get_in P i : 1 <= i <= length P -> In (get P i) P.
Proof. intros H. apply nth_error_In with (n := i - 1). apply get_nth; auto. Qed.

(** ** The bisection *)
Definition brk (le : Qc -> Qc -> Prop) (P : list Qc) (t : Qc) (kp : nat) : Prop :=
  1 <= kp < length P /\ (kp = 1 \/ le (get P kp) t) /\ (kp = length P - 1 \/ le t (get P (kp + 1))).
Definition Qcge' (x y : Qc) : Prop := (y <= x)%Qc.
Definition ord (asc : bool) : Qc -> Qc -> Prop := if asc then Qcle else Qcge'.

Lemma locate_loop_ok P t asc : forall fuel low high, 1 <= low <= high -> high < length P -> high - low < fuel ->
  exists kp, locate_loop fuel t P asc low high = Some kp /\ low <= kp <= high /\
   (kp = low \/ ~ ord asc t (get P kp)) /\ (kp = high \/ ord asc t (get P (kp + 1))).
Proof.
  induction fuel as [|fuel IH]; intros low high H1 H2 H3; [lia|]. cbn [locate_loop].
  destruct (Nat.ltb_spec low high) as [L|L].
  - pose proof (mid_below low high L) as M. pose proof (mid_bounds low high ltac:(lia)) as M2.
    set (mid := low + (high - low) / 2) in *. clearbody mid.
    rewrite rd_get by lia. cbn [bind].
    destruct (if asc then Qcleb t (get P (mid + 1)) else Qcleb (get P (mid + 1)) t) eqn:C.
    + assert (O : ord asc t (get P (mid + 1))).
      { destruct asc; cbn [ord]; unfold Qcge'; [destruct (Qcleb_spec t (get P (mid + 1)))|destruct (Qcleb_spec (get P (mid + 1)) t)]; auto; discriminate. }
      destruct (IH low mid) as [kp [E [B [A1 A2]]]]; try lia. exists kp. split; auto. split; [lia|]. split; auto.
      destruct A2 as [->|A2]; auto.
    + assert (O : ~ ord asc t (get P (mid + 1))).
      { destruct asc; cbn [ord]; unfold Qcge'; [destruct (Qcleb_spec t (get P (mid + 1)))|destruct (Qcleb_spec (get P (mid + 1)) t)]; auto; discriminate. }
      destruct (IH (mid + 1) high) as [kp [E [B [A1 A2]]]]; try lia. exists kp. split; auto. split; [lia|]. split; auto.
      right. destruct A1 as [->|A1]; auto.
  - exists low. assert (low = high) by lia. subst. split; auto.
Qed.
Lemma locate_bounds t P asc : 2 <= length P ->
  exists kp, locate_bracketing_level_ordered t P asc = Some kp /\ 1 <= kp < length P.
Proof.
  intros H. unfold locate_bracketing_level_ordered. destruct (Nat.ltb_spec (length P) 2); [lia|].
  rewrite !rd_get by lia. cbn [bind].
  destruct (locate_loop_ok P t asc (length P) 1 (length P - 1)) as [kp [E [B _]]]; try lia.
  destruct asc.
  - destruct (Qcleb t (get P 1)); [exists 1; split; auto; lia|].
    destruct (Qcleb (get P (length P - 1)) t); [exists (length P - 1); split; auto; lia|]. exists kp. split; auto. lia.
  - destruct (Qcleb (get P 1) t); [exists 1; split; auto; lia|].
    destruct (Qcleb t (get P (length P - 1))); [exists (length P - 1); split; auto; lia|]. exists kp. split; auto. lia.
Qed.
Lemma locate_up t P : 2 <= length P -> goes_up P ->
  exists kp, locate_bracketing_level_ordered t P true = Some kp /\ brk Qcle P t kp.
Proof.
  intros H U. unfold locate_bracketing_level_ordered. destruct (Nat.ltb_spec (length P) 2); [lia|].
  rewrite !rd_get by lia. cbn [bind]. unfold brk.
  destruct (Qcleb_spec t (get P 1)) as [C|C].
  { exists 1. split; auto. split; [lia|]. split; auto. right. apply Qcle_trans with (get P 1); auto. apply up_le; auto; lia. }
  destruct (Qcleb_spec (get P (length P - 1)) t) as [D|D].
  { exists (length P - 1). split; auto. split; [lia|]. auto. }
  destruct (locate_loop_ok P t true (length P) 1 (length P - 1)) as [kp [E [B [A1 A2]]]]; try lia.
  exists kp. split; auto. split; [lia|]. split; auto.
  destruct A1 as [A1|A1]; auto. right. cbn [ord] in A1. apply Qclt_le_weak, Qcnot_le_lt; auto.
Qed.
Lemma locate_down t P : 2 <= length P -> goes_down P ->
  exists kp, locate_bracketing_level_ordered t P false = Some kp /\ brk Qcge' P t kp.
Proof.
  intros H U. unfold locate_bracketing_level_ordered. destruct (Nat.ltb_spec (length P) 2); [lia|].
  rewrite !rd_get by lia. cbn [bind]. unfold brk, Qcge'.
  destruct (Qcleb_spec (get P 1) t) as [C|C].
  { exists 1. split; auto. split; [lia|]. split; auto. right. apply Qcle_trans with (get P 1); auto. apply down_le; auto; lia. }
  destruct (Qcleb_spec t (get P (length P - 1))) as [D|D].
  { exists (length P - 1). split; auto. split; [lia|]. auto. }
  destruct (locate_loop_ok P t false (length P) 1 (length P - 1)) as [kp [E [B [A1 A2]]]]; try lia.
  exists kp. split; auto. split; [lia|]. cbn [ord] in *. unfold Qcge' in *. split; auto.
  destruct A1 as [A1|A1]; auto. right. apply Qclt_le_weak, Qcnot_le_lt; auto.
Qed.

(** ** The walk *)
Lemma walk_ok P t : forall hint, hint <= length P ->
  exists kp, walk_down P t hint = Some kp /\ kp <= hint /\ (hint >= 1 -> kp >= 1) /\
    (kp <= 1 \/ (get P kp <= t)%Qc) /\ (kp = hint \/ (t < get P (kp + 1))%Qc).
Proof.
  induction hint as [|hint IH]; intros H.
  - exists 0. simpl. split; auto. split; auto.
  - destruct hint as [|h].
    + exists 1. simpl. split; auto.
    + cbn [walk_down]. rewrite rd_get by lia. cbn [bind]. destruct (Qcltb_spec t (get P (Datatypes.S (Datatypes.S h)))) as [C|C].
      * destruct IH as [kp [E [B [B1 [A1 A2]]]]]; [lia|]. cbn [walk_down] in E. rewrite E. exists kp. split; auto. split; [lia|]. split; [lia|]. split; auto.
        right. destruct A2 as [->|A2]; auto. replace (Datatypes.S h + 1) with (Datatypes.S (Datatypes.S h)) by lia. auto.
      * exists (Datatypes.S (Datatypes.S h)). split; auto. split; auto. split; [lia|]. split; auto. right. apply Qcnot_lt_le; auto.
Qed.

(** two brackets of one target are equal, or the target is the level they share *)
Lemma brk_unique P t k k' : goes_up P -> (t <= get P (length P))%Qc -> brk Qcle P t k -> brk Qcle P t k' -> k < k' ->
  k' = k + 1 /\ t = get P k'.
Proof.
  intros U T [B [L R]] [B' [L' R']] H.
  assert (R1 : (t <= get P (k + 1))%Qc) by (destruct R as [R|R]; [lia|auto]).
  assert (L1 : (get P k' <= t)%Qc) by (destruct L' as [L'|L']; [lia|auto]).
  assert (E : k' = k + 1).
  { destruct (Nat.eq_dec k' (k + 1)); auto. exfalso. pose proof (up_lt P (k + 1) k' U ltac:(lia) ltac:(lia) ltac:(lia)) as X.
    apply (Qclt_not_le _ _ X). apply Qcle_trans with t; auto. }
  split; auto. subst k'. apply Qcle_antisym; auto.
Qed.

(** ** Proportions *)
Section Col.
Variable lg : Qc -> Qc.
Local Notation part := (part lg).
Definition lerp' (x y : option Qc) (w : Qc) : option Qc :=
  match x, y with Some a, Some b => Some (along a b w) | _, _ => None end.
Lemma lerp_lerp' x y n d : lerp x y n d = lerp' x y (n / d)%Qc.
Proof. destruct x, y; cbn; auto. f_equal. unfold along, Qcdiv. ring. Qed.
Lemma Qc_scale a b c : (c <> 0)%Qc -> ((a * c) / (b * c) = a / b)%Qc.
Proof.
  intros H. destruct (Qc_eq_dec b 0%Qc) as [->|N].
  - replace (0 * c)%Qc with 0%Qc by ring. unfold Qcdiv. replace (/ 0)%Qc with 0%Qc by (apply Qc_is_canon; reflexivity). ring.
  - field. split; auto.
Qed.
Lemma hundredth_neq : (dec 1 100 <> 0)%Qc.
Proof. intros E. apply this_eq_Qc in E. vm_compute in E. discriminate. Qed.
Lemma hundredth_pos : (0 < dec 1 100)%Qc.
Proof. vm_compute. reflexivity. Qed.
Lemma mb_lt x y : (to_mb x < to_mb y)%Qc <-> (x < y)%Qc.
Proof.
  unfold to_mb. pose proof hundredth_pos as H. set (c := dec 1 100) in *. clearbody c. split; intros L.
  - destruct (Qclt_le_dec x y); auto. exfalso. apply (Qclt_not_le _ _ L). apply Qcmult_le_compat_r; auto. apply Qclt_le_weak; auto.
  - apply Qcmult_lt_compat_r; auto.
Qed.
Lemma mb_inj x y : to_mb x = to_mb y -> x = y.
Proof.
  intros E. destruct (Qc_dec x y) as [[L|L]|]; auto; apply mb_lt in L; rewrite E in L; destruct (Qclt_not_eq _ _ L eq_refl).
Qed.
Lemma mb_le x y : (to_mb x <= to_mb y)%Qc <-> (x <= y)%Qc.
Proof.
  split; intros L; apply Qcnot_lt_le; intros C; apply (Qcle_not_lt _ _ L); apply mb_lt; auto.
Qed.
Lemma part_mb intyp t p q tl : tl = double_log_pressure lg (to_mb t) ->
  (if (intyp =? 1)%Z then (to_mb t - to_mb p) / (to_mb q - to_mb p)
   else if (intyp =? 2)%Z then lg (to_mb t / to_mb p) / lg (to_mb q / to_mb p)
   else (tl - double_log_pressure lg (to_mb p)) / (double_log_pressure lg (to_mb q) - double_log_pressure lg (to_mb p)))%Qc
  = part intyp t p q.
Proof.
  intros ->. unfold part. destruct (intyp =? 1)%Z; [|destruct (intyp =? 2)%Z].
  - unfold linear_part, to_mb. rewrite <- (Qc_scale (t - p) (q - p) _ hundredth_neq). f_equal; ring.
  - unfold log_part, to_mb. rewrite !(Qc_scale _ _ _ hundredth_neq). reflexivity.
  - reflexivity.
Qed.
Lemma pressures_mb a b p0 ps : build_input_pressures a b (to_mb p0) (to_mb ps) = map to_mb (hybrid_pressures a b p0 ps).
Proof. unfold build_input_pressures, hybrid_pressures. rewrite map_map. apply map_ext. intros [x y]. simpl. unfold to_mb. ring. Qed.
Lemma pressures_length a b p0 ps : length a = length b -> length (hybrid_pressures a b p0 ps) = length a.
Proof. intros H. unfold hybrid_pressures. rewrite map_length, combine_length. lia. Qed.
Lemma up_mb P : goes_up P -> goes_up (map to_mb P).
Proof. intros U i j p q H Hi Hj. rewrite nth_error_map in *. destruct (nth_error P i) eqn:E1, (nth_error P j) eqn:E2; simpl in *; try discriminate.
  injection Hi as <-. injection Hj as <-. apply mb_lt. eapply U; eauto. Qed.
Lemma down_mb P : goes_down P -> goes_down (map to_mb P).
Proof. intros U i j p q H Hi Hj. rewrite nth_error_map in *. destruct (nth_error P i) eqn:E1, (nth_error P j) eqn:E2; simpl in *; try discriminate.
  injection Hi as <-. injection Hj as <-. apply mb_lt. eapply U; eauto. Qed.

(** the value computed from the pair (kp, kp+1) *)
Lemma node_value_ok intyp X P kp t : length X = length P -> 1 <= kp < length P ->
  exists x y, rd X kp = Some x /\ rd X (kp + 1) = Some y /\
  node_value lg intyp X (map to_mb P) kp (to_mb t) (double_log_pressure lg (to_mb t)) =
    Some (lerp' x y (part intyp t (get P kp) (get P (kp + 1)))).
Proof.
  intros L H. destruct (rd_Some X (i := kp) ltac:(lia)) as [x Ex]. destruct (rd_Some X (i := kp + 1) ltac:(lia)) as [y Ey].
  exists x, y. split; auto. split; auto. unfold node_value. rewrite Ex, Ey. cbn [bind].
  rewrite !rd_map, !rd_get by lia. cbn [option_map bind].
  rewrite <- (part_mb intyp t _ _ _ eq_refl). f_equal.
  destruct (intyp =? 1)%Z; [apply lerp_lerp'|]. destruct (intyp =? 2)%Z; apply lerp_lerp'.
Qed.

(** ** The loop without the walk *)
Definition search_target (intyp : Z) (X : list (option Qc)) (plevi : list Qc) (asc : bool) (bottom : Qc) (bpair : nat)
    (spv : Qc) (kxtrp : Z) (tt : Qc * Qc) : option (option Qc) :=
  let (t, tl) := tt in
  if Qcltb bottom t then
    if (kxtrp =? 0)%Z then Some (Some spv) else node_value lg intyp X plevi bpair t tl
  else
    let* kp := locate_bracketing_level_ordered t plevi asc in
    if kp <? 1 then Some (Some spv) else node_value lg intyp X plevi kp t tl.
Lemma nodes_loop_search intyp X plevi asc bottom bpair spv kxtrp : forall ts hint,
  nodes_loop lg intyp X plevi asc false bottom bpair spv kxtrp ts hint =
  mapM (search_target intyp X plevi asc bottom bpair spv kxtrp) ts.
Proof.
  induction ts as [|[t tl] ts IH]; intros hint; simpl; auto.
  destruct (Qcltb bottom t).
  - destruct (kxtrp =? 0)%Z; simpl; rewrite IH; auto.
  - destruct (locate_bracketing_level_ordered t plevi asc); simpl; auto. rewrite IH. auto.
Qed.

Definition no_nan (X : list (option Qc)) : Prop := ~ In None X.
Definition part_ok (intyp : Z) (P : list Qc) : Prop :=
  forall p q, In p P -> In q P -> p <> q -> part intyp p p q = 0%Qc /\ part intyp q p q = 1%Qc.

(** at a shared level both pairs give the level's value *)
Lemma shared_level intyp X P k : goes_up P -> length X = length P -> part_ok intyp P -> no_nan X -> 1 <= k -> k + 1 < length P ->
  forall t, t = get P (k + 1) ->
  node_value lg intyp X (map to_mb P) k (to_mb t) (double_log_pressure lg (to_mb t)) =
  node_value lg intyp X (map to_mb P) (k + 1) (to_mb t) (double_log_pressure lg (to_mb t)).
Proof.
  intros U L W NN H1 H2 t ->.
  destruct (node_value_ok intyp X P k (get P (k + 1)) L ltac:(lia)) as [x [y [Ex [Ey ->]]]].
  destruct (node_value_ok intyp X P (k + 1) (get P (k + 1)) L ltac:(lia)) as [y' [z [Ey' [Ez ->]]]].
  rewrite Ey in Ey'. injection Ey' as <-. f_equal.
  assert (Hin : forall i v, rd X i = Some v -> v <> None).
  { intros i v E ->. apply NN. destruct i; [discriminate|]. simpl in E. eapply nth_error_In; eauto. }
  pose proof (Hin _ _ Ex). pose proof (Hin _ _ Ey). pose proof (Hin _ _ Ez).
  destruct x as [x|], y as [y|], z as [z|]; try congruence. cbn [lerp'].
  pose proof (up_lt P k (k + 1) U ltac:(lia) ltac:(lia) ltac:(lia)) as O1.
  pose proof (up_lt P (k + 1) (k + 1 + 1) U ltac:(lia) ltac:(lia) ltac:(lia)) as O2.
  destruct (W (get P k) (get P (k + 1))) as [_ W1]; try (apply get_in; lia). { intros E. rewrite E in O1. destruct (Qclt_not_eq _ _ O1 eq_refl). }
  destruct (W (get P (k + 1)) (get P (k + 1 + 1))) as [W0 _]; try (apply get_in; lia). { intros E. rewrite E in O2. destruct (Qclt_not_eq _ _ O2 eq_refl). }
  rewrite W1, W0. f_equal. unfold along. ring.
Qed.
Lemma get_mb P i : 1 <= i <= length P -> get (map to_mb P) i = to_mb (get P i).
Proof. intros H. apply get_map; auto. Qed.

(** the walk does the same as the search: [t_prev] bounds the targets still to come *)
Lemma nodes_loop_walk intyp X P spv : goes_up P -> length X = length P -> 2 <= length P -> part_ok intyp P ->
  forall ts hint, never_up (map to_mb ts) = true ->
  (no_nan X \/ forall t, In t ts -> ~ In t P) ->
  1 <= hint < length P -> (forall t, In t ts -> hint = length P - 1 \/ (t < get P (hint + 1))%Qc) ->
  nodes_loop lg intyp X (map to_mb P) true true (to_mb (get P (length P))) (length P - 1) spv 0
    (map (fun t => (to_mb t, double_log_pressure lg (to_mb t))) ts) hint =
  mapM (search_target intyp X (map to_mb P) true (to_mb (get P (length P))) (length P - 1) spv 0)
    (map (fun t => (to_mb t, double_log_pressure lg (to_mb t))) ts).
Proof.
  intros U L N W. assert (N' : 2 <= length (map to_mb P)) by (rewrite map_length; auto).
  induction ts as [|t ts IH]; intros hint NU D Hh Hb; [reflexivity|].
  assert (Hdesc : forall t', In t' ts -> (t' <= t)%Qc).
  { clear - NU. revert t NU. induction ts as [|u ts IH]; intros t NU t' [].
    - subst. simpl in NU. destruct (Qcltb_spec (to_mb t) (to_mb t')) as [|C]; [discriminate|]. apply mb_le. apply Qcnot_lt_le; auto.
    - simpl in NU. destruct (Qcltb_spec (to_mb t) (to_mb u)) as [|C]; [discriminate|]. apply Qcle_trans with u.
      + apply IH; auto. + apply mb_le. apply Qcnot_lt_le; auto. }
  assert (NU' : never_up (map to_mb ts) = true).
  { clear - NU. destruct ts; auto. simpl in NU. apply andb_true_iff in NU. apply NU. }
  assert (D' : no_nan X \/ (forall t, In t ts -> ~ In t P)) by (destruct D; [auto|right; intros; apply H; right; auto]).
  cbn [map nodes_loop mapM search_target Z.eqb].
  destruct (Qcltb_spec (to_mb (get P (length P))) (to_mb t)) as [C|C].
  - cbn [bind]. rewrite IH; auto. intros u Hu. apply Hb. right; auto.
  - assert (Ct : (t <= get P (length P))%Qc) by (apply mb_le, Qcnot_lt_le; auto). clear C.
    destruct (walk_ok (map to_mb P) (to_mb t) hint) as [kw [Ew [Bw [Bw1 [A1 A2]]]]]; [rewrite map_length; lia|].
    destruct (locate_up (to_mb t) (map to_mb P) N' (up_mb P U)) as [kl [El Bl]].
    rewrite Ew, El. cbn [bind].
    assert (Bkw : brk Qcle P t kw).
    { split; [lia|]. split.
      - destruct (Nat.eq_dec kw 1); auto. right. destruct A1 as [A1|A1]; [lia|]. rewrite get_mb in A1 by lia. apply mb_le; auto.
      - destruct A2 as [->|A2].
        + destruct (Hb t (or_introl eq_refl)) as [E|E]; [auto|]. right. apply Qclt_le_weak; auto.
        + right. rewrite get_mb in A2 by lia. apply Qclt_le_weak, mb_lt; auto. }
    assert (Bkl : brk Qcle P t kl).
    { destruct Bl as [B [LL RR]]. rewrite map_length in *. split; auto. rewrite !get_mb in * by lia. rewrite !mb_le in *. auto. }
    assert (V : (if kw <? 1 then Some (Some spv) else node_value lg intyp X (map to_mb P) kw (to_mb t) (double_log_pressure lg (to_mb t))) =
                (if kl <? 1 then Some (Some spv) else node_value lg intyp X (map to_mb P) kl (to_mb t) (double_log_pressure lg (to_mb t)))).
    { destruct Bkw as [Bk Bk']. destruct Bkl as [Bl1 Bl2].
      destruct (Nat.ltb_spec kw 1); [lia|]. destruct (Nat.ltb_spec kl 1); [lia|].
      destruct (lt_eq_lt_dec kw kl) as [[H1|H1]|H1].
      - destruct (brk_unique P t kw kl U Ct (conj Bk Bk') (conj Bl1 Bl2) H1) as [-> E].
        destruct D as [D|D]; [|exfalso; apply (D t (or_introl eq_refl)); rewrite E; apply get_in; lia].
        apply shared_level; auto; lia.
      - subst; auto.
      - destruct (brk_unique P t kl kw U Ct (conj Bl1 Bl2) (conj Bk Bk') H1) as [-> E].
        destruct D as [D|D]; [|exfalso; apply (D t (or_introl eq_refl)); rewrite E; apply get_in; lia].
        symmetry. apply shared_level; auto; lia. }
    rewrite V. destruct (if kl <? 1 then _ else _); cbn [bind]; auto. rewrite IH; auto; [lia|].
    intros u Hu. destruct A2 as [->|A2].
    + apply Hb. right; auto.
    + right. rewrite get_mb in A2 by lia. apply (proj1 (mb_lt _ _)) in A2. apply Qcle_lt_trans with t; auto.
Qed.
End Col.
