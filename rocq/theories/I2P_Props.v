(** Properties C22, C23, C24: one-dimensional pressure interpolation. *)
From Verif Require Import Base Buffer Loops I2P_Model I2P_Spec I2P_Proofs I2P_Proofs2.
Local Open Scope nat_scope.
Local Opaque spvl.

(** what every theorem below asks of a call *)
Definition call_ok (lg : Qc -> Qc) (data src tgt : list (option Qc)) (log_method : bool) (mv : option Qc) : Prop :=
  length data = length src /\
  all_below spvl src /\ all_below spvl data /\ all_below spvl tgt /\
  order_visible mv src data /\
  (log_method = true -> increasing_on_positive lg).

Section Derived.
Variable lg : Qc -> Qc.
Lemma call_result data src tgt lm ex mv out j t : call_ok lg data src tgt lm mv ->
  interp_pressure_1d lg data src tgt lm ex mv = Some out -> nth_error tgt j = Some t ->
  exists o, nth_error out j = Some o /\
    good_at mv (fun q r => pvalue (level mv src data) (if lm then lg else (fun p => p)) ex
                           (if lm then low_log lg else on_line (fun p => p)) q r) t o /\
    one_value (level mv src data) /\ (exists p x, level mv src data p x) /\
    (lm = true -> forall p x, level mv src data p x -> (0 < p)%Qc).
Proof.
  intros [Hl [B1 [B2 [B3 [V Hlg]]]]] E Hj.
  assert (Ht : tgt <> []) by (intros ->; destruct j; discriminate).
  assert (A := wrapper_accepts lg _ _ _ _ _ _ _ Hl Ht E).
  destruct (wrapper_ok lg data src tgt lm ex mv) as [o [Eo G]]; auto.
  assert (o = out) by congruence. subst o.
  assert (Hget : forall (P : option Qc -> option Qc -> Prop) l l', Forall2 P l l' -> forall k t, nth_error l k = Some t ->
     exists o, nth_error l' k = Some o /\ P t o).
  { clear. induction 1 as [|a b l l' H _ IH]; intros [|k] t Hk; try discriminate; simpl in *.
    - injection Hk as <-. eauto. - eauto. }
  destruct (Hget _ _ _ G _ _ Hj) as [o [Ho Go]]. exists o. split; auto. split; auto.
  destruct (levels_one_value _ _ _ _ _ A) as [O X]. split; auto. split; auto.
  intros L p x Hp. destruct (accepted_log _ _ _ A L) as [P _]. apply P. apply levels_in in Hp.
  apply in_map_iff. exists (p, x). auto.
Qed.

Lemma level_below mv src data p x : all_below spvl data -> level mv src data p x -> (x < spvl)%Qc.
Proof. intros H [i [_ [A _]]]. apply H. eapply nth_error_In; eauto. Qed.

Lemma on_line_weight c p0 x0 p1 x1 t : (c p1 < c t)%Qc -> (c t < c p0)%Qc ->
  exists w, (0 < w)%Qc /\ (w < 1)%Qc /\ on_line c p0 x0 p1 x1 t = (w * x0 + (1 - w) * x1)%Qc.
Proof.
  intros H1 H2. exists ((c t - c p1) / (c p0 - c p1))%Qc.
  assert (P : (0 < c p0 - c p1)%Qc) by qclra.
  assert (W0 : (0 < (c t - c p1) / (c p0 - c p1))%Qc) by (apply Qcdiv_pos; [qclra|auto]).
  assert (W1 : (0 < (c p0 - c t) / (c p0 - c p1))%Qc) by (apply Qcdiv_pos; [qclra|auto]).
  assert (S1 : ((c t - c p1) / (c p0 - c p1) + (c p0 - c t) / (c p0 - c p1) = 1)%Qc).
  { field. intros X. rewrite X in P. qclra. }
  split; auto. split; [qclra|]. unfold on_line. ring.
Qed.
Lemma weight_below w a b u : (0 < w)%Qc -> (w < 1)%Qc -> (a < u)%Qc -> (b < u)%Qc -> (w * a + (1 - w) * b < u)%Qc.
Proof.
  intros W0 W1 Ha Hb.
  assert (X : (0 < w * (u - a))%Qc) by (apply Qcmul_pos; qclra).
  assert (Y : (0 < (1 - w) * (u - b))%Qc) by (apply Qcmul_pos; qclra).
  assert (E : (u - (w * a + (1 - w) * b) = w * (u - a) + (1 - w) * (u - b))%Qc) by ring.
  qclra.
Qed.
End Derived.

(** ** C22 *)

(** at a usable source level the result is the value given there *)
Theorem int2p_at_level : forall lg data src tgt lm ex mv out j p x,
  call_ok lg data src tgt lm mv ->
  interp_pressure_1d lg data src tgt lm ex mv = Some out ->
  level mv src data p x -> nth_error tgt j = Some (Some p) ->
  nth_error out j = Some (Some x).
Proof.
  intros lg data src tgt lm ex mv out j p x H E L Hj.
  destruct (call_result lg _ _ _ _ _ _ _ _ _ H E Hj) as [o [-> [[_ G] [O [X _]]]]]. f_equal.
  assert (L' := L). destruct L' as [i [_ [_ [Np _]]]]. apply masked_false in Np.
  destruct (G Np p eq_refl) as [r [Hr ->]].
  assert (r = Some x). { eapply pvalue_unique; eauto. apply pv_level; auto. }
  subst r. simpl. destruct H as [_ [_ [B _]]]. assert (Y := level_below _ _ _ _ _ B L).
  destruct (Qceqb_spec x spvl) as [->|]; [exfalso; qclra|reflexivity].
Qed.

(** strictly between two neighbouring usable levels the result is a weighted
    mean, with weights strictly between 0 and 1, of the values at exactly those
    two levels; linear in pressure or in its logarithm *)
Theorem int2p_between : forall lg data src tgt lm ex mv out j t p0 x0 p1 x1,
  call_ok lg data src tgt lm mv ->
  interp_pressure_1d lg data src tgt lm ex mv = Some out ->
  nth_error tgt j = Some (Some t) -> ~ is_missing mv (Some t) ->
  neighbours (level mv src data) p0 x0 p1 x1 -> (p1 < t)%Qc -> (t < p0)%Qc ->
  nth_error out j = Some (Some (on_line (if lm then lg else (fun p => p)) p0 x0 p1 x1 t)) /\
  exists w, (0 < w)%Qc /\ (w < 1)%Qc /\
    on_line (if lm then lg else (fun p => p)) p0 x0 p1 x1 t = (w * x0 + (1 - w) * x1)%Qc.
Proof.
  intros lg data src tgt lm ex mv out j t p0 x0 p1 x1 H E Hj Nt N T1 T2.
  destruct (call_result lg _ _ _ _ _ _ _ _ _ H E Hj) as [o [-> [[_ G] [O [X P]]]]].
  apply masked_false in Nt. destruct (G Nt t eq_refl) as [r [Hr ->]].
  assert (r = Some (on_line (if lm then lg else (fun p => p)) p0 x0 p1 x1 t)).
  { eapply pvalue_unique; eauto. apply pv_between; auto. }
  subst r. destruct H as [_ [_ [B [_ [_ Hlg]]]]]. destruct N as [L0 [L1 _]].
  assert (W : exists w, (0 < w)%Qc /\ (w < 1)%Qc /\
    on_line (if lm then lg else (fun p => p)) p0 x0 p1 x1 t = (w * x0 + (1 - w) * x1)%Qc).
  { apply on_line_weight; destruct lm; auto; apply Hlg; auto.
    - eapply P; eauto.
    - assert (0 < p1)%Qc by (eapply P; eauto). qclra. }
  split; auto. f_equal. simpl. destruct W as [w [W0 [W1 ->]]].
  assert (Y := weight_below w x0 x1 spvl W0 W1 (level_below _ _ _ _ _ B L0) (level_below _ _ _ _ _ B L1)).
  destruct (Qceqb_spec (w * x0 + (1 - w) * x1)%Qc spvl) as [Z|]; [exfalso; rewrite Z in Y; qclra|reflexivity].
Qed.

(** outside the range of the usable levels, without extrapolation: missing *)
Theorem int2p_outside_missing : forall lg data src tgt lm mv out j t,
  call_ok lg data src tgt lm mv ->
  interp_pressure_1d lg data src tgt lm false mv = Some out ->
  nth_error tgt j = Some (Some t) -> ~ is_missing mv (Some t) ->
  (forall p x, level mv src data p x -> (p < t)%Qc) \/ (forall p x, level mv src data p x -> (t < p)%Qc) ->
  nth_error out j = Some mv.
Proof.
  intros lg data src tgt lm mv out j t H E Hj Nt Ho.
  destruct (call_result lg _ _ _ _ _ _ _ _ _ H E Hj) as [o [-> [[_ G] [O [X _]]]]].
  apply masked_false in Nt. destruct (G Nt t eq_refl) as [r [Hr ->]].
  assert (r = None) by (eapply pvalue_unique; eauto; apply pv_outside; auto). subst. reflexivity.
Qed.

(** missing targets give missing results *)
Theorem int2p_missing_target : forall lg data src tgt lm ex mv out j t,
  call_ok lg data src tgt lm mv ->
  interp_pressure_1d lg data src tgt lm ex mv = Some out ->
  nth_error tgt j = Some t -> is_missing mv t -> nth_error out j = Some mv.
Proof.
  intros lg data src tgt lm ex mv out j t H E Hj Nt.
  destruct (call_result lg _ _ _ _ _ _ _ _ _ H E Hj) as [o [-> [[G _] _]]].
  apply masked_iff in Nt. rewrite (G Nt). reflexivity.
Qed.

(** with extrapolation: above the highest pressure, the line through the two
    highest-pressure levels; below the lowest, the line through the two lowest,
    except in log pressure, where the archived rule adds the difference of the
    two values *)
Theorem int2p_extrapolates : forall lg data src tgt lm mv out j t p0 x0 p1 x1,
  call_ok lg data src tgt lm mv ->
  interp_pressure_1d lg data src tgt lm true mv = Some out ->
  nth_error tgt j = Some (Some t) -> ~ is_missing mv (Some t) ->
  neighbours (level mv src data) p0 x0 p1 x1 ->
  let line := on_line (if lm then lg else (fun p => p)) p0 x0 p1 x1 t in
  ((p0 < t)%Qc -> (forall p x, level mv src data p x -> (p <= p0)%Qc) -> line <> spvl ->
     nth_error out j = Some (Some line)) /\
  ((t < p1)%Qc -> (forall p x, level mv src data p x -> (p1 <= p)%Qc) ->
     let v := if lm then (line + (x1 - x0))%Qc else line in
     v <> spvl -> nth_error out j = Some (Some v)).
Proof.
  intros lg data src tgt lm mv out j t p0 x0 p1 x1 H E Hj Nt N line.
  destruct (call_result lg _ _ _ _ _ _ _ _ _ H E Hj) as [o [-> [[_ G] [O [X P]]]]].
  apply masked_false in Nt. destruct (G Nt t eq_refl) as [r [Hr ->]]. split.
  - intros Tt Top Ns. assert (r = Some line).
    { eapply pvalue_unique; eauto. apply pv_above; auto. intros p x L. assert (Y := Top p x L). qclra. }
    subst r. simpl. destruct (Qceqb_spec line spvl); [contradiction|reflexivity].
  - intros Tt Bot v Ns. assert (r = Some v).
    { eapply pvalue_unique; eauto. 
      assert (Y : pvalue (level mv src data) (if lm then lg else (fun p => p)) true
                   (if lm then low_log lg else on_line (fun p => p)) t
                   (Some ((if lm then low_log lg else on_line (fun p => p)) p0 x0 p1 x1 t))).
      { apply pv_below; auto. intros p x L. assert (Y := Bot p x L). qclra. }
      unfold v, line. destruct lm; exact Y. }
    subst r. simpl. destruct (Qceqb_spec v spvl); [contradiction|reflexivity].
Qed.

(** so log extrapolation below the lowest level does not continue the profile:
    arbitrarily close to the lowest level the result is off by [x1 - x0] *)
Theorem int2p_log_low_extrapolation_refuted :
  exists (lg : Qc -> Qc) data src t out v,
    increasing_on_positive lg /\
    call_ok lg data src [Some t] true None /\
    interp_pressure_1d lg data src [Some t] true true None = Some out /\
    nth_error out 0 = Some (Some v) /\
    (* the two levels are 100 -> 1 and 200 -> 2; t = 99 *)
    (v < qz 0)%Qc.
Proof.
  exists (fun p => p), [Some (qz 2); Some (qz 1)], [Some (qz 200); Some (qz 100)], (qz 99).
  assert (I : increasing_on_positive (fun p => p)) by (intros a b _ H; exact H).
  assert (B : forall l, Forall (fun o => match o with Some q => Qcltb q spvl = true | None => True end) l -> all_below spvl l).
  { intros l H q Hq. rewrite Forall_forall in H. apply ltb_iff. apply (H _ Hq). }
  eexists. eexists. split; [exact I|]. split.
  { repeat split; auto; try (apply B; repeat constructor; vm_compute; reflexivity).
    exists (qz 200), (qz 100), []. split; [reflexivity|].
    split; [|split]; try (intros [X|[m [X _]]]; discriminate).
    split; [intros X; exfalso; vm_compute in X; discriminate|].
    intros U. exfalso. assert (X := U 0%nat 1%nat (qz 200) (qz 100) (qz 2) (qz 1)).
    assert (Y : (qz 200 < qz 100)%Qc) by (apply X; auto; intros [Z|[m [Z _]]]; discriminate).
    vm_compute in Y. discriminate. }
  split; [vm_compute; reflexivity|]. split; [reflexivity|]. vm_compute. reflexivity.
Qed.

(** ** C23 and C24 *)

(** two calls with the same usable levels give the same value at the same
    target, wherever the levels and the target are stored *)
Theorem int2p_depends_only_on_levels : forall lg data src tgt data' src' tgt' lm ex mv out out',
  call_ok lg data src tgt lm mv -> call_ok lg data' src' tgt' lm mv ->
  (forall p x, level mv src data p x <-> level mv src' data' p x) ->
  interp_pressure_1d lg data src tgt lm ex mv = Some out ->
  interp_pressure_1d lg data' src' tgt' lm ex mv = Some out' ->
  forall j j' t, nth_error tgt j = Some t -> nth_error tgt' j' = Some t ->
  nth_error out j = nth_error out' j'.
Proof.
  intros lg data src tgt data' src' tgt' lm ex mv out out' [A1 [A2 [A3 [A4 [A5 A6]]]]] [B1 [B2 [B3 [B4 [B5 B6]]]]] HL E E'.
  apply (depends_only_on_levels lg data src tgt data' src' tgt' lm ex mv out out'); auto.
Qed.

(** reversing the source: same result, and the same calls raise *)
Theorem int2p_source_reversed : forall lg data src tgt lm ex mv,
  call_ok lg data src tgt lm mv -> call_ok lg (rev data) (rev src) tgt lm mv ->
  interp_pressure_1d lg (rev data) (rev src) tgt lm ex mv = interp_pressure_1d lg data src tgt lm ex mv.
Proof.
  intros lg data src tgt lm ex mv [A1 [A2 [A3 [A4 [A5 A6]]]]] [B1 [B2 [B3 [B4 [B5 B6]]]]].
  apply same_levels_same_result; auto. right. apply levels_rev. auto.
Qed.

(** reversing the targets reverses the result *)
Lemma targets_rev mv tgt : targets mv (rev tgt) = rev (targets mv tgt).
Proof.
  assert (App : forall a b, targets mv (a ++ b) = targets mv a ++ targets mv b).
  { induction a as [|v a IH]; intros b; [reflexivity|]. cbn [app targets]. rewrite IH. destruct (masked mv v); auto. destruct v; auto. }
  induction tgt as [|v tgt IH]; [reflexivity|]. cbn [rev targets]. rewrite App, IH. cbn [targets].
  destruct (masked mv v); [apply app_nil_r|]. destruct v; [reflexivity|apply app_nil_r].
Qed.
Lemma nth_error_rev (A : Type) (l : list A) k : k < length l -> nth_error (rev l) k = nth_error l (length l - 1 - k).
Proof.
  intros Hk. destruct l as [|d l']; [simpl in Hk; lia|]. set (l0 := d :: l') in *.
  rewrite (nth_error_nth' (rev l0) d) by (rewrite rev_length; lia).
  rewrite (nth_error_nth' l0 d) by lia. rewrite rev_nth by lia. f_equal. f_equal. lia.
Qed.
Theorem int2p_targets_reversed : forall lg data src tgt lm ex mv,
  call_ok lg data src tgt lm mv ->
  interp_pressure_1d lg data src (rev tgt) lm ex mv =
  match interp_pressure_1d lg data src tgt lm ex mv with Some out => Some (rev out) | None => None end.
Proof.
  intros lg data src tgt lm ex mv H. assert (H0 := H). destruct H as [A1 [A2 [A3 [A4 [A5 A6]]]]].
  assert (A4' : all_below spvl (rev tgt)). { intros q Hq. apply A4. apply in_rev. auto. }
  assert (H1 : call_ok lg data src (rev tgt) lm mv) by (repeat split; auto).
  destruct (list_eq_dec (fun a b : option Qc => ltac:(decide equality; apply Qc_eq_dec)) tgt []) as [->|Ht].
  { unfold interp_pressure_1d. rewrite A1, !Nat.eqb_refl. reflexivity. }
  assert (Ht' : rev tgt <> []). { intros X. apply Ht. rewrite <- (rev_involutive tgt), X. reflexivity. }
  assert (Hacc : accepted (map fst (levels mv src data)) (targets mv (rev tgt)) lm = accepted (map fst (levels mv src data)) (targets mv tgt) lm).
  { rewrite targets_rev. unfold accepted. rewrite strict_monotonic_rev.
    replace (forallb (Qcltb 0%Qc) (rev (targets mv tgt))) with (forallb (Qcltb 0%Qc) (targets mv tgt)); [reflexivity|].
    apply eq_true_iff_eq. rewrite !forallb_forall. split; intros H a Ha; apply H; [apply in_rev|apply in_rev; rewrite rev_involutive]; auto. }
  destruct (accepted (map fst (levels mv src data)) (targets mv tgt) lm) eqn:A.
  - destruct (wrapper_ok lg data src tgt lm ex mv) as [o [Eo G]]; auto.
    destruct (wrapper_ok lg data src (rev tgt) lm ex mv) as [o' [Eo' G']]; auto.
    rewrite Eo, Eo'. f_equal.
    assert (L := out_length lg _ _ _ _ _ _ _ A1 Ht A2 A3 A4 A5 A6 Eo).
    assert (L' := out_length lg _ _ _ _ _ _ _ A1 Ht' A2 A3 A4' A5 A6 Eo'). rewrite rev_length in L'.
    apply nth_error_ext. intros j. destruct (le_lt_dec (length tgt) j) as [Hj|Hj].
    { rewrite (proj2 (nth_error_None o' j)) by lia. rewrite (proj2 (nth_error_None (rev o) j)); auto. rewrite rev_length. lia. }
    rewrite (nth_error_rev _ o) by lia. rewrite L.
    destruct (nth_error (rev tgt) j) as [t|] eqn:Et.
    2: { apply nth_error_None in Et. rewrite rev_length in Et. lia. }
    assert (Et2 := Et). rewrite nth_error_rev in Et2 by lia.
    apply (int2p_depends_only_on_levels lg data src (rev tgt) data src tgt lm ex mv o' o H1 H0 (fun p x => iff_refl _) Eo' Eo _ _ t Et Et2).
  - rewrite !wrapper_unfold by auto. rewrite Hacc, A. reflexivity.
Qed.

(** removing a level whose pressure or value is missing changes nothing *)
Theorem int2p_missing_level_absent : forall lg d1 b d2 s1 a s2 tgt lm ex mv,
  length d1 = length s1 -> is_missing mv a \/ is_missing mv b ->
  call_ok lg (d1 ++ b :: d2) (s1 ++ a :: s2) tgt lm mv -> call_ok lg (d1 ++ d2) (s1 ++ s2) tgt lm mv ->
  interp_pressure_1d lg (d1 ++ d2) (s1 ++ s2) tgt lm ex mv =
  interp_pressure_1d lg (d1 ++ b :: d2) (s1 ++ a :: s2) tgt lm ex mv.
Proof.
  intros lg d1 b d2 s1 a s2 tgt lm ex mv Hl Hm [A1 [A2 [A3 [A4 [A5 A6]]]]] [B1 [B2 [B3 [B4 [B5 B6]]]]].
  apply same_levels_same_result; auto. left. rewrite !levels_app by auto. f_equal. cbn [levels].
  assert (masked mv b || masked mv a = true) as ->; [|reflexivity].
  destruct Hm as [Hm|Hm]; apply masked_iff in Hm; rewrite Hm; [apply orb_true_r|reflexivity].
Qed.

(** when the storage order is visible: complete pressures stepping one way *)
Theorem int2p_complete_pressures_visible : forall mv data src,
  length data = length src ->
  (forall a, In a src -> ~ is_missing mv a) ->
  (forall i j a b, i < j -> nth_error src i = Some (Some a) -> nth_error src j = Some (Some b) -> (a < b)%Qc) \/
  (forall i j a b, i < j -> nth_error src i = Some (Some a) -> nth_error src j = Some (Some b) -> (b < a)%Qc) ->
  (exists i j p x p' x', i < j /\ nth_error src i = Some (Some p) /\ nth_error data i = Some (Some x) /\
     ~ is_missing mv (Some x) /\ nth_error src j = Some (Some p') /\ nth_error data j = Some (Some x') /\ ~ is_missing mv (Some x')) ->
  order_visible mv src data.
Proof.
  intros mv data src Hl Hp Hm [i [j [p [x [p' [x' [Hij [Ei [Di [Ni [Ej [Dj Nj]]]]]]]]]]]].
  assert (j < length src) by (apply nth_error_Some; congruence).
  destruct src as [|a [|b rest]]; simpl in H; try lia.
  assert (Na := Hp a (or_introl eq_refl)). assert (Nb := Hp b (or_intror (or_introl eq_refl))).
  destruct a as [a|]; [|exfalso; apply Na; left; auto]. destruct b as [b|]; [|exfalso; apply Nb; left; auto].
  exists a, b, rest. split; auto. split; auto. split; auto.
  assert (Np : forall k q, nth_error (Some a :: Some b :: rest) k = Some (Some q) -> ~ is_missing mv (Some q)).
  { intros k q Hk. apply Hp. eapply nth_error_In; eauto. }
  destruct Hm as [Hm|Hm].
  - split.
    + intros _ i' j' q q' y y' Hlt E1 _ E2. intros. apply (Hm i' j'); auto.
    + intros _. apply (Hm 0 1); auto.
  - assert (X := Hm 0 1 a b ltac:(lia) eq_refl eq_refl).
    split; [intros Y; exfalso; qclra|]. intros U. exfalso.
    assert (Y := Hm i j p p' Hij Ei Ej). assert (Z : (p < p')%Qc).
    { apply (U i j p p' x x'); auto; eapply Np; eauto. }
    qclra.
Qed.

(** ** What goes wrong when a missing pressure sits in the first two places *)

(** the storage order is misread, and every target that is not itself a source
    level comes back missing *)
Theorem int2p_misread_order : forall lg data a b rest tgt lm mv out,
  let src := a :: b :: rest in
  length data = length src -> all_below spvl src -> all_below spvl data ->
  (is_missing mv a /\ ~ is_missing mv b /\ usable_up mv src data) \/
  (~ is_missing mv a /\ is_missing mv b /\ ~ usable_up mv src data) ->
  interp_pressure_1d lg data src tgt lm false mv = Some out ->
  forall j t, nth_error tgt j = Some t -> (forall p x, level mv src data p x -> t <> Some p) ->
  nth_error out j = Some mv.
Proof.
  intros lg data a b rest tgt lm mv out src Hl Bs Bd Hw E j t Hj Hno.
  assert (Ht : tgt <> []) by (intros ->; destruct j; discriminate).
  assert (A := wrapper_accepts lg _ _ _ _ _ _ _ Hl Ht E).
  destruct (wrapper_wrong lg data src tgt lm mv a b rest) as [o [Eo G]]; auto.
  assert (o = out) by congruence. subst o. clear - G Hj Hno. revert j Hj.
  induction G as [|t' o l l' H _ IH]; intros [|j] Hj; try discriminate; simpl in *.
  - injection Hj as ->. rewrite H; auto.
  - apply IH; auto.
Qed.

(** C24 fails: 1000, missing, 850, 700 with a target between 850 and 700; the
    level with the missing pressure, if left out, would give a value *)
Theorem int2p_missing_second_pressure_refuted :
  exists d0 d1 dr s0 sr tgt out out',
    interp_pressure_1d (fun p => p) (d0 :: d1 :: dr) (s0 :: None :: sr) tgt false false None = Some out /\
    interp_pressure_1d (fun p => p) (d0 :: dr) (s0 :: sr) tgt false false None = Some out' /\
    out <> out' /\ out = None :: nil /\ out' <> None :: nil.
Proof.
  exists (Some (qz 1)), (Some (qz 5)), [Some (qz 2); Some (qz 3)], (Some (qz 1000)), [Some (qz 850); Some (qz 700)], (Some (qz 800) :: nil).
  eexists. eexists. split; [vm_compute; reflexivity|]. split; [vm_compute; reflexivity|].
  split; [discriminate|]. split; [reflexivity|discriminate].
Qed.
(** C23 fails: an ascending profile whose first pressure is missing is lost,
    the same profile stored the other way round is not *)
Theorem int2p_missing_first_pressure_refuted :
  exists data src tgt out out',
    interp_pressure_1d (fun p => p) data src tgt false false None = Some out /\
    interp_pressure_1d (fun p => p) (rev data) (rev src) tgt false false None = Some out' /\
    out <> out' /\ out = None :: nil /\ out' <> None :: nil.
Proof.
  exists (map (fun z => Some (qz z)) [1; 5; 2; 3]%Z), [None; Some (qz 700); Some (qz 850); Some (qz 1000)], (Some (qz 800) :: nil).
  eexists. eexists. split; [vm_compute; reflexivity|]. split; [vm_compute; reflexivity|].
  split; [discriminate|]. split; [reflexivity|discriminate].
Qed.

(** ** Which calls raise: too few levels, levels or targets not strictly
    monotonic, or log interpolation with a non-positive pressure *)
Theorem int2p_raises : forall lg data src tgt lm ex mv,
  call_ok lg data src tgt lm mv -> tgt <> [] ->
  (interp_pressure_1d lg data src tgt lm ex mv <> None <->
   two_usable mv src data /\
   (usable_up mv src data \/ usable_down mv src data) /\
   (usable_up mv tgt tgt \/ usable_down mv tgt tgt) /\
   (lm = true -> (forall p x, level mv src data p x -> (0 < p)%Qc) /\
                 (forall t, In (Some t) tgt -> ~ is_missing mv (Some t) -> (0 < t)%Qc))).
Proof.
  intros lg data src tgt lm ex mv [A1 [A2 [A3 [A4 [A5 A6]]]]] Ht.
  assert (X := accepted_iff lg mv src data tgt lm A1).
  rewrite <- two_usable_length, <- usable_up_asc, <- usable_down_dsc, <- targets_up, <- targets_down in X by auto. rewrite <- X. clear X.
  split.
  - intros N. destruct (interp_pressure_1d lg data src tgt lm ex mv) eqn:E; [|contradiction].
    apply (wrapper_accepts lg _ _ _ _ _ _ _ A1 Ht E).
  - intros A. destruct (wrapper_ok lg data src tgt lm ex mv) as [o [-> _]]; auto. discriminate.
Qed.

(** ** Examples: a descending profile with a missing value at the third level,
    missing value -9, targets hitting a level, between, outside and missing *)
Definition ex_src : list (option Qc) := map (fun z => Some (qz z)) [1000; 850; 700; 500; 300]%Z.
Definition ex_data : list (option Qc) := [Some (qz 10); Some (qz 20); Some (qz (-9)); Some (qz 40); None].
Definition ex_tgt : list (option Qc) := [Some (qz 400); None; Some (qz 675); Some (qz 850); Some (qz 1100)].
Lemma ex_below l : forallb (fun o => match o with Some q => Qcltb q spvl | None => true end) l = true -> all_below spvl l.
Proof. intros H q Hq. rewrite forallb_forall in H. apply ltb_iff. apply (H _ Hq). Qed.
Lemma qz_neq a b : a <> b -> Some (qz a) <> Some (qz b).
Proof. intros H E. apply H. apply qz_inj. congruence. Qed.
Lemma ex_present z m : z <> m -> ~ is_missing (Some (qz m)) (Some (qz z)).
Proof. intros H [X|[k [X Y]]]; [discriminate|]. apply (qz_neq z m H). congruence. Qed.
Example ex_call : call_ok (fun p => p) ex_data ex_src ex_tgt false (Some (qz (-9))).
Proof.
  split; [reflexivity|]. do 3 (split; [apply ex_below; vm_compute; reflexivity|]).
  split; [|discriminate].
  apply int2p_complete_pressures_visible.
  - reflexivity.
  - intros a [<-|[<-|[<-|[<-|[<-|[]]]]]]; apply ex_present; discriminate.
  - right. intros i j a b H Ha Hb.
    do 5 (destruct i as [|i]; [do 6 (destruct j as [|j]; [try lia; simpl in Ha, Hb; try discriminate;
       injection Ha as <-; injection Hb as <-; apply qz_lt; lia|]); destruct j; discriminate|]). destruct i; discriminate.
  - exists 0, 1, (qz 1000), (qz 10), (qz 850), (qz 20). repeat split; try reflexivity; try lia; apply ex_present; discriminate.
Qed.
Example ex_run : option_map (map (option_map this)) (interp_pressure_1d (fun p => p) ex_data ex_src ex_tgt false false (Some (qz (-9)))) =
  Some [Some (-9 # 1); Some (-9 # 1); Some (30 # 1); Some (20 # 1); Some (-9 # 1)]%Q.
Proof. vm_compute. reflexivity. Qed.
Example ex_run_extrapolated : option_map (map (option_map this)) (interp_pressure_1d (fun p => p) ex_data ex_src ex_tgt false true (Some (qz (-9)))) =
  Some [Some (320 # 7); Some (-9 # 1); Some (30 # 1); Some (20 # 1); Some (10 # 3)]%Q.
Proof. vm_compute. reflexivity. Qed.
Example ex_level : level (Some (qz (-9))) ex_src ex_data (qz 850) (qz 20).
Proof. exists 1. repeat split; try reflexivity; apply ex_present; discriminate. Qed.
Example ex_neighbours : neighbours (level (Some (qz (-9))) ex_src ex_data) (qz 850) (qz 20) (qz 500) (qz 40) /\
  (qz 500 < qz 675)%Qc /\ (qz 675 < qz 850)%Qc.
Proof.
  split; [|split; reflexivity].
  split; [apply ex_level|]. split. { exists 3. repeat split; try reflexivity; apply ex_present; discriminate. }
  split; [reflexivity|]. intros p x [i [A [B [C D]]]].
  do 5 (destruct i as [|i]; [simpl in A, B; try discriminate; injection A as <-; try (injection B as <-);
    try (exfalso; apply D; right; exists (qz (-9)); auto; fail); try (left; apply qz_le; lia); right; apply qz_le; lia|]).
  destruct i; discriminate.
Qed.
Example ex_reversed : call_ok (fun p => p) (rev ex_data) (rev ex_src) ex_tgt false (Some (qz (-9))).
Proof.
  split; [reflexivity|]. do 3 (split; [apply ex_below; vm_compute; reflexivity|]).
  split; [|discriminate].
  apply int2p_complete_pressures_visible.
  - reflexivity.
  - intros a H. apply in_rev in H. destruct H as [<-|[<-|[<-|[<-|[<-|[]]]]]]; apply ex_present; discriminate.
  - left. intros i j a b H Ha Hb.
    do 5 (destruct i as [|i]; [do 6 (destruct j as [|j]; [try lia; simpl in Ha, Hb; try discriminate;
       injection Ha as <-; injection Hb as <-; apply qz_lt; lia|]); destruct j; discriminate|]). destruct i; discriminate.
  - exists 3, 4, (qz 850), (qz 20), (qz 1000), (qz 10). repeat split; try reflexivity; try lia; apply ex_present; discriminate.
Qed.

Print Assumptions int2p_at_level.
Print Assumptions int2p_between.
Print Assumptions int2p_outside_missing.
Print Assumptions int2p_missing_target.
Print Assumptions int2p_extrapolates.
Print Assumptions int2p_log_low_extrapolation_refuted.
Print Assumptions int2p_depends_only_on_levels.
Print Assumptions int2p_source_reversed.
Print Assumptions int2p_targets_reversed.
Print Assumptions int2p_missing_level_absent.
Print Assumptions int2p_complete_pressures_visible.
Print Assumptions int2p_misread_order.
Print Assumptions int2p_missing_second_pressure_refuted.
Print Assumptions int2p_missing_first_pressure_refuted.
Print Assumptions int2p_raises.
