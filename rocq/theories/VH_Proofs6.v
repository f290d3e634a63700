(** The value one target gets, against [column_value]. *)
From Verif Require Import Base Buffer Loops I2P_Model I2P_Proofs VH_Model VH_Spec VH_Proofs VH_Proofs2 VH_Proofs3 VH_Proofs4 VH_Proofs5.
Local Open Scope nat_scope.
Local Opaque spvl.

Section Value.
Variable lg : Qc -> Qc.

Lemma locate_mono P t : 2 <= length P -> strictly_monotone P ->
  exists kp, locate_bracketing_level_ordered (to_mb t) (map to_mb P) (ascends P) = Some kp /\
    (goes_up P /\ ascends P = true /\ brk Qcle P t kp \/ goes_down P /\ ascends P = false /\ brk Qcge' P t kp).
Proof.
  intros H [U|U].
  - rewrite (goes_up_ascends P H U). destruct (locate_up (to_mb t) (map to_mb P)) as [kp [E [B [L R]]]]; [rewrite map_length; auto|apply up_mb; auto|].
    exists kp. split; auto. left. split; auto. split; auto. rewrite map_length in *. rewrite !get_mb in * by lia. rewrite !mb_le in *. split; auto.
  - rewrite (goes_down_ascends P H U). destruct (locate_down (to_mb t) (map to_mb P)) as [kp [E [B [L R]]]]; [rewrite map_length; auto|apply down_mb; auto|].
    exists kp. split; auto. right. split; auto. split; auto. rewrite map_length in *. unfold Qcge' in *. rewrite !get_mb in * by lia. rewrite !mb_le in *. split; auto.
Qed.
Lemma bottom_max P p : 2 <= length P -> strictly_monotone P -> In p P -> (p <= get P (bottom P))%Qc.
Proof.
  intros H M Hp. destruct (in_get P p Hp) as [i [Hi <-]]. unfold bottom. destruct M as [U|U].
  - rewrite (goes_up_ascends P H U). apply up_le; auto; lia.
  - rewrite (goes_down_ascends P H U). apply down_le; auto; lia.
Qed.

(** between the surface and the top the pair found gives [column_value] *)
Lemma pair_value intyp P Y t below kp : 2 <= length P -> strictly_monotone P -> length Y = length P -> usable lg intyp P ->
  (t <= get P (bottom P))%Qc ->
  (goes_up P /\ ascends P = true /\ brk Qcle P t kp \/ goes_down P /\ ascends P = false /\ brk Qcge' P t kp) ->
  exists w, node_value lg intyp (map Some Y) (map to_mb P) kp (to_mb t) (double_log_pressure lg (to_mb t)) = Some (Some w) /\
            column_value (part lg intyp) P Y below t (Some w).
Proof.
  intros H M LY U T B.
  assert (R : 1 <= kp < length P) by (destruct B as [[_ [_ [B _]]]|[_ [_ [B _]]]]; auto).
  destruct (node_value_ok lg intyp (map Some Y) P kp t ltac:(rewrite map_length; auto) R) as [x [y [Ex [Ey E]]]].
  rewrite rd_map in Ex, Ey. rewrite (rd_get Y) in Ex, Ey by lia. injection Ex as <-. injection Ey as <-. cbn [lerp'] in E.
  rewrite E. eexists. split; [reflexivity|].
  assert (NE : get P kp <> get P (kp + 1)).
  { intros Q. destruct M as [G|G]; [pose proof (up_lt P kp (kp + 1) G ltac:(lia) ltac:(lia) ltac:(lia)) as X|pose proof (down_lt P kp (kp + 1) G ltac:(lia) ltac:(lia) ltac:(lia)) as X];
    rewrite Q in X; destruct (Qclt_not_eq _ _ X eq_refl). }
  destruct (part_ok_usable lg intyp P U (get P kp) (get P (kp + 1))) as [W0 W1]; try (apply get_in; lia); auto.
  destruct (Qc_eq_dec t (get P kp)) as [->|N1].
  { rewrite W0. replace (along _ _ 0%Qc) with (get Y kp) by (unfold along; ring). apply cv_level with (i := kp - 1); apply get_nth; lia. }
  destruct (Qc_eq_dec t (get P (kp + 1))) as [->|N2].
  { rewrite W1. replace (along _ _ 1%Qc) with (get Y (kp + 1)) by (unfold along; ring). apply cv_level with (i := kp + 1 - 1); apply get_nth; lia. }
  assert (I0 : nth_error P (kp - 1) = Some (get P kp)) by (apply get_nth; lia).
  assert (I1 : nth_error P (kp - 1 + 1) = Some (get P (kp + 1))) by (replace (kp - 1 + 1) with (kp + 1 - 1) by lia; apply get_nth; lia).
  assert (J0 : nth_error Y (kp - 1) = Some (get Y kp)) by (apply get_nth; lia).
  assert (J1 : nth_error Y (kp - 1 + 1) = Some (get Y (kp + 1))) by (replace (kp - 1 + 1) with (kp + 1 - 1) by lia; apply get_nth; lia).
  assert (strict : forall u v, (u <= v)%Qc -> u <> v -> (u < v)%Qc).
  { intros u v Q1 Q2. destruct (Qcle_lt_or_eq _ _ Q1); auto. congruence. }
  destruct B as [[G [A [_ [L Rr]]]]|[G [A [_ [L Rr]]]]]; unfold bottom in T; rewrite A in T.
  - assert (T2 : (t < get P (kp + 1))%Qc).
    { apply strict; auto. destruct Rr as [->|Rr]; auto. replace (length P - 1 + 1) with (length P) by lia. auto. }
    destruct (Qclt_le_dec t (get P kp)) as [C|C].
    + destruct L as [->|L]; [|exfalso; apply (Qclt_not_le _ _ C); auto].
      apply cv_top with (i := 0) (p := get P 1) (q := get P (1 + 1)) (x := get Y 1) (y := get Y (1 + 1)); auto.
      intros r Hr. destruct (in_get P r Hr) as [j [Hj <-]]. apply Qclt_le_trans with (get P 1); auto. apply up_le; auto; lia.
    + apply cv_between with (i := kp - 1); auto. left. split; auto.
  - assert (T2 : (t < get P kp)%Qc).
    { apply strict; auto. destruct L as [->|L]; auto. }
    destruct (Qclt_le_dec t (get P (kp + 1))) as [C|C].
    + destruct Rr as [->|Rr]; [|exfalso; apply (Qclt_not_le _ _ C); auto].
      apply cv_top with (i := length P - 1 - 1) (p := get P (length P - 1)) (q := get P (length P - 1 + 1)) (x := get Y (length P - 1)) (y := get Y (length P - 1 + 1)); auto.
      * intros r Hr. destruct (in_get P r Hr) as [j [Hj <-]]. apply Qclt_le_trans with (get P (length P - 1 + 1)); auto. apply down_le; auto; lia.
      * right. split; auto. lia.
    + apply cv_between with (i := kp - 1); auto. right. split; auto.
Qed.
Lemma search1_value intyp P Y t : 2 <= length P -> strictly_monotone P -> length Y = length P -> usable lg intyp P ->
  exists w, search1 lg intyp (map Some Y) P t = Some (Some (match w with Some x => x | None => spvl end)) /\
            column_value (part lg intyp) P Y None t w.
Proof.
  intros H M LY U. unfold search1, search_target; cbv beta iota.
  destruct (Qcltb_spec (to_mb (get P (bottom P))) (to_mb t)) as [C|C].
  - exists None. split; auto. apply cv_below. intros p Hp. apply Qcle_lt_trans with (get P (bottom P)); [apply bottom_max; auto|]. apply mb_lt; auto.
  - assert (T : (t <= get P (bottom P))%Qc) by (apply mb_le, Qcnot_lt_le; auto).
    destruct (locate_mono P t H M) as [kp [E B]]. rewrite E. cbn [bind].
    assert (R : 1 <= kp < length P) by (destruct B as [[_ [_ [B _]]]|[_ [_ [B _]]]]; auto).
    destruct (Nat.ltb_spec kp 1); [lia|].
    destruct (pair_value intyp P Y t None kp H M LY U T B) as [w [E1 V]]. exists (Some w). auto.
Qed.
(** below ground in Pa *)
Definition below_ground_pa (xb : Qc) (pb t ps : Qc) (varflg : Z) (tb ph : Qc) : Qc :=
  match below_ground lg (Some xb) (to_mb pb) (to_mb t) (to_mb ps) spvl 1 varflg tb ph with Some v => v | None => spvl end.
Lemma ecmwf1_value intyp P Y t ps varflg tb ph : 2 <= length P -> strictly_monotone P -> length Y = length P -> usable lg intyp P ->
  exists w, ecmwf1 lg intyp (map Some Y) P ps varflg tb ph t = Some (Some w) /\
    column_value (part lg intyp) P Y (Some (below_ground_pa (get Y (bottom P)) (get P (bottom P)) t ps varflg tb ph)) t (Some w).
Proof.
  intros H M LY U. unfold ecmwf1, ecmwf_target. pose proof (bottom_range P ltac:(lia)) as BR.
  rewrite rd_bottom by lia. cbn [bind].
  destruct (Qcltb_spec (to_mb (get P (bottom P))) (to_mb t)) as [C|C].
  - rewrite rd_map, rd_get by lia. cbn [bind option_map].
    assert (E : exists w, below_ground lg (Some (get Y (bottom P))) (to_mb (get P (bottom P))) (to_mb t) (to_mb ps) spvl 1 varflg tb ph = Some w).
    { unfold below_ground. cbn [Z.eqb]. destruct (varflg =? 1)%Z; [|destruct (varflg =? -1)%Z]; eexists; reflexivity. }
    destruct E as [w E]. exists w. unfold below_ground_pa. rewrite E. split; auto. apply cv_below.
    intros p Hp. apply Qcle_lt_trans with (get P (bottom P)); [apply bottom_max; auto|]. apply mb_lt; auto.
  - assert (T : (t <= get P (bottom P))%Qc) by (apply mb_le, Qcnot_lt_le; auto).
    destruct (locate_mono P t H M) as [kp [E B]]. rewrite E. cbn [bind].
    assert (R : 1 <= kp < length P) by (destruct B as [[_ [_ [B _]]]|[_ [_ [B _]]]]; auto).
    destruct (Nat.ltb_spec kp 1); [lia|].
    eapply pair_value; eauto.
Qed.
End Value.
