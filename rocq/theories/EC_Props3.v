(** C86: the spread and the mode read off a density; C85, continued: units of
    the posterior and what it gets wrong. *)
From Coq Require Import Reals List Arith Lia Bool Lra Permutation.
From Verif Require Import Base Buffer VH_Model VH_Proofs EC_Model EC_Spec EC_Proofs EC_Props EC_Proofs2 EC_Props2.
Import ListNotations.
Local Open Scope R_scope.

Definition mean_square (values pdf : list R) (m : nat) : R :=
  total (map (fun k => (nth k values 0 - nth m values 0) ^ 2 * nth k pdf 0) (seq 0 (length pdf))) / total pdf.
Lemma mean_square_model values pdf m : length values = length pdf ->
  rsum (map (fun p => (fst p - nth m values 0) ^ 2 * snd p) (combine values pdf)) / rsum pdf = mean_square values pdf m.
Proof.
  intros L. rewrite !rsum_total, (combine_index values pdf 0 0 L), map_map, L. auto.
Qed.
Lemma pdf_ne pdf : 0 < total pdf -> exists m, argmax pdf = Some m.
Proof. intros P. apply argmin_some. destruct pdf; [cbn in P; lra|discriminate]. Qed.

Theorem C86_spread : forall thr values pdf, length values = length pdf ->
  (total pdf <= 0 -> std_from_pdf thr values pdf = Some None) /\
  (0 < total pdf -> exists m, first_max pdf m /\
     (forall i, (i <= m)%nat -> thr * total pdf <= mass pdf i m -> (forall j, (i < j <= m)%nat -> mass pdf j m < thr * total pdf) ->
        std_from_pdf thr values pdf = Some (Some (Rabs (nth m values 0 - nth i values 0)))) /\
     ((forall i, (i <= m)%nat -> mass pdf i m < thr * total pdf) ->
        (0 <= mean_square values pdf m -> std_from_pdf thr values pdf = Some (Some (sqrt (mean_square values pdf m)))) /\
        (mean_square values pdf m < 0 -> std_from_pdf thr values pdf = Some None))).
Proof.
  intros thr values pdf L. unfold std_from_pdf. split.
  - intros T. rewrite rsum_total. destruct (Rle_dec (total pdf) 0); [auto|lra].
  - intros T. destruct (pdf_ne pdf T) as [m Em]. assert (F := proj1 (argmax_iff _ _) Em). exists m. split; [auto|]. assert (Lm := proj1 F).
    rewrite L, Nat.eqb_refl, Em. cbn [bind negb]. pose proof (mean_square_model values pdf m L) as MS.
    remember (mean_square values pdf m) as ms eqn:Hms. rewrite MS. rewrite (rsum_total pdf). clear MS Hms. destruct (Rle_dec (total pdf) 0); [lra|]. split.
    + intros i I C G. assert (S : std_loop thr (total pdf) values pdf m m = Some (Rabs (nth m values 0 - nth i values 0))).
      { apply std_loop_found; auto. exists i. auto. }
      rewrite S. auto.
    + intros G. rewrite (std_loop_none thr (total pdf) values pdf m m) by auto. split; intros Q; destruct (Rle_dec 0 ms); auto; lra.
Qed.
Print Assumptions C86_spread.
(** pdf 1, 2, 3, 1 at 0, 1, 2, 3: the mode is 2; 3/7 of the mass sits there, so the spread is 0 *)
Lemma max_1231 : first_max [1; 2; 3; 1] 2.
Proof. split; [cbn; lia|]. split; intros i I; destruct i as [|[|[|[|i]]]]; cbn in *; try lia; lra. Qed.
Example C86_spread_ex : std_from_pdf (341 / 1000) [0; 1; 2; 3] [1; 2; 3; 1] = Some (Some 0) /\
  std_from_pdf (1 / 2) [0; 1; 2; 3] [1; 2; 3; 1] = Some (Some 1).
Proof.
  split.
  - destruct (C86_spread (341 / 1000) [0; 1; 2; 3] [1; 2; 3; 1] eq_refl) as [_ H]. destruct H as (m & F & A & _); [cbn; lra|].
    pose proof (first_max_unique _ _ _ F max_1231) as ->. rewrite (A 2%nat); [cbn; rewrite Rminus_diag_eq, Rabs_R0 by auto; auto|lia|cbn; lra|intros; lia].
  - destruct (C86_spread (1 / 2) [0; 1; 2; 3] [1; 2; 3; 1] eq_refl) as [_ H]. destruct H as (m & F & A & _); [cbn; lra|].
    pose proof (first_max_unique _ _ _ F max_1231) as ->. rewrite (A 1%nat); [cbn; rewrite Rabs_pos_eq by lra; do 2 f_equal; ring|lia|cbn; lra|].
    intros j J. replace j with 2%nat by lia. cbn. lra.
Qed.

(** The spread of a non-negative density exists and is at most the distance
    from the mode to the farthest value. *)
Theorem C86_range : forall thr values pdf D m, length values = length pdf -> (forall i, 0 <= nth i pdf 0) -> 0 < total pdf ->
  first_max pdf m -> (forall i, (i < length values)%nat -> Rabs (nth i values 0 - nth m values 0) <= D) ->
  exists s, std_from_pdf thr values pdf = Some (Some s) /\ 0 <= s <= D.
Proof.
  intros thr values pdf D m L N T Fm HD. destruct (C86_spread thr values pdf L) as [_ H]. destruct (H T) as (m' & F & A & B).
  pose proof (first_max_unique _ _ _ F Fm) as ->. assert (Lm := proj1 Fm).
  destruct (reach thr (total pdf) pdf m) as [(k & K & C & G)|G].
  - rewrite (A k K C G). eexists. split; [reflexivity|]. split; [apply Rabs_pos|]. rewrite Rabs_minus_sym. apply HD. lia.
  - assert (D0 : 0 <= D). { specialize (HD m ltac:(lia)). pose proof (Rabs_pos (nth m values 0 - nth m values 0)). lra. }
    assert (Q : 0 <= mean_square values pdf m <= D ^ 2).
    { unfold mean_square. assert (I : 0 < / total pdf) by (apply Rinv_0_lt_compat; auto). split.
      - apply Rmult_le_pos; [|lra]. apply total_nonneg. intros k _. apply Rmult_le_pos; [apply pow2_ge_0|auto].
      - apply Rmult_le_reg_r with (total pdf); [auto|]. unfold Rdiv. rewrite Rmult_assoc, Rinv_l, Rmult_1_r by lra.
        replace (total pdf) with (total (map (fun x => x) pdf)) at 1 by (rewrite map_id; auto). rewrite (total_index (fun x => x) pdf 0), <- total_scal.
        apply Rminus_le. unfold Rminus. rewrite <- (Rmult_1_l (total (map (fun x => D ^ 2 * _) _))), Ropp_mult_distr_l, <- total_scal, <- total_plus.
        assert (Z : 0 <= total (map (fun k => (D ^ 2 - (nth k values 0 - nth m values 0) ^ 2) * nth k pdf 0) (seq 0 (length pdf)))).
        { apply total_nonneg. intros k Hk. apply in_seq in Hk. apply Rmult_le_pos; [|auto].
          assert ((nth k values 0 - nth m values 0) ^ 2 <= D ^ 2); [|lra]. rewrite <- !Rsqr_pow2. apply Rsqr_le_abs_1. rewrite (Rabs_pos_eq D) by auto. apply HD. lia. }
        rewrite (total_ext _ (fun k => (-1) * ((D ^ 2 - (nth k values 0 - nth m values 0) ^ 2) * nth k pdf 0))) by (intros; ring). rewrite total_scal. lra. }
    destruct (B G) as [B1 _]. rewrite B1 by tauto. eexists. split; [reflexivity|]. split; [apply sqrt_pos|].
    rewrite <- (sqrt_pow2 D) by auto. apply sqrt_le_1_alt. tauto.
Qed.
Example C86_range_ex : exists s, std_from_pdf (341 / 1000) [0; 1; 2; 3] [1; 2; 3; 1] = Some (Some s) /\ 0 <= s <= 2.
Proof.
  apply (C86_range (341 / 1000) [0; 1; 2; 3] [1; 2; 3; 1] 2 2); auto.
  - intros i; destruct i as [|[|[|[|[|i]]]]]; cbn; lra.
  - cbn; lra.
  - apply max_1231.
  - intros i I; destruct i as [|[|[|[|[|i]]]]]; cbn in *; try lia; unfold Rabs; destruct (Rcase_abs _); lra.
Qed.
Print Assumptions C86_range.

(** ** Units *)
Lemma total_map_scale c l : total (map (Rmult c) l) = c * total l.
Proof. rewrite (total_scal c (fun x => x)), map_id. auto. Qed.
Lemma mass_scale c pdf i m : mass (map (Rmult c) pdf) i m = c * mass pdf i m.
Proof.
  unfold mass. rewrite <- total_scal. apply total_ext. intros k _. rewrite <- (Rmult_0_r c) at 1. apply map_nth.
Qed.
Lemma first_max_scale c l k : 0 < c -> first_max l k -> first_max (map (Rmult c) l) k.
Proof. intros P F. apply argmax_iff. rewrite argmax_scale by auto. apply argmax_iff; auto. Qed.
Lemma sqrt_scale s v : 0 < s -> sqrt (s ^ 2 * v) = s * sqrt v.
Proof. intros P. rewrite sqrt_mult_alt by apply pow2_ge_0. rewrite sqrt_pow2 by lra. auto. Qed.
Lemma nth_aff s d values i : (i < length values)%nat -> nth i (map (fun v => s * v + d) values) 0 = s * nth i values 0 + d.
Proof. intros L. apply (nth_map_R (fun v => s * v + d) values 0 i L). Qed.
Theorem C86_units : forall thr values pdf c s d, length values = length pdf -> 0 < c -> 0 < s ->
  exists r, std_from_pdf thr values pdf = Some r /\
    std_from_pdf thr (map (fun v => s * v + d) values) (map (Rmult c) pdf) = Some (option_map (Rmult s) r).
Proof.
  intros thr values pdf c s d L C S. set (values' := map _ values). set (pdf' := map _ pdf).
  assert (L' : length values' = length pdf') by (unfold values', pdf'; rewrite !map_length; auto).
  assert (T' : total pdf' = c * total pdf) by apply total_map_scale.
  destruct (C86_spread thr values pdf L) as [H0 H1], (C86_spread thr values' pdf' L') as [H0' H1'].
  destruct (Rle_dec (total pdf) 0) as [T|T].
  - exists None. split; [auto|]. apply H0'. rewrite T'. nra.
  - destruct H1 as (m & F & A & B); [lra|]. destruct H1' as (m' & F' & A' & B'); [rewrite T'; apply Rmult_lt_0_compat; lra|].
    assert (m' = m) by (apply (first_max_unique pdf'); auto; apply first_max_scale; auto). subst m'. assert (Lm := proj1 F).
    assert (M : forall i, mass pdf' i m = c * mass pdf i m) by (intros; apply mass_scale).
    assert (V : forall i, (i < length values)%nat -> nth i values' 0 = s * nth i values 0 + d) by (intros; apply nth_aff; auto).
    destruct (reach thr (total pdf) pdf m) as [(k & K & Ck & G)|G].
    + rewrite (A k K Ck G), (A' k K). 
      * eexists. split; [reflexivity|]. cbn [option_map]. do 2 f_equal. rewrite !V by lia. replace (s * nth m values 0 + d - (s * nth k values 0 + d)) with (s * (nth m values 0 - nth k values 0)) by ring.
        rewrite Rabs_mult, (Rabs_pos_eq s) by lra. auto.
      * rewrite T', M. nra.
      * intros j J. rewrite T', M. specialize (G j J). nra.
    + destruct (B G) as [B1 B2]. destruct B' as [B1' B2']. { intros i I. rewrite T', M. specialize (G i I). nra. }
      assert (Q : mean_square values' pdf' m = s ^ 2 * mean_square values pdf m).
      { unfold mean_square. rewrite T'. unfold pdf' at 2. rewrite map_length.
        rewrite (total_ext _ (fun k => (s ^ 2 * c) * ((nth k values 0 - nth m values 0) ^ 2 * nth k pdf 0))).
        - rewrite total_scal. field. split; lra.
        - intros k Hk. apply in_seq in Hk. rewrite !V by lia. unfold pdf'. rewrite (nth_map_R (Rmult c) pdf 0) by lia. ring. }
      destruct (Rle_dec 0 (mean_square values pdf m)) as [P|P].
      * rewrite B1 by auto. eexists. split; [reflexivity|]. rewrite B1'; rewrite Q; [cbn [option_map]; rewrite sqrt_scale; auto|]. apply Rmult_le_pos; [apply pow2_ge_0|auto].
      * rewrite B2 by lra. exists None. split; [auto|]. apply B2'. rewrite Q. assert (0 < s ^ 2) by (rewrite <- Rsqr_pow2; apply Rlt_0_sqr; lra). nra.
Qed.
Print Assumptions C86_units.
Example C86_units_ex : std_from_pdf (1 / 2) [5; 7; 9; 11] [10; 20; 30; 10] = Some (Some 2).
Proof.
  destruct (C86_units (1 / 2) [0; 1; 2; 3] [1; 2; 3; 1] 10 2 5 eq_refl ltac:(lra) ltac:(lra)) as (r & A & B).
  destruct C86_spread_ex as [_ E]. rewrite E in A. injection A as <-. cbn [option_map] in B. rewrite Rmult_1_r in B. rewrite <- B. f_equal; cbn; repeat f_equal; ring.
Qed.

(** What is returned as the spread is not the standard deviation of the
    density, and what is returned as the mean is not its mean: a density with
    more than 0.341 of its mass at the mode has spread 0; the mirror image of
    a density has another spread. *)
Definition true_mean (values pdf : list R) : R := total (map (fun k => nth k values 0 * nth k pdf 0) (seq 0 (length pdf))) / total pdf.
Definition true_var (values pdf : list R) : R :=
  total (map (fun k => (nth k values 0 - true_mean values pdf) ^ 2 * nth k pdf 0) (seq 0 (length pdf))) / total pdf.
Theorem C86_std_refuted : exists values pdf, total pdf = 1 /\ (forall i, 0 <= nth i pdf 0) /\
  std_from_pdf (341 / 1000) values pdf = Some (Some 0) /\ true_var values pdf = 1 / 2.
Proof.
  exists [0; 1; 2], [1 / 4; 1 / 2; 1 / 4]. split; [cbn; lra|]. split; [intros i; destruct i as [|[|[|[|i]]]]; cbn; lra|]. split.
  - destruct (C86_spread (341 / 1000) [0; 1; 2] [1 / 4; 1 / 2; 1 / 4] eq_refl) as [_ H]. destruct H as (m & F & A & _); [cbn; lra|].
    assert (F1 : first_max [1 / 4; 1 / 2; 1 / 4] 1) by (split; [cbn; lia|split; intros i I; destruct i as [|[|[|i]]]; cbn in *; try lia; lra]).
    pose proof (first_max_unique _ _ _ F F1) as ->. rewrite (A 1%nat); [rewrite Rminus_diag_eq, Rabs_R0 by auto; auto|lia|cbn; lra|intros; lia].
  - assert (M : true_mean [0; 1; 2] [1 / 4; 1 / 2; 1 / 4] = 1) by (unfold true_mean; cbn; field). unfold true_var. rewrite M. cbn. field.
Qed.
Theorem C86_mirror_refuted : exists values pdf, total pdf = 1 /\ true_var values (rev pdf) = true_var (rev (map (fun v => 2 - v) values)) (rev pdf) /\
  std_from_pdf (341 / 1000) values pdf = Some (Some (sqrt (165 / 100))) /\
  std_from_pdf (341 / 1000) (rev (map (fun v => 2 - v) values)) (rev pdf) = Some (Some 1).
Proof.
  exists [0; 1; 2], [34 / 100; 33 / 100; 33 / 100]. cbn [map rev app].
  assert (E : [2 - 2; 2 - 1; 2 - 0] = [0; 1; 2]) by (repeat f_equal; ring). rewrite E.
  split; [cbn; lra|]. split; [auto|]. split.
  - destruct (C86_spread (341 / 1000) [0; 1; 2] [34 / 100; 33 / 100; 33 / 100] eq_refl) as [_ H]. destruct H as (m & F & _ & B); [cbn; lra|].
    assert (F1 : first_max [34 / 100; 33 / 100; 33 / 100] 0) by (split; [cbn; lia|split; intros i I; destruct i as [|[|[|i]]]; cbn in *; try lia; lra]).
    pose proof (first_max_unique _ _ _ F F1) as ->. assert (Q : mean_square [0; 1; 2] [34 / 100; 33 / 100; 33 / 100] 0 = 165 / 100) by (unfold mean_square; cbn; field).
    destruct B as [B _]; [intros i I; replace i with 0%nat by lia; cbn; lra|]. rewrite Q in B. apply B. lra.
  - destruct (C86_spread (341 / 1000) [0; 1; 2] [33 / 100; 33 / 100; 34 / 100] eq_refl) as [_ H]. destruct H as (m & F & A & _); [cbn; lra|].
    assert (F1 : first_max [33 / 100; 33 / 100; 34 / 100] 2) by (split; [cbn; lia|split; intros i I; destruct i as [|[|[|i]]]; cbn in *; try lia; lra]).
    pose proof (first_max_unique _ _ _ F F1) as ->. rewrite (A 1%nat); [cbn [nth]; rewrite Rabs_pos_eq by lra; do 2 f_equal; ring|lia|cbn; lra|].
    intros j J. replace j with 2%nat by lia. cbn. lra.
Qed.
Print Assumptions C86_std_refuted.
Print Assumptions C86_mirror_refuted.
