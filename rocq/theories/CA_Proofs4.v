From Coq Require Import Lia Arith ZArith List Bool Reals Lra.
From Verif Require Import Base SH_Model TP_Model CA_Model CA_Spec CA_Proofs CA_Proofs2.
Import ListNotations.
Local Close Scope Qc_scope.
Local Open Scope R_scope.

Definition has_nan (data : array RO) (predictor : list (option (T RO))) : bool := any_nan (a_data data) || any_nan predictor.
Lemma spatial_result tcdf data predictor n d1 d2 : a_shape data = [n; d1; d2] ->
  length (a_data data) = (n * (d1 * d2))%nat -> length predictor = n ->
  spatial_correlation RO tcdf data predictor
  = Some (map (fun j => let l := present predictor (series None n (d1 * d2) j (a_data data)) in
        if has_nan data predictor && (length l <? 3)%nat then (None, None) else result tcdf l) (seq 0 (d1 * d2))).
Proof.
  intros Hs Hl Hn. unfold spatial_correlation, a_len. fold (has_nan data predictor). rewrite Hs. cbn [nth]. rewrite Hn, Nat.eqb_refl. cbn [negb].
  set (np := (d1 * d2)%nat) in *. cbv zeta.
  destruct (has_nan data predictor) eqn:EN; f_equal; apply map_ext_in; intros j Hj; apply in_seq in Hj.
  - rewrite (column_series None) by (assumption || lia). rewrite corr_nan_result by (rewrite series_length; exact Hn). reflexivity.
  - unfold has_nan in EN. apply orb_false_iff in EN. destruct EN as [E1 E2].
    rewrite (column_series None) by (assumption || lia).
    rewrite corr_full_result by (rewrite !zeroed_length, series_length; exact Hn).
    cbn [andb]. f_equal.
    pose proof (any_nan_zeroed _ E2) as Z2.
    pose proof (any_nan_zeroed _ (any_nan_series n np j (a_data data) Hl ltac:(lia) E1)) as Z1.
    rewrite Z1, Z2 at 2. symmetry. apply present_some.
Qed.
Definition scale_cells (a b : R) (l : list (option R)) : list (option R) := map (option_map (fun v => a * v + b)) l.
Lemma any_nan_scale a b l : any_nan (scale_cells a b l) = any_nan l.
Proof. unfold any_nan, scale_cells. induction l as [|[v|] l IH]; cbn; [reflexivity|exact IH|reflexivity]. Qed.
Lemma present_scale a b c d x y : present (scale_cells a b x) (scale_cells c d y) = map (affine a b c d) (present x y).
Proof.
  unfold present, scale_cells. revert y. induction x as [|u x IH]; intros [|v y]; [reflexivity..|].
  cbn [map combine flat_map]. rewrite map_app, IH. destruct u, v; reflexivity.
Qed.
Lemma series_scale a b n np j l : series None n np j (scale_cells a b l) = scale_cells a b (series None n np j l).
Proof.
  unfold series, scale_cells. rewrite map_map. apply map_ext. intro t.
  change (@None R) with (option_map (fun v => a * v + b) None) at 1. apply map_nth.
Qed.

Lemma pearson_correlation_result (x y : list R) : length x = length y ->
  pearson_correlation RO x y = Some (pearson (combine x y)).
Proof.
  intro Hl. unfold pearson_correlation. change (T (obase RO)) with R in *. destruct (Nat.eqb_spec (length x) (length y)); [|contradiction]. cbn [negb]. cbv zeta. f_equal.
  assert (Hn : length x = length (combine x y)) by (rewrite combine_length; lia).
  rewrite !Hn. set (P := combine x y) in *.
  assert (Mx : rdiv RO (rsum RO x) (rnat RO (length P)) = mean_x P).
  { rewrite <- (combine_fst x y Hl), rsum_total. fold P. change (total (fun e => fst e) P / IZR (Z.of_nat (length P)) = mean_x P). rewrite <- INR_IZR_INZ. reflexivity. }
  assert (My : rdiv RO (rsum RO y) (rnat RO (length P)) = mean_y P).
  { rewrite <- (combine_snd x y Hl), rsum_total. fold P. change (total (fun e => snd e) P / IZR (Z.of_nat (length P)) = mean_y P). rewrite <- INR_IZR_INZ. reflexivity. }
  change (T (obase RO)) with R in *. rewrite Mx, My.
  assert (Ex : map (fun v => rsub RO v (mean_x P)) x = map (fun e => fst e - mean_x P) P).
  { rewrite <- (combine_fst x y Hl) at 1. rewrite map_map. reflexivity. }
  assert (Ey : map (fun v => rsub RO v (mean_y P)) y = map (fun e => snd e - mean_y P) P).
  { rewrite <- (combine_snd x y Hl) at 1. rewrite map_map. reflexivity. }
  change (T (obase RO)) with R in *. rewrite Ex, Ey, !zip2_map, !rsum_total.
  ro. unfold Rltb. fold (Sxx P) (Syy P) (Sxy P). unfold pearson.
  destruct (Nat.leb_spec 2 (length P)) as [H2|H2].
  - cbn [andb]. rewrite minus_IZR, <- INR_IZR_INZ.
    assert (Hf : 0 < INR (length P) - 1) by (apply le_INR in H2; cbn [INR] in H2; lra).
    set (f := INR (length P) - 1) in *.
    assert (D : forall z, 0 < z / f <-> 0 < z).
    { intro z. split; intro H; [replace z with (z / f * f) by (field; lra); nra|apply Rdiv_lt_0_compat; assumption]. }
    destruct (Rlt_dec 0 (Sxx P / f)) as [Q1|Q1]; destruct (Rlt_dec 0 (Sxx P)) as [Q2|Q2]; try reflexivity;
      try (exfalso; apply (proj1 (D _)) in Q1; lra); try (exfalso; apply Q1; apply (proj2 (D _)); exact Q2).
    destruct (Rlt_dec 0 (Syy P / f)) as [Q3|Q3]; destruct (Rlt_dec 0 (Syy P)) as [Q4|Q4]; try reflexivity;
      try (exfalso; apply (proj1 (D _)) in Q3; lra); try (exfalso; apply Q3; apply (proj2 (D _)); exact Q4).
    cbn [andb]. f_equal.
    assert (E : Sxy P / f / R_sqrt.sqrt (Sxx P / f) / R_sqrt.sqrt (Syy P / f) = Sxy P / R_sqrt.sqrt (Sxx P * Syy P)).
    { assert (S1 : R_sqrt.sqrt (Sxx P / f) * R_sqrt.sqrt (Syy P / f) = R_sqrt.sqrt (Sxx P * Syy P) / f).
      { rewrite <- R_sqrt.sqrt_mult by (apply Rlt_le; assumption).
        replace (Sxx P / f * (Syy P / f)) with (Sxx P * Syy P * ((/ f) * (/ f))) by (field; lra).
        rewrite R_sqrt.sqrt_mult; [|nra|apply Rle_0_sqr]. rewrite R_sqrt.sqrt_square by (apply Rlt_le, Rinv_0_lt_compat; lra). reflexivity. }
      pose proof (R_sqrt.sqrt_lt_R0 _ Q1). pose proof (R_sqrt.sqrt_lt_R0 _ Q3).
      assert (0 < R_sqrt.sqrt (Sxx P * Syy P)) by (apply R_sqrt.sqrt_lt_R0; nra).
      transitivity (Sxy P / f / (R_sqrt.sqrt (Sxx P / f) * R_sqrt.sqrt (Syy P / f))); [field; lra|]. rewrite S1. field. lra. }
    rewrite E. destruct (sqrt_bound (Sxy P) (Sxx P) (Syy P) (Sxy_sq P) Q2 Q4) as [B1 B2].
    destruct (Rlt_dec _ (-(1))) as [C1|C1]; [lra|]. destruct (Rlt_dec 1 _) as [C2|C2]; [lra|]. reflexivity.
  - cbn [andb]. destruct (Rlt_dec 0 (Sxx P)) as [Q|Q]; [|reflexivity]. exfalso.
    assert (E : Sxx P = 0).
    { destruct P as [|e0 [|e1 P1]]; [reflexivity| |cbn in H2; lia].
      unfold Sxx, mean_x. rewrite !total_cons, !total_nil. cbn [length INR]. field. }
    lra.
Qed.
