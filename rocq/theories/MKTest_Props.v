(** Properties C12 and C13: the test decision and the gridded driver. *)
From Verif Require Import Base Buffer Loops OrderSpec OrderProofs MKStat_Model MKStat_Spec MKStat_Proofs1 MKStat_Proofs2 MKStat_Props NdArray AX_Spec
  MKTest_Model MKTest_Spec MKTest_Proofs MKTest_Proofs2 MKTest_Proofs3.
From Coq Require Import Reals Qreals Lra.
Local Open Scope nat_scope.

(** ** C12: the z score *)
(** With a positive variance z is finite, |z| sqrt(var) = |S| - 1 for S <> 0,
    it never has the sign opposite to S and vanishes exactly for |S| <= 1.
    The scalar and the vectorised rule are the same function. *)
Theorem z_score_rule : forall S var, (0 < var)%Qc -> exists r, z_scalar S var = Zfin r /\ z_batch S var = Zfin r /\
  (S <> 0%Z -> (Rabs r * sqrt (QcR var) = IZR (Z.abs S - 1))%R) /\
  ((0 <= S)%Z -> (0 <= r)%R) /\ ((S <= 0)%Z -> (r <= 0)%R) /\ (r = 0%R <-> (Z.abs S <= 1)%Z).
Proof.
  intros S v H. rewrite z_same, z_scalar_pos by auto. eexists. split; [reflexivity|]. split; [reflexivity|].
  pose proof (sqrt_QcR_pos v H) as Q. set (q := sqrt (QcR v)) in *. clearbody q.
  assert (QI : (0 < / q)%R) by (apply Rinv_0_lt_compat; auto).
  destruct (Z.eqb_spec S 0) as [E|N].
  - subst S. repeat split; intros; try lra; try lia. 
  - unfold corrected.
    assert (C : ((0 < S)%Z /\ Z.sgn S = 1%Z /\ Z.abs S = S) \/ ((S < 0)%Z /\ Z.sgn S = (-1)%Z /\ Z.abs S = (- S)%Z)) by lia.
    destruct C as [(P & -> & ->)|(P & -> & ->)].
    + assert (G : (0 <= IZR (S - 1))%R) by (apply (IZR_le 0); lia). rewrite Z.mul_1_l.
      assert (Z0 : (0 <= IZR (S - 1) / q)%R) by (apply Rmult_le_pos; lra).
      repeat split.
      * intros _. rewrite Rabs_pos_eq by auto. field. lra.
      * auto.
      * lia.
      * intros E. apply Rmult_integral in E. destruct E as [E|E]; [|lra]. apply eq_IZR in E. lia.
      * intros E. replace (S - 1)%Z with 0%Z by lia. unfold Rdiv. ring.
    + assert (G : (0 <= IZR (- S - 1))%R) by (apply (IZR_le 0); lia).
      replace (-1 * (- S - 1))%Z with (- (- S - 1))%Z by lia. rewrite opp_IZR.
      assert (Z0 : (0 <= IZR (- S - 1) / q)%R) by (apply Rmult_le_pos; lra).
      replace (- IZR (- S - 1) / q)%R with (- (IZR (- S - 1) / q))%R by (unfold Rdiv; ring).
      repeat split.
      * intros _. rewrite Rabs_Ropp, Rabs_pos_eq by auto. field. lra.
      * lia.
      * intros _. lra.
      * intros E. assert (E' : (IZR (- S - 1) / q = 0)%R) by lra. apply Rmult_integral in E'. destruct E' as [E'|E']; [|lra]. apply eq_IZR in E'. lia.
      * intros E. replace (- S - 1)%Z with 0%Z by lia. unfold Rdiv. ring.
Qed.
(** Without a positive variance: S = 0 still gives 0; with variance zero the score
    is infinite with the sign of S (NaN for |S| = 1); below zero it is NaN. *)
Theorem z_score_degenerate : forall S var, (var <= 0)%Qc ->
  z_scalar S var = z_batch S var /\
  (S = 0%Z -> z_scalar S var = Zfin 0) /\
  (S <> 0%Z -> (var < 0)%Qc -> z_scalar S var = Znan) /\
  (var = 0%Qc -> (Z.abs S = 1%Z -> z_scalar S var = Znan) /\ ((1 < S)%Z -> z_scalar S var = Zinf true) /\ ((S < -1)%Z -> z_scalar S var = Zinf false)).
Proof.
  intros S v H. split; [rewrite z_same; auto|]. unfold z_scalar, div_sqrt. split; [intros ->; reflexivity|]. split.
  - intros N L. destruct (Qcltb_spec v 0); [|contradiction]. destruct (Z.ltb_spec 0 S), (Z.eqb_spec S 0); auto; lia.
  - intros ->. change (0 <? 0)%Qc with false. change (0 =? 0)%Qc with true. cbv iota. split; [|split]; intros K; destruct (Z.ltb_spec 0 S), (Z.eqb_spec S 0); try lia.
    + destruct (Z.eqb_spec (S - 1) 0); auto; lia. + destruct (Z.eqb_spec (S + 1) 0); auto; lia.
    + destruct (Z.eqb_spec (S - 1) 0); [lia|]. destruct (Z.ltb_spec 0 (S - 1)); auto; lia.
    + destruct (Z.eqb_spec (S + 1) 0); [lia|]. destruct (Z.ltb_spec 0 (S + 1)); auto; lia.
Qed.
Example z_degenerate_demo : z_scalar (-5) 0 = Zinf false /\ z_scalar 1 0 = Znan. Proof. split; reflexivity. Qed.
(** z is odd in S, whatever the variance (also zero or negative). *)
Theorem z_score_odd : forall S var, z_scalar (- S) var =
  match z_scalar S var with Zfin r => Zfin (- r) | Zinf b => Zinf (negb b) | Znan => Znan end.
Proof. exact z_opp. Qed.
(** A larger S never gives a smaller z. *)
Theorem z_score_monotone : forall S S' var r r', (0 < var)%Qc -> (S <= S')%Z ->
  z_scalar S var = Zfin r -> z_scalar S' var = Zfin r' -> (r <= r')%R.
Proof.
  intros S S' v r r' H L E E'. rewrite z_scalar_pos in E, E' by auto. injection E as <-. injection E' as <-.
  pose proof (sqrt_QcR_pos v H) as Q. set (q := sqrt (QcR v)) in *. clearbody q.
  assert (QI : (0 < / q)%R) by (apply Rinv_0_lt_compat; auto).
  assert (C : forall T, (if (T =? 0)%Z then 0%R else (IZR (corrected T) / q)%R) = (IZR (corrected T) / q)%R).
  { intros T. destruct (Z.eqb_spec T 0) as [->|]; auto. unfold corrected. simpl. unfold Rdiv. ring. }
  rewrite !C. apply Rmult_le_compat_r; [lra|]. apply IZR_le. unfold corrected. lia.
Qed.
(** "Significant" means exactly that the reported p-value is below alpha, for
    every z the code can compute, infinite or NaN ones included. *)
Theorem significance_matches_p : forall cdf ppf alpha z, normal_like cdf ppf -> (0 < alpha < 2)%R ->
  (significant ppf alpha z = true <-> exists pv, p_value cdf z = Some pv /\ (pv < alpha)%R).
Proof.
  intros cdf ppf alpha z N A. destruct z as [r| b |]; cbn [significant p_value].
  - pose proof (nl_inverse _ _ N (1 - alpha / 2)%R ltac:(lra)) as I. set (q := ppf (1 - alpha / 2)%R) in *.
    destruct (Rlt_dec q (Rabs r)) as [L|L]; split; auto; try discriminate.
    + intros _. eexists. split; [reflexivity|]. apply (nl_increasing _ _ N) in L. lra.
    + intros (pv & E & P). injection E as <-. exfalso. apply Rnot_lt_le in L.
      assert (cdf (Rabs r) <= cdf q)%R by (destruct L as [L|L]; [left; apply (nl_increasing _ _ N); auto|rewrite L; lra]). lra.
  - split; auto. intros _. eexists. split; [reflexivity|]. lra.
  - split; [discriminate|]. intros (pv & E & _). discriminate.
Qed.
(** The p-value lies in (0, 1] and equals 1 exactly when z = 0. *)
Theorem p_value_range : forall cdf ppf r, normal_like cdf ppf ->
  exists pv, p_value cdf (Zfin r) = Some pv /\ (0 < pv <= 1)%R /\ (pv = 1%R <-> r = 0%R).
Proof.
  intros cdf ppf r N. eexists. split; [reflexivity|]. pose proof (nl_below_one _ _ N (Rabs r)) as B.
  assert (H0 : cdf 0%R = (1 / 2)%R). { pose proof (nl_symmetric _ _ N 0%R) as E. rewrite Ropp_0 in E. lra. }
  destruct (Req_dec r 0) as [->|NZ].
  - rewrite Rabs_R0, H0 in *. split; [lra|]. split; lra.
  - pose proof (nl_increasing _ _ N 0%R (Rabs r) (Rabs_pos_lt r NZ)) as P. split; [lra|]. split; intros; lra.
Qed.

(** ** C12: the whole test *)
(** For every series with at least three finite values and every content of
    the scratch buffers, the result is the specified one: Sen (or least
    squares) slope, z from S and the tie-corrected variance (never NaN or
    infinite), two-sided p, decision, tau and residual standard error.  With
    fewer than three finite values everything is NaN and h is False. *)
Theorem test_result : forall cdf ppf g alpha theil values, exists r, mann_kendall_test cdf ppf g alpha theil values = Some r /\
  (length (finite_values values) < 3 -> r = mk_stat None false None Znan None None) /\
  (3 <= length (finite_values values) -> mk_result cdf ppf alpha theil (finite_values values) r).
Proof.
  intros. rewrite scalar_ok. eexists. split; [reflexivity|]. destruct (Nat.ltb_spec (length (finite_values values)) 3); split; intros; try lia; auto.
  apply result_ok.
Qed.
Theorem test_result_determined : forall cdf ppf alpha theil y r r', mk_result cdf ppf alpha theil y r -> mk_result cdf ppf alpha theil y r' -> r = r'.
Proof. exact mk_result_unique. Qed.
(** h of the test is "p < alpha". *)
Theorem test_decision : forall cdf ppf g alpha theil values r, normal_like cdf ppf -> (0 < alpha < 2)%R ->
  mann_kendall_test cdf ppf g alpha theil values = Some r ->
  (h r = true <-> exists pv, p r = Some pv /\ (pv < alpha)%R).
Proof.
  intros cdf ppf g alpha theil values r N A E. rewrite scalar_ok in E. injection E as <-.
  destruct (length (finite_values values) <? 3).
  - split; [discriminate|]. intros (pv & E & _). discriminate.
  - apply (significance_matches_p cdf ppf alpha (Zfin (zr (finite_values values)))); auto.
Qed.
(** tau stays within [-1, 1]. *)
Theorem tau_range : forall cdf ppf g alpha theil values r t,
  mann_kendall_test cdf ppf g alpha theil values = Some r -> tau r = Some t -> (- (1) <= t <= 1)%Qc.
Proof.
  intros cdf ppf g alpha theil values r t E T. rewrite scalar_ok in E. injection E as <-.
  destruct (Nat.ltb_spec (length (finite_values values)) 3) as [L|L]; [discriminate|]. cbn [tau result] in T. injection T as <-.
  set (y := finite_values values) in *. pose proof (mk_S_bound y) as B. set (D := (Z.of_nat (length y) * (Z.of_nat (length y) - 1))%Z) in *.
  assert (P : (0 < qz D)%Qc) by (change 0%Qc with (qz 0); apply qz_lt; unfold D; nia).
  assert (B1 : (qz (2 * mk_S y) <= qz D)%Qc) by (apply qz_le; lia). assert (B2 : (- qz D <= qz (2 * mk_S y))%Qc) by (rewrite <- qz_opp; apply qz_le; lia).
  pose proof (Qcinv_pos P) as I. split.
  - replace (- (1))%Qc with (- qz D * / qz D)%Qc by (field; apply Qcpos_neq; auto). apply Qcmult_le_compat_r; auto. apply Qclt_le_weak; auto.
  - replace 1%Qc with (qz D * / qz D)%Qc by (field; apply Qcpos_neq; auto). apply Qcmult_le_compat_r; auto. apply Qclt_le_weak; auto.
Qed.
Lemma finite_values_rev v : finite_values (rev v) = rev (finite_values v).
Proof.
  induction v as [|x v IH]; auto. cbn [rev]. unfold finite_values in *. rewrite flat_map_app. cbn [flat_map]. rewrite app_nil_r, rev_app_distr. f_equal; auto. destruct x; auto.
Qed.
Lemma finite_values_map f v : finite_values (map (option_map f) v) = map f (finite_values v).
Proof. induction v as [|x v IH]; auto. cbn [map]. unfold finite_values in *. cbn [flat_map]. rewrite map_app. f_equal; auto. destruct x; auto. Qed.
(** Running the series backwards negates trend, z and tau and leaves p, the
    decision and the standard error alone. *)
Theorem test_reversed : forall cdf ppf g g' alpha theil values r r',
  mann_kendall_test cdf ppf g alpha theil values = Some r -> mann_kendall_test cdf ppf g' alpha theil (rev values) = Some r' ->
  trend r' = option_map Qcopp (trend r) /\ z r' = zneg (z r) /\ p r' = p r /\ h r' = h r /\ tau r' = option_map Qcopp (tau r) /\ std_error r' = std_error r.
Proof.
  intros cdf ppf g g' alpha theil values r r' E E'. rewrite scalar_ok in E, E'. rewrite finite_values_rev, rev_length in E'.
  injection E as <-. injection E' as <-. destruct (Nat.ltb_spec (length (finite_values values)) 3) as [L|L]. { repeat split. }
  set (y := finite_values values) in *. unfold result. cbn [trend z p h tau std_error option_map].
  assert (SL : slope_of theil (rev y) = (- slope_of theil y)%Qc) by (destruct theil; [apply sen_rev; lia|apply ols_rev]).
  rewrite zr_rev, SL, mk_S_rev, rev_length. repeat split.
  - rewrite <- (zneg_p cdf (Zfin (zr y))). reflexivity.
  - rewrite <- (zneg_h ppf alpha (Zfin (zr y))). reflexivity.
  - f_equal. replace (2 * - mk_S y)%Z with (- (2 * mk_S y))%Z by lia. rewrite qz_opp. unfold Qcdiv. ring.
  - rewrite (variance_perm _ _ (detrend_rev (slope_of theil y) y)), variance_affine. do 4 f_equal. ring.
Qed.
(** A change of units [a*v + b] with a > 0 scales trend and standard error by
    a and changes nothing else. *)
Theorem test_rescaled : forall cdf ppf g g' alpha theil a b values r r', (0 < a)%Qc ->
  mann_kendall_test cdf ppf g alpha theil values = Some r ->
  mann_kendall_test cdf ppf g' alpha theil (map (option_map (fun v => a * v + b)%Qc) values) = Some r' ->
  trend r' = option_map (Qcmult a) (trend r) /\ z r' = z r /\ p r' = p r /\ h r' = h r /\ tau r' = tau r /\
  std_error r' = option_map (Rmult (QcR a)) (std_error r).
Proof.
  intros cdf ppf g g' alpha theil a b values r r' A E E'. rewrite scalar_ok in E, E'. rewrite finite_values_map, map_length in E'.
  injection E as <-. injection E' as <-. destruct (Nat.ltb_spec (length (finite_values values)) 3) as [L|L]. { repeat split. }
  set (y := finite_values values) in *. set (f := (fun v => a * v + b)%Qc). unfold result. cbn [trend z p h tau std_error option_map].
  assert (F : forall u v, (u < v)%Qc -> (f u < f v)%Qc).
  { intros u v H. unfold f. assert (0 < a * (v - u))%Qc by (apply Qcmul_pos; auto; qclra). assert (a * (v - u) = a * v - a * u)%Qc by ring. rewrite H1 in H0. set (x1 := (a * v)%Qc) in *. set (x2 := (a * u)%Qc) in *. clearbody x1 x2. qclra. }
  assert (FI : forall u v, f u = f v -> u = v).
  { intros u v H. destruct (Qc_dec u v) as [[H1|H1]|H1]; auto; apply F in H1; rewrite H in H1; exfalso; revert H1; generalize (f v); intros; qclra. }
  assert (SL : slope_of theil (map f y) = (a * slope_of theil y)%Qc).
  { destruct theil; [|apply ols_affine]. unfold slope_of.
    replace (map f y) with (affine_series a b 0 y).
    - rewrite sen_affine by lia. ring.
    - unfold affine_series. rewrite <- (map_get_seq y) at 2. rewrite map_map. apply map_ext. intros i. unfold f. ring. }
  assert (SS : mk_S (map f y) = mk_S y) by (apply mk_S_map_mono; auto).
  assert (TC : tie_correction (map f y) = tie_correction y).
  { assert (M : forall l v, mult (f v) (map f l) = mult v l).
    { unfold mult, count. intros l v. f_equal. induction l as [|u l IH]; auto. cbn [map filter].
      destruct (Qceqb_spec (f u) (f v)) as [H|H], (Qceqb_spec u v) as [H'|H']; cbn [length]; auto; exfalso; [apply H'; auto|apply H; congruence]. }
    unfold tie_correction. f_equal. rewrite <- (map_map (fun v => mult v (map f y)) (fun t => t * (t - 1) * (2 * t + 5))%Z).
    rewrite <- (map_map (fun v => mult v y) (fun t => t * (t - 1) * (2 * t + 5))%Z). f_equal.
    transitivity (map (fun v => mult (f v) (map f y)) (nodup Qc_eq_dec y)).
    - assert (ND : forall l, nodup Qc_eq_dec (map f l) = map f (nodup Qc_eq_dec l)).
      { induction l as [|u l IH]; auto. cbn [map nodup]. destruct (in_dec Qc_eq_dec (f u) (map f l)) as [H|H], (in_dec Qc_eq_dec u l) as [H'|H']; auto.
        - exfalso. apply in_map_iff in H. destruct H as (w & E & Hw). apply FI in E. subst. auto.
        - exfalso. apply H. apply in_map. auto.
        - cbn [map]. f_equal. auto. }
      rewrite ND, map_map. auto.
    - apply map_ext. intros v. apply M. }
  assert (VV : mk_variance (map f y) = mk_variance y) by (unfold mk_variance; rewrite map_length, TC; auto).
  assert (ZZ : zr (map f y) = zr y) by (unfold zr; rewrite SS, VV; auto).
  rewrite ZZ, SS, SL, map_length. repeat split. f_equal. unfold f. rewrite detrend_affine, variance_affine.
  rewrite !QcR_mul. pose proof (QcR_pos a A) as RP. rewrite sqrt_mult_alt by nra. rewrite sqrt_square by lra. unfold Rdiv. ring.
Qed.

(** z of S = 4 and S = -1 for the variance 26/3, and a level in range. *)
Example z_demo : (0 < Q2Qc (26 # 3))%Qc /\ z_scalar 4 (Q2Qc (26 # 3)) = Zfin (3 / sqrt (QcR (Q2Qc (26 # 3)))) /\
  z_scalar (-1) (Q2Qc (26 # 3)) = Zfin (0 / sqrt (QcR (Q2Qc (26 # 3)))) /\ (0 < / 20 < 2)%R.
Proof. repeat split; try reflexivity; lra. Qed.
(** A distribution meeting [normal_like] exists (the logistic one). *)
Example normal_like_logistic : normal_like (fun x => / (1 + exp (- x)))%R (fun u => ln (u / (1 - u)))%R.
Proof.
  assert (E : forall x, (0 < exp (- x))%R) by (intros; apply exp_pos).
  constructor.
  - intros a b H. apply Rinv_lt_contravar. pose proof (E a); pose proof (E b). nra.
    assert (exp (- b) < exp (- a))%R by (apply exp_increasing; lra). lra.
  - intros a. rewrite Ropp_involutive. rewrite (exp_Ropp a). pose proof (exp_pos a). field; repeat split; lra.
  - intros a. pose proof (E a). rewrite <- Rinv_1. apply Rinv_lt_contravar; lra.
  - intros u H. rewrite exp_Ropp, exp_ln. field; repeat split; lra. apply Rmult_lt_0_compat; [lra|]. apply Rinv_0_lt_compat. lra.
Qed.
(** A series with a gap: S = 4, variance 26/3, trend 3/4, the z score 3/sqrt(26/3). *)
Definition gap_series : list fl := map (option_map qz) [Some 0; None; Some 2; Some 1; Some 3]%Z.
Example test_demo : forall cdf ppf g alpha, exists r, mann_kendall_test cdf ppf g alpha true gap_series = Some r /\
  3 <= length (finite_values gap_series) /\ option_map this (trend r) = Some (3 # 4)%Q /\ z r = Zfin (3 / sqrt (QcR (mk_variance (finite_values gap_series)))) /\
  this (mk_variance (finite_values gap_series)) = (26 # 3)%Q /\ option_map this (tau r) = Some (2 # 3)%Q.
Proof.
  intros. rewrite scalar_ok. eexists. split; [reflexivity|]. change (length (finite_values gap_series) <? 3) with false.
  cbv iota. split. { simpl. lia. } split. { vm_compute. reflexivity. }
  split. { cbn [z result]. unfold zr. change (mk_S (finite_values gap_series)) with 4%Z. reflexivity. } split; vm_compute; reflexivity.
Qed.
(** Gaps are closed up before the slope is computed: a series growing by
    exactly 1 per time step wherever it is observed does not get trend 1. *)
Theorem trend_with_gap_refuted : exists values, (forall t, t < length values -> nth t values None = None \/ nth t values None = Some (qz (Z.of_nat t))) /\
  forall cdf ppf g alpha, exists r s, mann_kendall_test cdf ppf g alpha true values = Some r /\ trend r = Some s /\ s <> 1%Qc.
Proof.
  exists (map (option_map qz) [Some 0; None; Some 2; Some 3]%Z). split.
  - intros t Ht. do 4 (destruct t as [|t]; [simpl; auto|]). simpl in Ht. lia.
  - intros. rewrite scalar_ok. eexists. eexists. split; [reflexivity|]. split; [reflexivity|]. intros E. apply this_eq_Qc in E. vm_compute in E. discriminate.
Qed.
(** With the Yue-Wang variance for a limited number of lags (a negative
    variance, see C11), S is 4 and yet z is NaN and no level is significant. *)
Theorem yue_wang_limited_lag_nan_refuted : exists y slope m v, compute_sen_slope y (repeat 0%Qc 28) = Some (Some slope) /\
  modified_variance_with_slope_lag y slope m = Some (Some v) /\ (1 <= m < Z.of_nat (length y))%Z /\ compute_s_value y = 4%Z /\
  z_scalar (compute_s_value y) v = Znan /\ forall cdf ppf alpha, p_value cdf (z_scalar (compute_s_value y) v) = None /\ significant ppf alpha (z_scalar (compute_s_value y) v) = false.
Proof.
  exists (zl [0; 1; 0; 1; 0; 1; 0; 1]%Z).
  destruct (compute_sen_slope (zl [0; 1; 0; 1; 0; 1; 0; 1]%Z) (repeat 0%Qc 28)) as [[s|]|] eqn:E; [| vm_compute in E; discriminate | vm_compute in E; discriminate].
  exists s. exists 1%Z.
  destruct (modified_variance_with_slope_lag (zl [0; 1; 0; 1; 0; 1; 0; 1]%Z) s 1) as [[v|]|] eqn:V.
  - exists v. assert (VN : (v <? 0)%Qc = true). { vm_compute in E. injection E as <-. vm_compute in V. injection V as <-. vm_compute. auto. }
    change (compute_s_value (zl [0; 1; 0; 1; 0; 1; 0; 1]%Z)) with 4%Z.
    assert (ZN : z_scalar 4 v = Znan) by (unfold z_scalar, div_sqrt; cbn [Z.ltb Z.compare]; rewrite VN; auto).
    rewrite ZN. repeat split; auto; simpl; lia.
  - exfalso. vm_compute in E. injection E as <-. vm_compute in V. discriminate.
  - exfalso. vm_compute in E. injection E as <-. vm_compute in V. discriminate.
Qed.

(** ** C13: the gridded driver *)
(** Every point of every array (any rank >= 2... in fact any rank, any time
    axis, any chunk size >= 1 or the default one, any missing-data pattern)
    holds what the scalar test returns for the series through that point. *)
Theorem gridded_equals_scalar : forall cdf ppf g g' alpha theil chunk axis data, axis < ndim data -> 1 <= nthn (nd_shape data) axis ->
  (forall c, chunk = Some c -> (1 <= c)%Z) ->
  exists out, mann_kendall_multidim cdf ppf g alpha theil chunk axis data = Some out /\
    nd_shape out = drop_axis axis (nd_shape data) /\
    forall ix, valid ix (nd_shape out) ->
      mann_kendall_test cdf ppf g' alpha theil (map (fun t => nd_elt data (insert_at axis t ix)) (seq 0 (nthn (nd_shape data) axis))) = Some (nd_elt out ix).
Proof.
  intros cdf ppf g g' alpha theil chunk axis data H1 H2 H3. destruct (multidim_ok cdf ppf g alpha theil chunk axis data H1 H2 H3) as (out & E & SH & EL).
  exists out. split; auto. split; auto. intros ix V. rewrite scalar_ok, EL by auto. reflexivity.
Qed.
(** The chunks cover every point exactly once, in order. *)
Theorem chunks_partition : forall n c, (1 <= c)%Z -> exists starts, range0 n c = Some starts /\
  flat_map (fun start => seq start (Nat.min (start + Z.to_nat c) n - start)) starts = seq 0 n.
Proof.
  intros n c H. unfold range0. destruct (Z.eqb_spec c 0); [lia|]. destruct (Z.ltb_spec c 0); [lia|]. eexists. split; [reflexivity|].
  set (s := Z.to_nat c). assert (Hs : 1 <= s) by (unfold s; lia).
  assert (INV : forall m, flat_map (fun start => seq start (Nat.min (start + s) n - start)) (map (fun i => i * s) (seq 0 m)) = seq 0 (Nat.min (m * s) n)).
  { induction m as [|m IH]; auto. rewrite seq_S, map_app, flat_map_app, IH. cbn [map flat_map]. rewrite app_nil_r, Nat.add_0_l.
    destruct (Nat.le_gt_cases n (m * s)) as [L|L].
    - replace (Nat.min (m * s + s) n - m * s) with 0 by lia. rewrite app_nil_r. f_equal. lia.
    - replace (Nat.min (m * s) n) with (m * s) by lia. rewrite <- (seq_app (m * s) _ 0). f_equal. lia. }
  rewrite INV. f_equal. apply Nat.min_r. pose proof (Nat.div_mod_eq (n + s - 1) s). pose proof (Nat.mod_upper_bound (n + s - 1) s). nia.
Qed.
(** The chunk size does not matter. *)
Theorem chunk_size_irrelevant : forall cdf ppf g g' alpha theil T c c' cols, (1 <= c)%Z -> (1 <= c')%Z ->
  chunk_loop cdf ppf g alpha theil T c cols = chunk_loop cdf ppf g' alpha theil T c' cols.
Proof. intros. rewrite !chunk_loop_ok by auto. auto. Qed.
Theorem default_chunk_valid : forall time_steps n_points, 1 <= time_steps -> exists c, default_chunk time_steps n_points = Some c /\ (100 <= c)%Z.
Proof. exact default_chunk_ge. Qed.
(** chunk_size = 0 raises; a negative chunk size is accepted silently and
    leaves every point NaN. *)
Theorem chunk_zero_raises : forall cdf ppf g alpha theil T cols, chunk_loop cdf ppf g alpha theil T 0 cols = None.
Proof. reflexivity. Qed.
Theorem negative_chunk_size_refuted : exists c cols, (c < 0)%Z /\
  forall cdf ppf g g' alpha, exists out r, chunk_loop cdf ppf g alpha true 4 c cols = Some out /\
    mann_kendall_test cdf ppf g' alpha true (nth 0 cols []) = Some r /\ nth_error out 0 = Some nan_stat /\ trend r <> None.
Proof.
  exists (-1)%Z, (map (option_map qz) [Some 0; Some 1; Some 2; Some 3]%Z :: nil). split; [lia|]. intros. eexists. eexists. split; [reflexivity|].
  split. rewrite scalar_ok. reflexivity. split; [reflexivity|]. discriminate.
Qed.
(** An array of shape (2, 4, 3), time on axis 1, chunks of 4 points (6 points). *)
Definition grid_demo : nda fl := mk_nda [2; 4; 3] (fun ix =>
  match ix with [i; t; j] => if (i =? 1) && (t =? 2) then None else Some (qz (Z.of_nat (t * t + i * t * j))) | _ => None end).
Example gridded_demo : (1 < ndim grid_demo /\ 1 <= nthn (nd_shape grid_demo) 1) /\ valid [1; 2] (drop_axis 1 (nd_shape grid_demo)) /\
  forall cdf ppf g alpha, exists out, mann_kendall_multidim cdf ppf g alpha true (Some 4%Z) 1 grid_demo = Some out /\
   option_map this (trend (nd_elt out [1; 2])) = Some (15 # 2)%Q.
Proof.
  split; [|split].
  - vm_compute. lia.
  - repeat constructor.
  - intros. destruct (multidim_ok cdf ppf g alpha true (Some 4%Z) 1 grid_demo) as (out & E & SH & EL).
    { vm_compute. lia. } { vm_compute. lia. } { intros c [= <-]. lia. }
    exists out. split; auto. rewrite EL by (rewrite SH; repeat constructor). vm_compute. reflexivity.
Qed.

Print Assumptions z_score_rule.
Print Assumptions z_score_degenerate.
Print Assumptions significance_matches_p.
Print Assumptions test_result.
Print Assumptions test_reversed.
Print Assumptions test_rescaled.
Print Assumptions gridded_equals_scalar.
Print Assumptions chunks_partition.
