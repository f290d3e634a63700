(** The great-circle distance of rcm_geodesy.f90 in real arithmetic (floating-point
    rounding is not modelled) *)
From Coq Require Import Reals Lra Psatz Nsatz.
Local Open Scope R_scope.

(** Fortran's atan2(y, x) for y >= 0 (the first argument of rcm_geodesy.f90:42 is a square root) *)
Definition atan2_up (y x : R) : R :=
  if Rlt_dec 0 x then atan (y / x)
  else if Rlt_dec x 0 then atan (y / x) + PI
  else if Rlt_dec 0 y then PI / 2 else 0.
(** rcm_geodesy.f90:28 and 27, index [iu] *)
Definition geo_rad : R := 1745329238474369 / 100000000000000000.
Definition geo_units (iu : nat) : R :=
  match iu with
  | 1%nat => 1
  | 2%nat => 5729577995691645 / 100000000000000
  | 3%nat => 6371220
  | 4%nat => 637122 / 100
  | _ => 0
  end.
(** rcm_geodesy.f90:38-39 *)
Definition lon_gap (lon1 lon2 : R) : R :=
  Rmin (Rmin (Rabs (lon1 - lon2)) (Rabs (360 - lon1 + lon2))) (Rabs (360 - lon2 + lon1)) * geo_rad.
Definition geo_y (p q d : R) : R := sqrt ((cos q * sin d) ^ 2 + (cos p * sin q - sin p * cos q * cos d) ^ 2).
Definition geo_x (p q d : R) : R := sin p * sin q + cos p * cos q * cos d.
(** rcm_geodesy.f90:22-46 *)
Definition dgcdist (lat1 lon1 lat2 lon2 : R) (iu : nat) : R :=
  if Req_EM_T lat1 lat2 then
    if Req_EM_T lon1 lon2 then 0
    else atan2_up (geo_y (lat1 * geo_rad) (lat2 * geo_rad) (lon_gap lon1 lon2)) (geo_x (lat1 * geo_rad) (lat2 * geo_rad) (lon_gap lon1 lon2)) * geo_units iu
  else atan2_up (geo_y (lat1 * geo_rad) (lat2 * geo_rad) (lon_gap lon1 lon2)) (geo_x (lat1 * geo_rad) (lat2 * geo_rad) (lon_gap lon1 lon2)) * geo_units iu.

(** the central angle between two points given in radians *)
Definition central_angle (p q d : R) : R := acos (sin p * sin q + cos p * cos q * cos d).

Lemma geo_circle p q d : geo_y p q d ^ 2 + geo_x p q d ^ 2 = 1.
Proof.
  unfold geo_y, geo_x. rewrite <- Rsqr_pow2, Rsqr_sqrt by (pose proof (pow2_ge_0 (cos q * sin d)); pose proof (pow2_ge_0 (cos p * sin q - sin p * cos q * cos d)); lra).
  pose proof (sin2_cos2 p) as P. pose proof (sin2_cos2 q) as Q. pose proof (sin2_cos2 d) as D. unfold Rsqr in *.
  set (sp := sin p) in *. set (cp := cos p) in *. set (sq := sin q) in *. set (cq := cos q) in *. set (sd := sin d) in *. set (cd := cos d) in *. clearbody sp cp sq cq sd cd.
  assert (E : (cq * sd) ^ 2 + (cp * sq - sp * cq * cd) ^ 2 + (sp * sq + cp * cq * cd) ^ 2 = cq * cq * (sd * sd) + (sp * sp + cp * cp) * (sq * sq + cq * cq * (cd * cd))) by ring.
  rewrite E, P. replace (sd * sd) with (1 - cd * cd) by lra. replace (sq * sq) with (1 - cq * cq) by lra. ring.
Qed.
Lemma geo_y_nonneg p q d : 0 <= geo_y p q d. Proof. apply sqrt_pos. Qed.
Lemma atan2_up_cos y x : 0 <= y -> y ^ 2 + x ^ 2 = 1 -> 0 <= atan2_up y x <= PI /\ cos (atan2_up y x) = x.
Proof.
  intros Y C. pose proof PI_RGT_0 as PI0. assert (SQ : x <> 0 -> sqrt (1 + (y / x)²) = / Rabs x).
  { intros N. replace (1 + (y / x)²) with ((/ Rabs x) ^ 2).
    - rewrite <- Rsqr_pow2. apply sqrt_Rsqr. apply Rlt_le, Rinv_0_lt_compat, Rabs_pos_lt. auto.
    - rewrite pow_inv, pow2_abs. transitivity ((y ^ 2 + x ^ 2) / x ^ 2); [rewrite C|unfold Rsqr]; field; auto. }
  unfold atan2_up. destruct (Rlt_dec 0 x) as [P|P]; [|destruct (Rlt_dec x 0) as [N|N]].
  - assert (0 <= y / x) by (apply Rmult_le_pos; [auto|apply Rlt_le, Rinv_0_lt_compat; auto]). pose proof (atan_bound (y / x)).
    assert (0 <= atan (y / x)). { destruct (Rle_lt_or_eq_dec _ _ H) as [L|E]. - rewrite <- atan_0. apply Rlt_le, atan_increasing. auto. - rewrite <- E, atan_0. lra. }
    split; [lra|]. rewrite cos_atan, SQ by lra. rewrite Rabs_right by lra. field. lra.
  - assert (y / x <= 0). { unfold Rdiv. assert (/ x < 0) by (apply Rinv_lt_0_compat; auto). nra. } pose proof (atan_bound (y / x)).
    assert (atan (y / x) <= 0). { destruct (Rle_lt_or_eq_dec _ _ H) as [L|E]. - rewrite <- atan_0. apply Rlt_le, atan_increasing. auto. - rewrite E, atan_0. lra. }
    split; [lra|]. rewrite neg_cos, cos_atan, SQ by lra. rewrite Rabs_left by lra. field. lra.
  - assert (x = 0) by lra. subst x. assert (y = 1). { assert ((y - 1) * (y + 1) = 0) by (rewrite <- (Rminus_diag_eq _ _ C); ring). apply Rmult_integral in H as [H|H]; lra. } subst y.
    destruct (Rlt_dec 0 1); [|lra]. split; [lra|apply cos_PI2].
Qed.
Lemma geo_angle p q d : atan2_up (geo_y p q d) (geo_x p q d) = central_angle p q d.
Proof.
  destruct (atan2_up_cos (geo_y p q d) (geo_x p q d) (geo_y_nonneg p q d) (geo_circle p q d)) as [B C].
  unfold central_angle. change (sin p * sin q + cos p * cos q * cos d) with (geo_x p q d). rewrite <- C at 2. symmetry. apply acos_cos. auto.
Qed.
Lemma lon_gap_same lon : lon_gap lon lon = 0.
Proof. unfold lon_gap. replace (lon - lon) with 0 by lra. rewrite Rabs_R0. rewrite !(Rmin_left 0 _ (Rabs_pos _)). ring. Qed.
Lemma lon_gap_sym a b : lon_gap a b = lon_gap b a.
Proof. unfold lon_gap. rewrite (Rabs_minus_sym a b), <- !Rmin_assoc. f_equal. f_equal. apply Rmin_comm. Qed.

(** the distance is the central angle in the chosen unit *)
Theorem dgcdist_central_angle : forall lat1 lon1 lat2 lon2 iu,
  dgcdist lat1 lon1 lat2 lon2 iu = central_angle (lat1 * geo_rad) (lat2 * geo_rad) (lon_gap lon1 lon2) * geo_units iu.
Proof.
  intros. unfold dgcdist. rewrite geo_angle. destruct (Req_EM_T lat1 lat2) as [->|]; auto. destruct (Req_EM_T lon1 lon2) as [->|]; auto.
  rewrite lon_gap_same. unfold central_angle. rewrite cos_0. replace (sin (lat2 * geo_rad) * sin (lat2 * geo_rad) + cos (lat2 * geo_rad) * cos (lat2 * geo_rad) * 1) with 1.
  - rewrite acos_1. ring.
  - pose proof (sin2_cos2 (lat2 * geo_rad)). unfold Rsqr in *. lra.
Qed.
Theorem dgcdist_symmetric : forall lat1 lon1 lat2 lon2 iu, dgcdist lat1 lon1 lat2 lon2 iu = dgcdist lat2 lon2 lat1 lon1 iu.
Proof. intros. rewrite !dgcdist_central_angle, (lon_gap_sym lon1). unfold central_angle. do 2 f_equal. ring. Qed.
Theorem dgcdist_bounds : forall lat1 lon1 lat2 lon2 iu, 0 <= dgcdist lat1 lon1 lat2 lon2 iu <= PI * geo_units iu.
Proof.
  intros. rewrite dgcdist_central_angle. unfold central_angle. pose proof (acos_bound (sin (lat1 * geo_rad) * sin (lat2 * geo_rad) + cos (lat1 * geo_rad) * cos (lat2 * geo_rad) * cos (lon_gap lon1 lon2))) as B.
  assert (0 <= geo_units iu) by (unfold geo_units; destruct iu as [|[|[|[|[|]]]]]; lra). split; nra.
Qed.
(** C67: the cutoff of the fallback is never reached: the distance is in degrees (unit 2), the
    radius dkm of rcm2points.f90:375-378 in kilometres *)
Definition fallback_radius : R := 5 * (2 * PI * 6371) / 360.
Theorem rcm2points_radius_refuted : forall lat1 lon1 lat2 lon2, dgcdist lat1 lon1 lat2 lon2 2 < fallback_radius.
Proof.
  intros. pose proof (dgcdist_bounds lat1 lon1 lat2 lon2 2) as B. unfold fallback_radius, geo_units in *. pose proof PI_RGT_0. nra.
Qed.
(** opposite points of the equator are accepted *)
Example dgcdist_quarter : dgcdist 0 0 (PI / (2 * geo_rad)) 0 1 = PI / 2.
Proof.
  rewrite dgcdist_central_angle, lon_gap_same. unfold central_angle. rewrite Rmult_0_l, sin_0, cos_0.
  replace (PI / (2 * geo_rad) * geo_rad) with (PI / 2) by (field; unfold geo_rad; lra). rewrite sin_PI2, cos_PI2. replace (0 * 1 + 1 * 0 * 1) with 0 by ring. rewrite acos_0. unfold geo_units. lra.
Qed.
Print Assumptions dgcdist_central_angle.
Print Assumptions rcm2points_radius_refuted.
