(** A sounding worked out in real arithmetic, for the examples: cold air below a
    saturated level at 700 hPa *)
From Coq Require Import Reals Lra.
From Verif Require Import Base Buffer VH_Model TP_Model TP_Proofs3 DC_Model DC_Spec DC_Proofs DC_Proofs2 DC_Proofs3 DC_Proofs4.
Local Close Scope Qc_scope.
Local Open Scope R_scope.

Definition top : level RF := (700, 0, 0).
Definition cold (p : R) : level RF := (p, -110, -120).
Definition rsound : list (level RF) := cold 1000 :: cold 850 :: cold 800 :: top :: nil.

Lemma dle_yes (x y : R) : x <= y -> dle RF x y = true.
Proof. intros H. unfold dle. cbn [RF fltb feqb]. apply orb_true_iff. rewrite Rltb_true, Reqb_true. destruct H; auto. Qed.
Lemma dle_no (x y : R) : y < x -> dle RF x y = false.
Proof. intros H. unfold dle. cbn [RF fltb feqb]. apply orb_false_iff. rewrite Rltb_false, Reqb_false. lra. Qed.
Lemma ln_lower (y : R) : 0 < y -> 1 - / y <= ln y.
Proof.
  intros H. destruct (Req_dec (ln y) 0) as [E|N].
  - assert (y = 1). { rewrite <- (exp_ln y), E by auto. apply exp_0. } subst. rewrite ln_1. lra.
  - pose proof (exp_ineq1 (- ln y) ltac:(lra)) as Hi. rewrite exp_Ropp, exp_ln in Hi by auto. lra.
Qed.
Lemma interp_end (p0 v0 p1 v1 : R) : 0 < p1 -> 2 * p1 <= 3 * p0 -> 8 * p1 <= 7 * p0 -> 700 <= p1 -> interp_linear_p RF p0 v0 p1 v1 p1 = v1.
Proof.
  intros H1 H2 H3 H4. unfold interp_linear_p. cbn [RF fltb fabs fsub fln fc fadd fmul fdiv].
  assert (Hd : Rabs (p1 - p0) = p0 - p1) by (rewrite Rabs_left; lra). rewrite Hd, (ltb_no (p0 - p1)) by lra.
  rewrite !(ltb_yes (0 / 1)) by lra. cbn [andb].
  assert (Hl : 1 / 8 <= ln p0 - ln p1).
  { assert (E : ln p0 - ln p1 = ln (p0 / p1)) by (unfold Rdiv; rewrite ln_mult by (try lra; apply Rinv_0_lt_compat; lra); rewrite ln_Rinv by lra; ring).
    rewrite E. assert (0 < p0 / p1) by (apply Rmult_lt_0_compat; [lra|apply Rinv_0_lt_compat; lra]).
    pose proof (ln_lower (p0 / p1) H). assert (/ (p0 / p1) <= 7 / 8); [|lra].
    replace (/ (p0 / p1)) with (p1 / p0) by (field; lra). apply Rmult_le_reg_r with p0; [lra|]. unfold Rdiv at 1. rewrite Rmult_assoc, Rinv_l by lra. lra. }
  rewrite Rabs_left by lra. rewrite ltb_no by lra. toR. field. lra.
Qed.
Lemma rsound_falling : falling RF rsound /\ forall x, In x rsound -> 0 < lp RF x.
Proof.
  split.
  - cbn [falling rsound]. unfold lp, cold, top. cbn [fst]. repeat split; apply ltb_yes; lra.
  - intros x [<-|[<-|[<-|[<-|[]]]]]; unfold lp, cold, top; cbn [fst]; lra.
Qed.
Lemma rsound_upward : upward RF rsound = rsound.
Proof. unfold rsound. rewrite upward_cons. cbn [last]. unfold lp, cold, top. cbn [fst RF fltb]. rewrite ltb_no by lra. reflexivity. Qed.
Lemma rsound_candidates : candidates RF rsound = top :: top :: nil.
Proof.
  unfold candidates, rsound.
  assert (E : forall p b, p > 700 -> b <= 700 -> dle RF p b = false) by (intros; apply dle_no; lra).
  assert (H1 : filter (fun x => between RF (fc RF 500 1) (fc RF 700 1) (lp RF x)) (cold 1000 :: cold 850 :: cold 800 :: top :: nil) = top :: nil).
  { cbn [filter]. unfold between, lp, cold, top. cbn [fst RF fc]. rewrite !(dle_yes (500 / 1)) by lra. cbn [andb].
    rewrite (dle_no 1000), (dle_no 850), (dle_no 800), (dle_yes 700) by lra. reflexivity. }
  rewrite H1. cbn [crossing]. unfold between, lp, cold, top. cbn [fst snd RF fc].
  rewrite (dle_no 850 (700 / 1)), (dle_no 1000 (700 / 1)), (dle_no 800 (700 / 1)), (dle_yes 700 (700 / 1)), (dle_yes (700 / 1) 800) by lra.
  rewrite (dle_no 850 (500 / 1)), (dle_no 1000 (500 / 1)), (dle_no 800 (500 / 1)), (dle_no 700 (500 / 1)) by lra. cbn [andb orb app].
  replace (700 / 1) with 700 by field. rewrite !interp_end by lra. reflexivity.
Qed.

(** values at a saturated level of 0 Celsius *)
Lemma sat_zero : sat_vapor_pressure_hpa RF 0 = 6112 / 1000.
Proof. unfold sat_vapor_pressure_hpa. cbn [RF fmul fexp fdiv fadd fc]. replace (1767 / 100 * 0 / (0 + 2435 / 10)) with 0 by field. rewrite exp_0. toR. ring. Qed.
Lemma td_zero : dmax RF (fadd RF 0 (fc RF 27315 100)) (fc RF 17315 100) = 27315 / 100.
Proof. unfold dmax. cbn [RF fltb fadd fc]. rewrite ltb_no by lra. toR. ring. Qed.
Lemma tlcl_zero : t_lcl RF (27315 / 100) (27315 / 100) = 27315 / 100.
Proof.
  unfold t_lcl. cbn [RF fadd fsub fdiv fln fc]. replace (27315 / 100 / (27315 / 100)) with 1 by field. rewrite ln_1. toR. field.
Qed.
Lemma kelvin0 : fadd RF 0 (fc RF 27315 100) = 27315 / 100. Proof. cbn [RF fadd fc]. toR. ring. Qed.
Lemma Rpower_one (y : R) : Rpower 1 y = 1.
Proof. unfold Rpower. rewrite ln_1, Rmult_0_r. apply exp_0. Qed.
Lemma lcl_top : lcl_bolton RF Rpower 700 0 0 = (700, 27315 / 100).
Proof.
  unfold lcl_bolton. rewrite td_zero, kelvin0, tlcl_zero. f_equal. cbn [RF fmul fdiv fc].
  replace (27315 / 100 / (27315 / 100)) with 1 by field. rewrite Rpower_one. toR. ring.
Qed.
Lemma moist_same (trunc : R -> nat) (p t : R) : moist_t RF trunc p t p = t.
Proof. unfold moist_t, rk4_integrate. cbn [RF fsub fabs fltb fc]. replace (p - p) with 0 by ring. rewrite Rabs_R0, ltb_yes by lra. reflexivity. Qed.
Lemma wet_top trunc : wet_bulb RF Rpower trunc top = 27315 / 100.
Proof. unfold wet_bulb, top. cbn [fst snd]. rewrite lcl_top. unfold lp. cbn [fst]. apply moist_same. Qed.

Lemma theta_top : theta RF Rpower top < 10000.
Proof.
  unfold theta, top, thetae. cbn [fst snd]. rewrite td_zero, kelvin0, tlcl_zero, sat_zero.
  unfold mixing_ratio_from_e_pa, dmin, dmax, eps, kappa, rd_air, cp_air. cbn [RF fltb fmul fdiv fsub fadd fexp fc].
  rewrite (ltb_no (6112 / 1000 * (100 / 1)) (1 / 100000000)) by lra. rewrite (ltb_no (99 / 100 * (700 * (100 / 1)))) by lra.
  set (r := 622 / 1000 * (6112 / 1000 * (100 / 1)) / (700 * (100 / 1) - 6112 / 1000 * (100 / 1))).
  assert (Hr : 0 <= r <= 6 / 1000) by (unfold r; lra).
  replace (27315 / 100 / (27315 / 100)) with 1 by field. rewrite Rpower_one.
  set (b := 100000 / 1 / (700 * (100 / 1) - 6112 / 1000 * (100 / 1))). assert (Hb : 1 < b <= 2) by (unfold b; lra).
  set (z := r * (1 / 1 + 448 / 1000 * r) * (3036 / 1 / (27315 / 100) - 178 / 100)).
  assert (Hz : z <= 1).
  { unfold z. replace (3036 / 1 / (27315 / 100) - 178 / 100) with (303600 / 27315 - 178 / 100) by field.
    assert (0 <= r * (1 / 1 + 448 / 1000 * r) <= 1 / 100) by nra. nra. }
  assert (He : exp z <= 3). { apply Rle_trans with (exp 1); [|apply exp_le_3]. destruct Hz as [Hz|Hz]; [left; apply exp_increasing; auto|rewrite Hz; lra]. }
  assert (Hp : Rpower b (28705 / 100 / (1004 / 1)) <= 2).
  { apply Rle_trans with (Rpower b 1); [apply Rle_Rpower; lra|]. rewrite Rpower_1; lra. }
  assert (H0 : 0 < Rpower b (28705 / 100 / (1004 / 1))) by (unfold Rpower; apply exp_pos).
  pose proof (exp_pos z) as H1. fold z.
  match goal with |- ?x < _ => change x with (27315 / 100 * Rpower b (28705 / 100 / (1004 / 1)) * 1 * exp z) end.
  set (P := Rpower b (28705 / 100 / (1004 / 1))) in *. assert (P * exp z <= 2 * 3) by (apply Rmult_le_compat; lra). lra.
Qed.
Lemma big_ge : 10000 <= fc RF (10 ^ 99) 1.
Proof. cbn [RF fc]. unfold Rdiv. rewrite Rinv_1, Rmult_1_r. apply IZR_le. vm_compute. discriminate. Qed.
Lemma rsound_origin : origin RF Rpower (upward RF rsound) = Some top.
Proof.
  rewrite rsound_upward. pose proof (origin_ok RF Rpower RF_order rsound) as H. rewrite rsound_candidates in H.
  destruct (origin RF Rpower rsound) as [x|].
  - destruct H as [[<-|[<-|[]]] _]; reflexivity.
  - specialize (H top (or_introl eq_refl)). cbn [RF fltb] in H. apply Rltb_false in H. exfalso. apply (Rlt_irrefl 10000).
    eapply Rle_lt_trans; [|exact theta_top]. eapply Rle_trans; [exact big_ge|exact H].
Qed.
Lemma rsound_up_to : up_to RF (lp RF top) rsound = rsound.
Proof.
  unfold rsound. cbn [up_to]. unfold lp at 1 3 5 7. unfold cold, top. cbn [fst]. unfold lp. cbn [fst]. rewrite !dle_yes by lra. reflexivity.
Qed.

Lemma virtual_le (tk r : R) : 0 <= tk -> 0 <= r -> virtual_temp_k RF tk r <= tk / (622 / 1000).
Proof.
  intros Ht Hr. unfold virtual_temp_k, eps. cbn [RF fmul fdiv fadd fc].
  change (tk * (r + 622 / 1000) / (622 / 1000 * (1 / 1 + r)) <= tk / (622 / 1000)).
  apply Rmult_le_reg_r with (622 / 1000 * (1 / 1 + r)); [lra|].
  replace (tk * (r + 622 / 1000) / (622 / 1000 * (1 / 1 + r)) * (622 / 1000 * (1 / 1 + r))) with (tk * (r + 622 / 1000)) by (field; lra).
  replace (tk / (622 / 1000) * (622 / 1000 * (1 / 1 + r))) with (tk * (1 + r)) by field. nra.
Qed.
Lemma cold_diff (p v : R) : 700 < p -> 27315 / 100 <= v -> tv_diff RF (cold p) v <= 0.
Proof.
  intros Hp Hv. unfold tv_diff. assert (Hh : 0 < hpa RF (lp RF (cold p))) by (rewrite hpa_eq; unfold lp, cold; cbn [fst]; lra).
  set (r1 := mixing_ratio_from_e_pa RF (hpa RF (lp RF (cold p))) (fmul RF (sat_vapor_pressure_hpa RF (ltd RF (cold p))) (fc RF 100 1))).
  set (r2 := mixing_ratio_from_e_pa RF (hpa RF (lp RF (cold p))) (sat_vapor_pressure_pa_from_tk RF v)).
  assert (H1 : 0 < r1) by (apply mix_bounds; auto). assert (H2 : 0 < r2) by (apply mix_bounds; auto).
  change (virtual_temp_k RF (-110 + 27315 / 100) r1 - virtual_temp_k RF v r2 <= 0).
  pose proof (virtual_le (-110 + 27315 / 100) r1 ltac:(lra) (Rlt_le _ _ H1)) as H3. pose proof (virtual_ge v r2 ltac:(lra) (Rlt_le _ _ H2)) as H4.
  cbn [RF F] in *. lra.
Qed.
Lemma top_diff : tv_diff RF top (27315 / 100) = 0.
Proof.
  unfold tv_diff, top, lp, lt, ltd. cbn [fst snd]. rewrite kelvin0. unfold sat_vapor_pressure_pa_from_tk.
  replace (fsub RF (27315 / 100) (fc RF 27315 100)) with (0 : F RF) by (cbn [RF fsub fc]; toR; ring). cbn [RF fsub]. toR. ring.
Qed.
Lemma rsound_warmer q : In q (buoyancy RF rsound (descent RF rtrunc rsound (lp RF top) (wet_bulb RF Rpower rtrunc top))) -> fst q <= 0.
Proof.
  destruct (descent_warms rtrunc rsound (lp RF top) (wet_bulb RF Rpower rtrunc top)) as [_ Hv].
  - unfold lp, top; cbn [fst]; lra.
  - rewrite wet_top. lra.
  - apply rsound_falling.
  - intros x [<-|[<-|[<-|[<-|[]]]]]; unfold lp, cold, top; cbn [fst]; lra.
  - assert (Hl : nth_error (descent RF rtrunc rsound (lp RF top) (wet_bulb RF Rpower rtrunc top)) 3 = Some (27315 / 100)).
    { pose proof (descent_last RF rtrunc rsound (lp RF top) (wet_bulb RF Rpower rtrunc top) top ltac:(discriminate) eq_refl) as Hd.
      change (length rsound - 1)%nat with 3%nat in Hd. rewrite Hd, moist_same, wet_top. reflexivity. }
    pose proof (descent_len RF rtrunc rsound (lp RF top) (wet_bulb RF Rpower rtrunc top)) as L.
    rewrite wet_top in *. destruct (descent RF rtrunc rsound (lp RF top) (27315 / 100)) as [|a [|b [|c [|d [|e l]]]]]; try discriminate.
    cbn [nth_error] in Hl. injection Hl as ->. unfold buoyancy, rsound. cbn [combine map].
    intros [<-|[<-|[<-|[<-|[]]]]]; cbn [fst].
    + apply cold_diff; [lra|apply Hv; left; auto].
    + apply cold_diff; [lra|apply Hv; right; left; auto].
    + apply cold_diff; [lra|apply Hv; right; right; left; auto].
    + right. apply top_diff.
Qed.
