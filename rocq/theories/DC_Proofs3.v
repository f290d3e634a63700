From Coq Require Import Reals Lra.
From Verif Require Import Base Buffer VH_Model TP_Model TP_Proofs3 DC_Model DC_Spec DC_Proofs DC_Proofs2.
Local Close Scope Qc_scope.
Local Open Scope R_scope.

Ltac toR := match goal with |- @eq _ ?a ?b => change (@eq R a b) end.
Lemma ltb_yes x y : x < y -> Rltb x y = true. Proof. apply Rltb_true. Qed.
Lemma ltb_no x y : y <= x -> Rltb x y = false. Proof. apply Rltb_false. Qed.

(** * Runge-Kutta *)
Fixpoint iterate {T : Type} (n : nat) (f : T -> T) (x : T) : T :=
  match n with O => x | Datatypes.S k => iterate k f (f x) end.
Lemma fold_iterate (T : Type) (f : T -> T) : forall n a x, fold_left (fun s (_ : nat) => f s) (seq a n) x = iterate n f x.
Proof. induction n as [|n IH]; intros a x; auto. cbn [seq fold_left iterate]. apply IH. Qed.
Lemma iterate_inv (T : Type) (f : T -> T) (I : nat -> T -> Prop) : forall n k x, I k x ->
  (forall i y, (k <= i < k + n)%nat -> I i y -> I (i + 1)%nat (f y)) -> I (k + n)%nat (iterate n f x).
Proof.
  induction n as [|n IH]; intros k x H Hs; cbn [iterate].
  - rewrite Nat.add_0_r. auto.
  - replace (k + Datatypes.S n)%nat with (k + 1 + n)%nat by lia. apply IH.
    + apply Hs; [lia|auto].
    + intros i y Hi. apply Hs. lia.
Qed.

Section RK.
Variable trunc : R -> nat.
Hypothesis Htr : forall x, 0 <= x -> INR (trunc x) <= x < INR (trunc x) + 1.

Definition steps (p0 p1 : R) : nat := (trunc (Rabs (p1 - p0) / (200 / 1)) + 1)%nat.
Lemma rk4_iter f (p0 t0 p1 : R) : 1 / 1000000000 <= Rabs (p1 - p0) ->
  rk4_integrate RF trunc f p0 t0 p1 = snd (iterate (steps p0 p1) (rk4_step RF f ((p1 - p0) / INR (steps p0 p1))) (p0, t0)).
Proof.
  intros H. unfold rk4_integrate. cbn [RF fsub fabs fltb fdiv fc]. rewrite ltb_no by lra.
  fold (steps p0 p1). rewrite fold_iterate. replace (IZR (Z.of_nat (steps p0 p1)) / 1) with (INR (steps p0 p1)) by (rewrite INR_IZR_INZ; field). reflexivity.
Qed.
Lemma steps_pos p0 p1 : 0 < INR (steps p0 p1).
Proof. apply lt_0_INR. unfold steps. lia. Qed.
Lemma step_size p0 p1 : Rabs ((p1 - p0) / INR (steps p0 p1)) < 200.
Proof.
  pose proof (steps_pos p0 p1) as Hp. unfold Rdiv. rewrite Rabs_mult, (Rabs_right (/ _)); [|left; apply Rinv_0_lt_compat; auto].
  apply Rmult_lt_reg_r with (INR (steps p0 p1)); auto. rewrite Rmult_assoc, Rinv_l, Rmult_1_r by lra.
  unfold steps. rewrite plus_INR. change (INR 1) with 1. destruct (Htr (Rabs (p1 - p0) / (200 / 1))) as [_ H].
  { apply Rmult_le_pos; [apply Rabs_pos|]. left. apply Rinv_0_lt_compat. lra. }
  replace (Rabs (p1 - p0) / (200 / 1)) with (Rabs (p1 - p0) / 200) in * by field.
  apply Rmult_lt_reg_r with (/ 200); [lra|]. replace (200 * (INR (trunc (Rabs (p1 - p0) / 200)) + 1) * / 200) with (INR (trunc (Rabs (p1 - p0) / 200)) + 1) by field. exact H.
Qed.

Definition cubic (a b c d p : R) : R := a + b * p + c * p ^ 2 + d * p ^ 3.
Definition quartic (a b c d p : R) : R := a * p + b / 2 * p ^ 2 + c / 3 * p ^ 3 + d / 4 * p ^ 4.
Lemma rk4_cubic (a b c d p0 t0 p1 : R) : 1 / 1000000000 <= Rabs (p1 - p0) ->
  rk4_integrate RF trunc (fun p _ => cubic a b c d p) p0 t0 p1 = t0 + (quartic a b c d p1 - quartic a b c d p0).
Proof.
  intros H. rewrite rk4_iter by auto. pose proof (steps_pos p0 p1) as Hn. set (n := steps p0 p1) in *. set (h := (p1 - p0) / INR n).
  pose proof (iterate_inv (R * R) (rk4_step RF (fun p _ => cubic a b c d p) h)
    (fun i s => fst s = p0 + INR i * h /\ snd s = t0 + (quartic a b c d (fst s) - quartic a b c d p0)) n 0 (p0, t0)) as HI.
  destruct HI as [H1 H2].
  - cbn [fst snd]. change (INR 0) with 0. split; toR; ring.
  - intros i [p t] _ [E1 E2]. cbn [fst snd] in *. unfold rk4_step. cbn [fst snd RF fadd fmul fdiv fc]. rewrite plus_INR. change (INR 1) with 1. split.
    + rewrite E1. toR. ring.
    + rewrite E2. unfold cubic, quartic. toR. field.
  - etransitivity; [exact H2|]. rewrite H1. cbn [Nat.add]. replace (p0 + INR n * h) with p1 by (unfold h; field; lra). reflexivity.
Qed.
Lemma rk4_linear (lam p0 t0 p1 : R) : 1 / 1000000000 <= Rabs (p1 - p0) ->
  let z := lam * ((p1 - p0) / INR (steps p0 p1)) in
  rk4_integrate RF trunc (fun _ t => lam * t) p0 t0 p1 = t0 * (1 + z + z ^ 2 / 2 + z ^ 3 / 6 + z ^ 4 / 24) ^ (steps p0 p1).
Proof.
  intros H z. rewrite rk4_iter by auto. set (n := steps p0 p1) in *. set (h := (p1 - p0) / INR n) in *.
  pose proof (iterate_inv (R * R) (rk4_step RF (fun _ t => lam * t) h)
    (fun i s => snd s = t0 * (1 + z + z ^ 2 / 2 + z ^ 3 / 6 + z ^ 4 / 24) ^ i) n 0 (p0, t0)) as HI.
  apply HI.
  - cbn [fst snd pow]. toR. ring.
  - intros i [p t] _ E2. cbn [fst snd] in *. unfold rk4_step. cbn [fst snd RF fadd fmul fdiv fc]. rewrite pow_add, E2. cbn [pow]. unfold z.
    toR. field.
Qed.

(** a positive rate: warming on the way down *)
Lemma rk4_step_pos (f : R -> R -> R) (h p t : R) : (forall p t, 0 < p -> 0 < t -> 0 < f p t) -> 0 < h -> 0 < p -> 0 < t ->
  t < snd (rk4_step RF f h (p, t)).
Proof.
  intros Hf Hh Hp Ht. unfold rk4_step. cbn [fst snd RF fadd fmul fdiv fc].
  set (half := 5 / 10 * h). assert (0 < half) by (unfold half; lra).
  set (k1 := f p t). assert (0 < k1) by (apply Hf; auto).
  assert (0 < half * k1) by (apply Rmult_lt_0_compat; auto).
  set (k2 := f (p + half) (t + half * k1)). assert (0 < k2) by (apply Hf; lra).
  assert (0 < half * k2) by (apply Rmult_lt_0_compat; auto).
  set (k3 := f (p + half) (t + half * k2)). assert (0 < k3) by (apply Hf; lra).
  assert (0 < h * k3) by (apply Rmult_lt_0_compat; auto).
  set (k4 := f (p + h) (t + h * k3)). assert (0 < k4) by (apply Hf; lra).
  assert (0 < h / (6 / 1) * (k1 + 2 / 1 * k2 + 2 / 1 * k3 + k4)) by (apply Rmult_lt_0_compat; lra). lra.
Qed.
Lemma rk4_warms (f : R -> R -> R) (p0 t0 p1 : R) : (forall p t, 0 < p -> 0 < t -> 0 < f p t) -> 0 < p0 -> 0 < t0 -> p0 <= p1 ->
  t0 <= rk4_integrate RF trunc f p0 t0 p1 /\ (p0 + 1 / 1000000000 <= p1 -> t0 < rk4_integrate RF trunc f p0 t0 p1).
Proof.
  intros Hf Hp Ht Hd. destruct (Rlt_dec (Rabs (p1 - p0)) (1 / 1000000000)) as [Hs|Hs].
  - unfold rk4_integrate. cbn [RF fsub fabs fltb fc]. rewrite ltb_yes by exact Hs. split; [lra|]. intros H.
    rewrite Rabs_right in Hs by lra. lra.
  - rewrite rk4_iter by lra. rewrite Rabs_right in Hs by lra. pose proof (steps_pos p0 p1) as Hn. set (n := steps p0 p1) in *. set (h := (p1 - p0) / INR n).
    assert (Hh : 0 < h). { unfold h. apply Rmult_lt_0_compat; [lra|]. apply Rinv_0_lt_compat; auto. }
    pose proof (iterate_inv (R * R) (rk4_step RF f h) (fun i s => 0 < fst s /\ t0 <= snd s /\ ((0 < i)%nat -> t0 < snd s)) n 0 (p0, t0)) as HI.
    destruct HI as [_ [H2 H3]].
    + cbn [fst snd]. split; [auto|]. split; [lra|lia].
    + intros i [p t] _ [E1 [E2 _]]. cbn [fst snd] in *. pose proof (rk4_step_pos f h p t Hf Hh E1 ltac:(lra)).
      assert (Hq : t0 < snd (rk4_step RF f h (p, t))) by (eapply Rle_lt_trans; eauto).
      split; [apply Rplus_lt_0_compat; auto|]. split; [left; exact Hq|intros _; exact Hq].
    + split; [exact H2|]. intros _. apply H3. unfold n, steps. lia.
Qed.
End RK.

(** * The moist adiabat *)
Lemma es_pos (tk : R) : 0 < sat_vapor_pressure_pa_from_tk RF tk.
Proof. unfold sat_vapor_pressure_pa_from_tk, sat_vapor_pressure_hpa. cbn [RF fmul fexp fc]. pose proof (exp_pos (fdiv RF (fmul RF (fc RF 1767 100) (fsub RF tk (fc RF 27315 100))) (fadd RF (fsub RF tk (fc RF 27315 100)) (fc RF 2435 10)))).
  cbn [RF fmul fdiv fadd fsub fc] in *. apply Rmult_lt_0_compat; [|lra]. apply Rmult_lt_0_compat; lra. Qed.
Lemma mix_real (p e : R) : 0 < p -> 0 < e <= 99 / 100 * p -> 0 < 622 / 1000 * e / (p - e) <= 622 / 1000 * 99.
Proof.
  intros Hp H. split.
  - apply Rmult_lt_0_compat; [lra|]. apply Rinv_0_lt_compat. lra.
  - apply Rmult_le_reg_r with (p - e); [lra|]. unfold Rdiv at 1. rewrite Rmult_assoc, Rinv_l, Rmult_1_r by lra. lra.
Qed.
Lemma clip_real (p e : R) : 0 < p -> 0 < (if Rltb (99 / 100 * p) (if Rltb e (1 / 100000000) then 1 / 100000000 else e) then 99 / 100 * p
  else if Rltb e (1 / 100000000) then 1 / 100000000 else e) <= 99 / 100 * p.
Proof.
  intros Hp. set (e1 := if Rltb e (1 / 100000000) then 1 / 100000000 else e).
  assert (H1 : 0 < e1). { unfold e1. destruct (Rlt_dec e (1 / 100000000)) as [H|H]; [rewrite ltb_yes by auto; lra|rewrite ltb_no by lra; lra]. }
  destruct (Rlt_dec (99 / 100 * p) e1) as [H|H]; [rewrite ltb_yes by auto; lra|rewrite ltb_no by lra; lra].
Qed.
Lemma mix_bounds (p e : R) : 0 < p -> 0 < mixing_ratio_from_e_pa RF p e <= 622 / 1000 * 99.
Proof. intros Hp. exact (mix_real p _ Hp (clip_real p e Hp)). Qed.
Lemma moist_rate (p t : R) : 0 < p -> 0 < t -> 0 < dt_dp_moist RF p t /\ (t <= 1500 -> dt_dp_moist RF p t < (28705 / 100 / 1004) * t / p).
Proof.
  intros Hp Ht. unfold dt_dp_moist. destruct (mix_bounds p (sat_vapor_pressure_pa_from_tk RF t) Hp) as [Hr _].
  set (rs := mixing_ratio_from_e_pa RF p (sat_vapor_pressure_pa_from_tk RF t)) in *.
  unfold rd_air, cp_air, lv, eps. cbn [RF fmul fdiv fadd fc].
  set (num := 28705 / 100 * t + 2500000 / 1 * rs). set (q := 2500000 / 1 * (2500000 / 1) * rs * (622 / 1000) / (28705 / 100 * t * t)).
  assert (Hq : 0 < q). { unfold q. apply Rmult_lt_0_compat; [|apply Rinv_0_lt_compat; apply Rmult_lt_0_compat; lra]. lra. }
  assert (Hnum : 0 < num) by (unfold num; lra).
  assert (Hn : 0 < num / (1004 / 1 + q)) by (apply Rmult_lt_0_compat; [auto|apply Rinv_0_lt_compat; lra]).
  assert (Hip : 0 < / p) by (apply Rinv_0_lt_compat; auto).
  split.
  - apply Rmult_lt_0_compat; auto.
  - intros HT. apply Rmult_lt_compat_r; auto. apply Rmult_lt_reg_r with (1004 / 1 + q); [lra|].
    unfold Rdiv at 1. rewrite Rmult_assoc, Rinv_l, Rmult_1_r by lra.
    assert (Hqt : q * (28705 / 100 * t * t) = 2500000 / 1 * (2500000 / 1) * rs * (622 / 1000)).
    { unfold q. field. lra. }
    unfold num. apply Rmult_lt_reg_r with t; auto.
    replace (28705 / 100 / 1004 * t * (1004 / 1 + q) * t) with (28705 / 100 * t * t + q * (28705 / 100 * t * t) * / 1004) by field.
    rewrite Hqt. nra.
Qed.
Lemma virtual_ge (tk r : R) : 0 <= tk -> 0 <= r -> tk <= virtual_temp_k RF tk r.
Proof.
  intros Ht Hr. unfold virtual_temp_k, eps. cbn [RF fmul fdiv fadd fc].
  apply Rmult_le_reg_r with (622 / 1000 * (1 / 1 + r)); [lra|].
  match goal with |- _ <= ?q * _ => change q with (tk * (r + 622 / 1000) / (622 / 1000 * (1 / 1 + r))) end.
  replace (tk * (r + 622 / 1000) / (622 / 1000 * (1 / 1 + r)) * (622 / 1000 * (1 / 1 + r))) with (tk * (r + 622 / 1000)) by (field; lra). nra.
Qed.

(** * The condensation level *)
Lemma t_lcl_bounds (t td : R) : 56 < td -> td <= t -> 56 < t_lcl RF t td <= td.
Proof.
  intros H1 H2. unfold t_lcl. cbn [RF fmul fdiv fadd fsub fln fc].
  assert (Hln : 0 <= ln (t / td)).
  { rewrite <- ln_1. destruct (Req_dec t td) as [->|N]; [right; f_equal; field; lra|]. left. apply ln_increasing; [lra|].
    apply Rmult_lt_reg_r with td; [lra|]. unfold Rdiv. rewrite Rmult_assoc, Rinv_l by lra. lra. }
  set (L := ln (t / td)) in *. replace (56 / 1) with 56 by field. replace (1 / 1) with 1 by field. replace (800 / 1) with 800 by field.
  assert (Hi : 0 < 1 / (td - 56)) by (apply Rmult_lt_0_compat; [lra|apply Rinv_0_lt_compat; lra]).
  assert (Hs : 0 < 1 / (td - 56) + L / 800) by lra.
  assert (Hv : 0 < 1 / (1 / (td - 56) + L / 800)) by (apply Rmult_lt_0_compat; [lra|apply Rinv_0_lt_compat; lra]).
  split; [lra|].
  assert (1 / (1 / (td - 56) + L / 800) <= td - 56); [|lra].
  apply Rmult_le_reg_r with (1 / (td - 56) + L / 800); auto. unfold Rdiv at 1. rewrite Rmult_assoc, Rinv_l, Rmult_1_r by lra.
  replace ((td - 56) * (1 / (td - 56) + L / 800)) with (1 + (td - 56) * (L / 800)) by (field; lra).
  assert (0 <= (td - 56) * (L / 800)) by (apply Rmult_le_pos; lra). lra.
Qed.
Lemma lcl_above (p tc tdc : R) : 0 < p -> tdc <= tc -> -100 <= tc ->
  let '(plcl, tlcl) := lcl_bolton RF Rpower p tc tdc in 0 < plcl <= p /\ 56 < tlcl <= tc + 27315 / 100.
Proof.
  intros Hp Ht H100. unfold lcl_bolton. cbn [RF fmul fdiv fadd fc]. unfold dmax. cbn [RF fltb].
  set (td := if Rltb (tdc + 27315 / 100) (17315 / 100) then 17315 / 100 else tdc + 27315 / 100).
  assert (Htd : 17315 / 100 <= td <= tc + 27315 / 100).
  { unfold td. destruct (Rlt_dec (tdc + 27315 / 100) (17315 / 100)); [rewrite ltb_yes by auto|rewrite ltb_no by lra]; lra. }
  destruct (t_lcl_bounds (tc + 27315 / 100) td) as [H1 H2]; [lra|lra|].
  set (tl := t_lcl RF (tc + 27315 / 100) td) in *. assert (H3 : tl <= tc + 27315 / 100) by lra. repeat split; auto.
  - apply Rmult_lt_0_compat; auto. unfold Rpower. apply exp_pos.
  - rewrite <- (Rmult_1_r p) at 2. apply Rmult_le_compat_l; [lra|]. eapply Rle_trans; [|right; exact exp_0]. unfold Rpower.
    assert (Hl : ln (tl / (tc + 27315 / 100)) <= 0).
    { rewrite <- ln_1. destruct (Req_dec tl (tc + 27315 / 100)) as [->|N]; [right; f_equal; field; lra|]. left. apply ln_increasing.
      - apply Rmult_lt_0_compat; [lra|apply Rinv_0_lt_compat; lra].
      - apply Rmult_lt_reg_r with (tc + 27315 / 100); [lra|]. unfold Rdiv at 1. rewrite Rmult_assoc, Rinv_l by lra. lra. }
    assert (Hk : 0 < 1 / 1 / kappa RF). { unfold kappa, rd_air, cp_air. cbn [RF fdiv fc]. lra. }
    destruct (Rle_lt_or_eq_dec _ _ Hl) as [Hl'|Hl'].
    + left. apply exp_increasing. rewrite <- (Rmult_0_r (1 / 1 / kappa RF)). apply Rmult_lt_compat_l; auto.
    + right. apply (f_equal exp). etransitivity; [exact (f_equal (Rmult (1 / 1 / kappa RF)) Hl')|apply Rmult_0_r].
Qed.
