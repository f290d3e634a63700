(** Rational bounds for the natural logarithm (used for the standard-atmosphere
    table): the series of [ln ((1+t)/(1-t))] with its remainder. *)
From Coq Require Import Reals Lra Lia QArith Qreals List Psatz Arith.
Local Open Scope R_scope.

Fixpoint ser (n : nat) (t : R) : R :=
  match n with O => 0 | S m => ser m t + t ^ (2 * m + 1) / INR (2 * m + 1) end.
Fixpoint geo (n : nat) (t : R) : R := match n with O => 0 | S m => geo m t + t ^ (2 * m) end.
Lemma derive_pow_div k t : (0 < k)%nat -> derivable_pt_lim (fun x => x ^ k / INR k) t (t ^ pred k).
Proof.
  intro K. assert (NZ : INR k <> 0) by (apply not_0_INR; lia).
  replace (t ^ pred k) with (/ INR k * (INR k * t ^ pred k)) by (field; exact NZ).
  apply derivable_pt_lim_ext with (f := fun x => / INR k * x ^ k); [intro; unfold Rdiv; ring|].
  apply derivable_pt_lim_scal with (f := fun x => x ^ k). apply derivable_pt_lim_pow.
Qed.
Lemma derive_ser n t : derivable_pt_lim (ser n) t (geo n t).
Proof.
  induction n as [|n IH]; [apply derivable_pt_lim_const|].
  cbn [ser geo]. apply derivable_pt_lim_plus with (1 := IH) (f2 := fun t => t ^ (2 * n + 1) / INR (2 * n + 1)).
  replace (t ^ (2 * n)) with (t ^ pred (2 * n + 1)) by (f_equal; lia). apply derive_pow_div. lia.
Qed.
Lemma geo_sum n t : (1 - t * t) * geo n t = 1 - t ^ (2 * n).
Proof.
  induction n as [|n IH]; [cbn; ring|]. cbn [geo]. rewrite Rmult_plus_distr_l, IH.
  replace (2 * S n)%nat with (2 + 2 * n)%nat by lia. rewrite pow_add. cbn [pow]. ring.
Qed.
Definition lo1 (t : R) : R := ln (1 + t) - ln (1 - t).
Lemma derive_lo1 t : -1 < t < 1 -> derivable_pt_lim lo1 t (2 / (1 - t * t)).
Proof.
  intro T. unfold lo1. replace (2 / (1 - t * t)) with (/ (1 + t) * (0 + 1) - / (1 - t) * (0 - 1)) by (field; nra).
  apply derivable_pt_lim_minus with (f1 := fun t => ln (1 + t)) (f2 := fun t => ln (1 - t)).
  - apply derivable_pt_lim_comp with (f1 := fun t => 1 + t) (f2 := ln).
    + apply derivable_pt_lim_plus with (f1 := fun _ => 1) (f2 := fun t => t); [apply derivable_pt_lim_const|apply derivable_pt_lim_id].
    + apply derivable_pt_lim_ln. lra.
  - apply derivable_pt_lim_comp with (f1 := fun t => 1 - t) (f2 := ln).
    + apply derivable_pt_lim_minus with (f1 := fun _ => 1) (f2 := fun t => t); [apply derivable_pt_lim_const|apply derivable_pt_lim_id].
    + apply derivable_pt_lim_ln. lra.
Qed.
Lemma mono_from_0 f f' t : 0 < t -> f 0 = 0 -> (forall c, 0 <= c <= t -> derivable_pt_lim f c (f' c)) -> (forall c, 0 < c < t -> 0 <= f' c) -> 0 <= f t.
Proof. intros T F0 D P. destruct (MVT_cor2 f f' 0 t T D) as (c & E & C). rewrite F0 in E. specialize (P c C). nra. Qed.
Lemma ser_0 n : ser n 0 = 0.
Proof. induction n as [|n IH]; [reflexivity|]. cbn [ser]. rewrite IH. rewrite pow_i by lia. unfold Rdiv. ring. Qed.
Lemma lo1_0 : lo1 0 = 0.
Proof. unfold lo1. rewrite Rplus_0_r, Rminus_0_r. ring. Qed.
Lemma lo1_lower n t : 0 < t < 1 -> 2 * ser n t <= lo1 t.
Proof.
  intro T. enough (0 <= lo1 t - 2 * ser n t) by lra.
  apply (mono_from_0 (fun t => lo1 t - 2 * ser n t) (fun c => 2 / (1 - c * c) - 2 * geo n c)).
  - lra.
  - rewrite lo1_0, ser_0. ring.
  - intros c C. apply derivable_pt_lim_minus with (f1 := lo1) (f2 := fun t => 2 * ser n t).
    + apply derive_lo1. lra.
    + apply derivable_pt_lim_scal. apply derive_ser.
  - intros c C. assert (P : 0 < 1 - c * c) by nra. pose proof (geo_sum n c) as G.
    assert (0 < c ^ (2 * n)) by (apply pow_lt; lra).
    replace (2 / (1 - c * c) - 2 * geo n c) with (2 * (1 - (1 - c * c) * geo n c) / (1 - c * c)) by (field; lra). rewrite G.
    apply Rmult_le_pos; [lra|]. left. apply Rinv_0_lt_compat. exact P.
Qed.
Lemma lo1_upper n t : 0 < t < 1 -> lo1 t <= 2 * ser n t + 2 / (1 - t * t) * (t ^ (2 * n + 1) / INR (2 * n + 1)).
Proof.
  intro T. set (K := 2 / (1 - t * t)).
  enough (0 <= 2 * ser n t + K * (t ^ (2 * n + 1) / INR (2 * n + 1)) - lo1 t) by lra.
  apply (mono_from_0 (fun t => 2 * ser n t + K * (t ^ (2 * n + 1) / INR (2 * n + 1)) - lo1 t) (fun c => 2 * geo n c + K * c ^ pred (2 * n + 1) - 2 / (1 - c * c))).
  - lra.
  - rewrite lo1_0, ser_0, pow_i by lia. unfold Rdiv. ring.
  - intros c C. apply derivable_pt_lim_minus with (f1 := fun t => 2 * ser n t + K * (t ^ (2 * n + 1) / INR (2 * n + 1))) (f2 := lo1).
    + apply derivable_pt_lim_plus with (f1 := fun t => 2 * ser n t) (f2 := fun t => K * (t ^ (2 * n + 1) / INR (2 * n + 1))).
      * apply derivable_pt_lim_scal. apply derive_ser.
      * apply derivable_pt_lim_scal with (f := fun t => t ^ (2 * n + 1) / INR (2 * n + 1)). apply derive_pow_div. lia.
    + apply derive_lo1. lra.
  - intros c C. assert (P : 0 < 1 - c * c) by nra. assert (P' : 0 < 1 - t * t) by nra. pose proof (geo_sum n c) as G.
    replace (pred (2 * n + 1)) with (2 * n)%nat by lia. assert (0 < c ^ (2 * n)) by (apply pow_lt; lra).
    replace (2 / (1 - c * c)) with (2 * geo n c + 2 / (1 - c * c) * c ^ (2 * n)).
    + assert (2 / (1 - c * c) <= K); [|nra]. unfold K. apply Rmult_le_compat_l; [lra|]. apply Rinv_le_contravar; [exact P'|nra].
    + replace (geo n c) with ((1 - c ^ (2 * n)) / (1 - c * c)); [field; lra|]. rewrite <- G. field. lra.
Qed.

Lemma ln_quot x y : 0 < x -> 0 < y -> ln (x / y) = ln x - ln y.
Proof. intros X Y. unfold Rdiv. rewrite ln_mult, ln_Rinv by (try apply Rinv_0_lt_compat; assumption). reflexivity. Qed.

(** ** The same with rationals *)
Local Open Scope Q_scope.
Fixpoint qpw (q : Q) (n : nat) : Q := match n with O => 1 | S m => Qred (q * qpw q m) end.
Fixpoint qser (n : nat) (t : Q) : Q :=
  match n with O => 0 | S m => Qred (qser m t + qpw t (2 * m + 1) / inject_Z (Z.of_nat (2 * m + 1))) end.
Lemma Q2R_red q : Q2R (Qred q) = Q2R q.
Proof. apply Qeq_eqR, Qred_correct. Qed.
Lemma Q2R_pw q n : Q2R (qpw q n) = (Q2R q ^ n)%R.
Proof. induction n as [|n IH]; [unfold Q2R; cbn; lra|]. cbn [qpw pow]. rewrite Q2R_red, Q2R_mult, IH. reflexivity. Qed.
Lemma Q2R_nat n : Q2R (inject_Z (Z.of_nat n)) = INR n.
Proof. rewrite INR_IZR_INZ. unfold Q2R, inject_Z. cbn [Qnum Qden]. field. Qed.
Lemma Q2R_ser n t : Q2R (qser n t) = ser n (Q2R t).
Proof.
  induction n as [|n IH]; [unfold Q2R; cbn; lra|]. cbn [qser ser]. rewrite Q2R_red, Q2R_plus, Q2R_div, Q2R_pw, IH, Q2R_nat; [reflexivity|].
  intro E. apply Qeq_eqR in E. rewrite Q2R_nat in E. unfold Q2R in E. cbn [Qnum Qden] in E. assert (INR (2 * n + 1) <> 0)%R by (apply not_0_INR; lia). lra.
Qed.
(** bounds on [ln x] for [1 < x] *)
Definition targ (x : Q) : Q := Qred ((x - 1) / (x + 1)).
Definition ln_lo (n : nat) (x : Q) : Q := Qred (2 * qser n (targ x)).
Definition ln_hi (n : nat) (x : Q) : Q :=
  let t := targ x in Qred (2 * qser n t + 2 / (1 - t * t) * (qpw t (2 * n + 1) / inject_Z (Z.of_nat (2 * n + 1)))).
Lemma targ_R x : 1 < x -> Q2R (targ x) = ((Q2R x - 1) / (Q2R x + 1))%R /\ (0 < Q2R (targ x) < 1)%R /\ lo1 (Q2R (targ x)) = ln (Q2R x).
Proof.
  intro H. apply Qlt_Rlt in H. replace (Q2R 1) with 1%R in H by (unfold Q2R; cbn; lra).
  assert (E : Q2R (targ x) = ((Q2R x - 1) / (Q2R x + 1))%R).
  { unfold targ. rewrite Q2R_red, Q2R_div, Q2R_minus, Q2R_plus.
    - replace (Q2R 1) with 1%R by (unfold Q2R; cbn; lra). reflexivity.
    - intro Z. apply Qeq_eqR in Z. rewrite Q2R_plus in Z. replace (Q2R 1) with 1%R in Z by (unfold Q2R; cbn; lra). unfold Q2R at 2 in Z. cbn in Z. lra. }
  assert (B : (0 < Q2R (targ x) < 1)%R).
  { rewrite E. split; [apply Rdiv_lt_0_compat; lra|]. apply Rmult_lt_reg_r with (Q2R x + 1)%R; [lra|]. unfold Rdiv. rewrite Rmult_assoc, Rinv_l by lra. lra. }
  split; [exact E|]. split; [exact B|]. unfold lo1. rewrite <- ln_quot by lra. f_equal. rewrite E. field. split; lra.
Qed.
Lemma ln_lo_ok n x : 1 < x -> (Q2R (ln_lo n x) <= ln (Q2R x))%R.
Proof.
  intro H. destruct (targ_R x H) as (_ & B & L). rewrite <- L. unfold ln_lo. rewrite Q2R_red, Q2R_mult, Q2R_ser.
  replace (Q2R 2) with 2%R by (unfold Q2R; cbn; lra). apply lo1_lower. exact B.
Qed.
Lemma ln_hi_ok n x : 1 < x -> (ln (Q2R x) <= Q2R (ln_hi n x))%R.
Proof.
  intro H. destruct (targ_R x H) as (_ & B & L). rewrite <- L. unfold ln_hi. cbv zeta. rewrite Q2R_red, Q2R_plus, !Q2R_mult, !Q2R_div, Q2R_minus, Q2R_mult, Q2R_ser, Q2R_pw, Q2R_nat.
  - replace (Q2R 2) with 2%R by (unfold Q2R; cbn; lra). replace (Q2R 1) with 1%R by (unfold Q2R; cbn; lra). apply lo1_upper. exact B.
  - intro E. apply Qeq_eqR in E. rewrite Q2R_nat in E. unfold Q2R in E. cbn [Qnum Qden] in E. assert (INR (2 * n + 1) <> 0)%R by (apply not_0_INR; lia). lra.
  - intro E. apply Qeq_eqR in E. rewrite Q2R_minus, Q2R_mult in E. unfold Q2R at 1 4 in E. cbn [Qnum Qden] in E. nra.
Qed.
