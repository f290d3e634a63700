(** The recursion coefficients take normalised functions of order m - 2 to order m. *)
From Coq Require Import Reals List Arith ZArith Lia Lra.
From Verif Require Import RS_Spec LG_Spec LG_Proofs1 LG_Model.
Import ListNotations.
Local Open Scope R_scope.

Lemma fact_pos n : 0 < INR (fact n). Proof. apply INR_fact_lt_0. Qed.
Lemma sqrt_mult_eq x y z c : 0 <= x -> 0 <= y -> 0 <= c -> x * y = c * c * z -> sqrt x * sqrt y = c * sqrt z.
Proof. intros X Y C E. rewrite <- sqrt_mult by auto. rewrite E, sqrt_mult_alt by nra. rewrite sqrt_square; auto. Qed.
Lemma ratio_pos m n : 0 <= (2 * INR n + 1) / 2 * (INR (fact (n - m)) / INR (fact (n + m))).
Proof. pose proof (pos_INR n). pose proof (fact_pos (n - m)). pose proof (fact_pos (n + m)). apply Rmult_le_pos; [lra|]. apply Rle_mult_inv_pos; lra. Qed.
Lemma fact2 k : INR (fact (S (S k))) = (INR k + 2) * ((INR k + 1) * INR (fact k)).
Proof. rewrite !fact_simpl, !mult_INR, !S_INR. ring. Qed.
Lemma fact4 k : INR (fact (S (S (S (S k))))) = (INR k + 4) * ((INR k + 3) * ((INR k + 2) * ((INR k + 1) * INR (fact k)))).
Proof. rewrite !fact_simpl, !mult_INR, !S_INR. ring. Qed.

(** in terms of m, n where the order is m + 2 and the degree n + 2 *)
Lemma abel_val m n : abel_of (Z.of_nat (S (S m))) (Z.of_nat (S (S n))) =
  sqrt (((2 * INR n + 5) * (INR n + INR m + 2) * (INR n + INR m + 1)) / ((2 * INR n + 1) * (INR n + INR m + 3) * (INR n + INR m + 4))).
Proof. unfold abel_of, rz. f_equal. rewrite !Nat2Z.inj_succ. unfold Z.succ. rewrite !plus_IZR || idtac. repeat (rewrite ?plus_IZR, ?minus_IZR, ?mult_IZR). rewrite <- !INR_IZR_INZ. f_equal; [ring|f_equal; ring]. Qed.
Lemma bbel_val m n : bbel_of (Z.of_nat (S (S m))) (Z.of_nat (S (S n))) =
  sqrt (((2 * INR n + 5) * (INR n - INR m - 1) * (INR n - INR m)) / ((2 * INR n + 1) * (INR n + INR m + 3) * (INR n + INR m + 4))).
Proof. unfold bbel_of, rz. f_equal. rewrite !Nat2Z.inj_succ. unfold Z.succ. repeat (rewrite ?plus_IZR, ?minus_IZR, ?mult_IZR). rewrite <- !INR_IZR_INZ. f_equal; [ring|f_equal; ring]. Qed.
Lemma cbel_val m n : cbel_of (Z.of_nat (S (S m))) (Z.of_nat (S (S n))) =
  sqrt (((INR n - INR m + 1) * (INR n - INR m + 2)) / ((INR n + INR m + 3) * (INR n + INR m + 4))).
Proof. unfold cbel_of, rz. f_equal. rewrite !Nat2Z.inj_succ. unfold Z.succ. repeat (rewrite ?plus_IZR, ?minus_IZR, ?mult_IZR). rewrite <- !INR_IZR_INZ. f_equal; [ring|f_equal; ring]. Qed.

Lemma le_real m n : (m <= n)%nat -> INR m <= INR n. Proof. apply le_INR. Qed.
Lemma A_norm m n : (m <= n)%nat ->
  abel_of (Z.of_nat (S (S m))) (Z.of_nat (S (S n))) * pnorm m n = (INR n + INR m + 2) * (INR n + INR m + 1) * pnorm (S (S m)) (S (S n)).
Proof.
  intros H. rewrite abel_val. unfold pnorm. pose proof (pos_INR n). pose proof (pos_INR m). pose proof (fact_pos (n - m)). pose proof (fact_pos (n + m)).
  apply sqrt_mult_eq; [apply Rle_mult_inv_pos; [nra|nra]|apply ratio_pos|nra|].
  replace (S (S n) - S (S m))%nat with (n - m)%nat by lia. replace (S (S n) + S (S m))%nat with (S (S (S (S (n + m))))) by lia. rewrite fact4, !S_INR, plus_INR.
  field. repeat split; lra.
Qed.
Lemma B_norm m n : (S (S m) <= n)%nat ->
  bbel_of (Z.of_nat (S (S m))) (Z.of_nat (S (S n))) * pnorm (S (S m)) n = pnorm (S (S m)) (S (S n)).
Proof.
  intros H. rewrite bbel_val. unfold pnorm. pose proof (pos_INR n). pose proof (pos_INR m). pose proof (fact_pos (n - S (S m))). pose proof (fact_pos (n + S (S m))).
  pose proof (le_real _ _ H) as HH. rewrite !S_INR in HH.
  rewrite <- (Rmult_1_l (sqrt ((2 * INR (S (S n)) + 1) / 2 * _))).
  apply sqrt_mult_eq; [apply Rle_mult_inv_pos; [repeat apply Rmult_le_pos; lra|nra]|apply ratio_pos|lra|].
  replace (S (S n) - S (S m))%nat with (S (S (n - S (S m)))) by lia. replace (S (S n) + S (S m))%nat with (S (S (n + S (S m)))) by lia. rewrite !fact2, !plus_INR, minus_INR, !S_INR by auto.
  field. repeat split; try lra.
Qed.
Lemma B_zero m n : (m <= n <= S m)%nat -> bbel_of (Z.of_nat (S (S m))) (Z.of_nat (S (S n))) = 0.
Proof.
  intros H. rewrite bbel_val. replace ((2 * INR n + 5) * (INR n - INR m - 1) * (INR n - INR m) / ((2 * INR n + 1) * (INR n + INR m + 3) * (INR n + INR m + 4))) with 0; [apply sqrt_0|].
  assert (n = m \/ n = S m) as [->| ->] by lia; unfold Rdiv; rewrite ?S_INR; ring.
Qed.
Lemma C_norm m n : (m <= n)%nat ->
  cbel_of (Z.of_nat (S (S m))) (Z.of_nat (S (S n))) * pnorm m (S (S n)) = (INR n - INR m + 1) * (INR n - INR m + 2) * pnorm (S (S m)) (S (S n)).
Proof.
  intros H. rewrite cbel_val. unfold pnorm. pose proof (pos_INR n). pose proof (pos_INR m). pose proof (fact_pos (n - m)). pose proof (fact_pos (S (S n) + m)). pose proof (le_real _ _ H) as HH.
  apply sqrt_mult_eq; [apply Rle_mult_inv_pos; [nra|nra]|apply ratio_pos|nra|].
  replace (S (S n) - S (S m))%nat with (n - m)%nat by lia. replace (S (S n) - m)%nat with (S (S (n - m))) by lia. replace (S (S n) + S (S m))%nat with (S (S (S (S n) + m))) by lia. rewrite !fact2, !plus_INR, minus_INR, !S_INR by auto.
  field. repeat split; lra.
Qed.

Lemma Pbar_rec m n t y : (m <= n)%nat -> ((S (S m) <= n)%nat -> y = Pbar (S (S m)) n t) ->
  abel_of (Z.of_nat (S (S m))) (Z.of_nat (S (S n))) * Pbar m n t + bbel_of (Z.of_nat (S (S m))) (Z.of_nat (S (S n))) * y -
  cbel_of (Z.of_nat (S (S m))) (Z.of_nat (S (S n))) * Pbar m (S (S n)) t = Pbar (S (S m)) (S (S n)) t.
Proof.
  intros H Hy.
  assert (BY : bbel_of (Z.of_nat (S (S m))) (Z.of_nat (S (S n))) * y = pnorm (S (S m)) (S (S n)) * (sin t ^ S (S m) * D (S (S m)) n (cos t))).
  { destruct (Nat.le_gt_cases (S (S m)) n) as [L|L].
    - rewrite Hy by auto. unfold Pbar. rewrite <- Rmult_assoc, B_norm by auto. auto.
    - rewrite B_zero by lia. rewrite D_zero by lia. ring. }
  rewrite BY. unfold Pbar. rewrite <- !Rmult_assoc. rewrite A_norm by auto. rewrite C_norm by auto.
  pose proof (D_SS (S m) n (cos t)) as E1. pose proof (D_s m n (cos t)) as E2. rewrite E1.
  replace (1 - cos t * cos t) with (sin t * sin t) in E2 by (pose proof (sin2_cos2 t); unfold Rsqr in *; lra).
  cbn [pow]. set (N := pnorm (S (S m)) (S (S n))). set (s := sin t) in *. set (p := s ^ m).
  transitivity (N * p * ((INR n + 2 + INR m) * (INR n + 1 + INR m) * D m n (cos t) - (INR n + 1 - INR m) * (INR n + 2 - INR m) * D m (S (S n)) (cos t)) + N * (s * (s * p)) * D (S (S m)) n (cos t)); [ring|].
  rewrite <- E2. ring.
Qed.

(** Parity about the equator *)
Lemma Pbar_mirror m n t : (m <= n)%nat -> Pbar m n (PI - t) = (-1) ^ (n - m) * Pbar m n t.
Proof.
  intros H. unfold Pbar. rewrite sin_PI_x. rewrite Rtrigo_facts.cos_pi_minus, D_parity. replace (n + m)%nat with (n - m + 2 * m)%nat by lia. rewrite pow_add, pow_1_even. ring.
Qed.
