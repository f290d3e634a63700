(** The Fourier series of a Legendre polynomial and of its derivative. *)
From Coq Require Import Reals List Arith ZArith Lia Lra.
From Verif Require Import RS_Spec RS_Dft RS_Proofs6 LG_Spec LG_Proofs1.
Import ListNotations.
Local Open Scope R_scope.

(** binomial (2k, k) / 4^k *)
Fixpoint g (k : nat) : R := match k with O => 1 | S j => g j * ((2 * INR j + 1) / (2 * INR j + 2)) end.
Lemma g_pos k : 0 < g k.
Proof. induction k; cbn [g]; [lra|]. pose proof (pos_INR k). apply Rmult_lt_0_compat; auto. apply Rdiv_lt_0_compat; lra. Qed.
Lemma g_S k : (2 * INR k + 2) * g (S k) = (2 * INR k + 1) * g k.
Proof. cbn [g]. pose proof (pos_INR k). field. lra. Qed.

Definition wave (n j : nat) : R := INR n - 2 * INR j.
Definition Q (n : nat) (t : R) : R := sumR (S n) (fun j => g j * g (n - j) * cos (wave n j * t)).

Lemma sum_shift n (f : nat -> R) : sumR (S n) f = f 0%nat + sumR n (fun k => f (S k)).
Proof. apply sumR_first. Qed.
Lemma cos_prod a t : cos t * cos (a * t) = (cos ((a + 1) * t) + cos ((a - 1) * t)) / 2.
Proof. replace ((a + 1) * t) with (a * t + t) by ring. replace ((a - 1) * t) with (a * t - t) by ring. rewrite cos_plus, cos_minus. field. Qed.

Lemma Q_rec n t : (INR n + 2) * Q (S (S n)) t = (2 * INR n + 3) * cos t * Q (S n) t - (INR n + 1) * Q n t.
Proof.
  pose proof (pos_INR n) as Hn.
  (* the waves of degree n+2, those of degree n+1 raised and lowered, those of degree n *)
  set (c := fun j => cos (wave (S (S n)) j * t)).
  assert (E1 : cos t * Q (S n) t = sumR (S (S n)) (fun j => g j * g (S n - j) / 2 * c j) + sumR (S (S n)) (fun j => g j * g (S n - j) / 2 * c (S j))).
  { unfold Q. rewrite <- sumR_scal, <- sumR_plus. apply sumR_ext. intros j Hj. transitivity (g j * g (S n - j) * (cos t * cos (wave (S n) j * t))); [ring|]. rewrite cos_prod.
    unfold c. replace (wave (S n) j + 1) with (wave (S (S n)) j) by (unfold wave; rewrite !S_INR; ring). replace (wave (S n) j - 1) with (wave (S (S n)) (S j)) by (unfold wave; rewrite !S_INR; ring). field. }
  assert (E2 : Q n t = sumR (S n) (fun j => g j * g (n - j) * c (S j))).
  { apply sumR_ext. intros j Hj. unfold c. replace (wave (S (S n)) (S j)) with (wave n j) by (unfold wave; rewrite !S_INR; ring). auto. }
  transitivity ((2 * INR n + 3) * (cos t * Q (S n) t) - (INR n + 1) * Q n t); [|ring]. rewrite E1, E2.
  unfold Q. fold c. rewrite (sum_shift (S (S n))). change (sumR (S (S n)) (fun k => g (S k) * g (S (S n) - S k) * cos (wave (S (S n)) (S k) * t))) with (sumR (S (S n)) (fun k => g (S k) * g (S n - k) * c (S k))).
  rewrite (sum_shift (S n) (fun j => g j * g (S n - j) / 2 * c j)). cbn [sumR].
  change (sumR n (fun k => g (S k) * g (S n - k) * c (S k)) + g (S n) * g (S n - n) * c (S n)) with (sumR (S n) (fun k => g (S k) * g (S n - k) * c (S k))).
  change (sumR n (fun j => g j * g (S n - j) / 2 * c (S j)) + g n * g (S n - n) / 2 * c (S n)) with (sumR (S n) (fun k => g k * g (S n - k) / 2 * c (S k))).
  change (sumR n (fun k => g (S k) * g (S n - S k) / 2 * c (S k)) + g (S n) * g (S n - S n) / 2 * c (S n)) with (sumR (S n) (fun k => g (S k) * g (n - k) / 2 * c (S k))).
  change (sumR n (fun j => g j * g (n - j) * c (S j)) + g n * g (n - n) * c (S n)) with (sumR (S n) (fun k => g k * g (n - k) * c (S k))).
  assert (M : (INR n + 2) * sumR (S n) (fun k => g (S k) * g (S n - k) * c (S k)) =
    (2 * INR n + 3) * (sumR (S n) (fun k => g (S k) * g (n - k) / 2 * c (S k)) + sumR (S n) (fun k => g k * g (S n - k) / 2 * c (S k))) - (INR n + 1) * sumR (S n) (fun k => g k * g (n - k) * c (S k))).
  { rewrite <- sumR_plus, <- !sumR_scal, <- sumR_minus. apply sumR_ext. intros k Hk. replace (S n - k)%nat with (S (n - k)) by lia.
    cbn [g]. rewrite minus_INR by lia. assert (INR k <= INR n) by (apply le_INR; lia). pose proof (pos_INR k). field. lra. }
  rewrite Rmult_plus_distr_l, Rmult_plus_distr_l. rewrite M. replace (S n - S n)%nat with 0%nat by lia. replace (S (S n) - 0)%nat with (S (S n)) by lia. replace (S n - 0)%nat with (S n) by lia.
  change (cos (wave (S (S n)) 0 * t)) with (c 0%nat).
  assert (GG : (INR n + 2) * g (S (S n)) = (2 * INR n + 3) / 2 * g (S n)) by (pose proof (g_S (S n)) as X; rewrite S_INR in X; lra).
  change (g 0) with 1.
  transitivity (((INR n + 2) * g (S (S n))) * c 0%nat + ((2 * INR n + 3) * (sumR (S n) (fun k => g (S k) * g (n - k) / 2 * c (S k)) + sumR (S n) (fun k => g k * g (S n - k) / 2 * c (S k))) - (INR n + 1) * sumR (S n) (fun k => g k * g (n - k) * c (S k)) + ((INR n + 2) * g (S (S n))) * c (S (S n)))); [ring|].
  rewrite GG. field.
Qed.
Lemma leg_Q n t : leg n (cos t) = Q n t.
Proof.
  apply two_step with (n := n).
  - unfold Q, wave. cbn. replace ((0 - 2 * 0) * t) with 0 by ring. rewrite cos_0. ring.
  - unfold Q, wave. cbn. replace ((1 - 2 * 0) * t) with t by ring. replace ((1 - 2 * 1) * t) with (- t) by ring. rewrite cos_neg. change (leg 1 (cos t)) with (cos t). field.
  - intros k H0 H1. pose proof (pos_INR k). apply (Rmult_eq_reg_l (INR k + 2)); [|lra]. rewrite leg_SS, Q_rec, H0, H1. auto.
Qed.
Definition QS (n : nat) (t : R) : R := sumR (S n) (fun j => g j * g (n - j) * (wave n j * sin (wave n j * t))).
Lemma D1_QS n t : sin t * D 1 n (cos t) = QS n t.
Proof.
  assert (A : derivable_pt_lim (fun t => leg n (cos t)) t (D 1 n (cos t) * - sin t)).
  { apply (derivable_pt_lim_comp cos (leg n)); [apply derivable_pt_lim_cos|apply (D_derive 0)]. }
  assert (B : derivable_pt_lim (Q n) t (- QS n t)).
  { unfold QS. rewrite <- sumR_opp. unfold Q. generalize (S n) at 1 2 as N. induction N; cbn [sumR].
    - apply derivable_pt_lim_const.
    - apply (derivable_pt_lim_plus (fun t => sumR N (fun j => g j * g (n - j) * cos (wave n j * t))) (fun t => g N * g (n - N) * cos (wave n N * t))); auto.
      replace (- (g N * g (n - N) * (wave n N * sin (wave n N * t)))) with (g N * g (n - N) * (- sin (wave n N * t) * (wave n N * 1))) by ring.
      apply (derivable_pt_lim_scal (fun t => cos (wave n N * t))). apply (derivable_pt_lim_comp (fun t => wave n N * t) cos); [|apply derivable_pt_lim_cos].
      apply (derivable_pt_lim_scal id). apply derivable_pt_lim_id. }
  assert (C : D 1 n (cos t) * - sin t = - QS n t).
  { apply (uniqueness_limite (fun t => leg n (cos t)) t); [exact A|]. intros eps He. destruct (B eps He) as [dl Hd]. exists dl. intros h Hh Hl. rewrite !leg_Q. auto. }
  lra.
Qed.

Lemma odd_even2 q : Nat.odd (S (2 * q + 1)) = false.
Proof. replace (S (2 * q + 1)) with (2 * (q + 1))%nat by lia. rewrite Nat.odd_mul. auto. Qed.
(** ** Only the waves of nonnegative number, from the lowest to the highest *)
Definition G (n j : nat) : R := 2 * (g j * g (n - j)).
Lemma wave_mirror n j : (j <= n)%nat -> wave n (n - j) = - wave n j.
Proof. intros. unfold wave. rewrite minus_INR by lia. ring. Qed.
Lemma Q_even q t : Q (2 * q) t = 1 / 2 * G (2 * q) q + sumR q (fun k => G (2 * q) (q - S k) * cos (INR (S k) * (t + t))).
Proof.
  unfold Q. rewrite sumR_pairs. replace (S (2 * q) / 2)%nat with q by (apply Nat.div_unique with 1%nat; lia). replace (Nat.odd (S (2 * q))) with true by (rewrite Nat.odd_succ, Nat.even_mul; auto).
  rewrite Rplus_comm. f_equal.
  - replace (wave (2 * q) q) with 0 by (unfold wave; rewrite mult_INR; cbn [INR]; ring). rewrite Rmult_0_l, cos_0. unfold G. field.
  - rewrite sumR_rev. apply sumR_ext. intros k Hk. replace (S (2 * q) - 1 - (q - 1 - k))%nat with (2 * q - (q - 1 - k))%nat by lia. rewrite wave_mirror by lia.
    replace (q - 1 - k)%nat with (q - S k)%nat by lia. replace (2 * q - (2 * q - (q - S k)))%nat with (q - S k)%nat by lia.
    replace (- wave (2 * q) (q - S k) * t) with (- (wave (2 * q) (q - S k) * t)) by ring. rewrite cos_neg. unfold G.
    replace (wave (2 * q) (q - S k) * t) with (INR (S k) * (t + t)) by (unfold wave; rewrite minus_INR by lia; rewrite mult_INR; cbn [INR]; ring). ring.
Qed.
Lemma Q_odd q t : Q (2 * q + 1) t = sumR (q + 1) (fun k => G (2 * q + 1) (q - k) * cos (t + INR k * (t + t))).
Proof.
  unfold Q. rewrite sumR_pairs. replace (S (2 * q + 1) / 2)%nat with (q + 1)%nat by (apply Nat.div_unique with 0%nat; lia). rewrite odd_even2.
  rewrite Rplus_0_r. rewrite sumR_rev. apply sumR_ext. intros k Hk. replace (S (2 * q + 1) - 1 - (q + 1 - 1 - k))%nat with (2 * q + 1 - (q + 1 - 1 - k))%nat by lia. rewrite wave_mirror by lia.
  replace (q + 1 - 1 - k)%nat with (q - k)%nat by lia. replace (2 * q + 1 - (2 * q + 1 - (q - k)))%nat with (q - k)%nat by lia.
  replace (- wave (2 * q + 1) (q - k) * t) with (- (wave (2 * q + 1) (q - k) * t)) by ring. rewrite cos_neg. unfold G.
  replace (wave (2 * q + 1) (q - k) * t) with (t + INR k * (t + t)) by (unfold wave; rewrite minus_INR by lia; rewrite plus_INR, mult_INR; cbn [INR]; ring). ring.
Qed.
Lemma QS_even q t : QS (2 * q) t = sumR q (fun k => G (2 * q) (q - S k) * (wave (2 * q) (q - S k) * sin (INR (S k) * (t + t)))).
Proof.
  unfold QS. rewrite sumR_pairs. replace (S (2 * q) / 2)%nat with q by (apply Nat.div_unique with 1%nat; lia). replace (Nat.odd (S (2 * q))) with true by (rewrite Nat.odd_succ, Nat.even_mul; auto).
  replace (g q * g (2 * q - q) * (wave (2 * q) q * sin (wave (2 * q) q * t))) with 0 by (unfold wave; rewrite mult_INR; cbn [INR]; ring). rewrite Rplus_0_r.
  rewrite sumR_rev. apply sumR_ext. intros k Hk. replace (S (2 * q) - 1 - (q - 1 - k))%nat with (2 * q - (q - 1 - k))%nat by lia. rewrite wave_mirror by lia.
  replace (q - 1 - k)%nat with (q - S k)%nat by lia. replace (2 * q - (2 * q - (q - S k)))%nat with (q - S k)%nat by lia.
  replace (- wave (2 * q) (q - S k) * t) with (- (wave (2 * q) (q - S k) * t)) by ring. rewrite sin_neg. unfold G.
  replace (wave (2 * q) (q - S k) * t) with (INR (S k) * (t + t)) by (unfold wave; rewrite minus_INR by lia; rewrite mult_INR; cbn [INR]; ring). ring.
Qed.
Lemma QS_odd q t : QS (2 * q + 1) t = sumR (q + 1) (fun k => G (2 * q + 1) (q - k) * (wave (2 * q + 1) (q - k) * sin (t + INR k * (t + t)))).
Proof.
  unfold QS. rewrite sumR_pairs. replace (S (2 * q + 1) / 2)%nat with (q + 1)%nat by (apply Nat.div_unique with 0%nat; lia). rewrite odd_even2.
  rewrite Rplus_0_r. rewrite sumR_rev. apply sumR_ext. intros k Hk. replace (S (2 * q + 1) - 1 - (q + 1 - 1 - k))%nat with (2 * q + 1 - (q + 1 - 1 - k))%nat by lia. rewrite wave_mirror by lia.
  replace (q + 1 - 1 - k)%nat with (q - k)%nat by lia. replace (2 * q + 1 - (2 * q + 1 - (q - k)))%nat with (q - k)%nat by lia.
  replace (- wave (2 * q + 1) (q - k) * t) with (- (wave (2 * q + 1) (q - k) * t)) by ring. rewrite sin_neg. unfold G.
  replace (wave (2 * q + 1) (q - k) * t) with (t + INR k * (t + t)) by (unfold wave; rewrite minus_INR by lia; rewrite plus_INR, mult_INR; cbn [INR]; ring). ring.
Qed.
