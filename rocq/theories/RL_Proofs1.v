(** Derivatives of the normalised Legendre functions and the orthogonality of
    their gradients under a Gaussian quadrature. *)
From Coq Require Import Reals List Arith ZArith Lia Bool Lra.
From Verif Require Import RS_Spec RS_Dft LG_Spec LG_Proofs1 LG_Proofs2 LG_Proofs3.
Import ListNotations.
Local Open Scope R_scope.

(** derivative in colatitude of the normalised function *)
Definition dPbar (m n : nat) (t : R) : R :=
  pnorm m n * (INR m * sin t ^ (m - 1) * cos t * D m n (cos t) - sin t ^ (m + 1) * D (S m) n (cos t)).

Lemma lim_ext f g x l : (forall y, f y = g y) -> derivable_pt_lim f x l -> derivable_pt_lim g x l.
Proof. intros E H eps He. destruct (H eps He) as [dl Hd]. exists dl. intros h Hh Hl. rewrite <- !E. auto. Qed.
Lemma Pbar_derive m n t : derivable_pt_lim (Pbar m n) t (dPbar m n t).
Proof.
  unfold dPbar. apply (derivable_pt_lim_scal (fun t => sin t ^ m * D m n (cos t)) (pnorm m n)).
  replace (INR m * sin t ^ (m - 1) * cos t * D m n (cos t) - sin t ^ (m + 1) * D (S m) n (cos t))
    with ((INR m * sin t ^ (pred m) * cos t) * D m n (cos t) + sin t ^ m * (D (S m) n (cos t) * - sin t)).
  - apply (derivable_pt_lim_mult (fun t => sin t ^ m) (fun t => D m n (cos t))).
    + apply (derivable_pt_lim_comp sin (fun y => y ^ m)); [apply derivable_pt_lim_sin|apply derivable_pt_lim_pow].
    + apply (derivable_pt_lim_comp cos (D m n)); [apply derivable_pt_lim_cos|apply D_derive].
  - replace (pred m) with (m - 1)%nat by lia. rewrite pow_add. cbn [pow]. ring.
Qed.

Lemma D_lower m n x : (1 - x * x) * D (S m) (S n) x = - (INR (S n) - INR m) * x * D m (S n) x + (INR (S n) + INR m) * D m n x.
Proof.
  pose proof (D_s m n x) as A. pose proof (D_x m n x) as B. rewrite S_INR. pose proof (pos_INR n).
  apply (Rmult_eq_reg_l (2 * INR n + 3)); [|lra].
  transitivity ((2 * INR n + 3) * (1 - x * x) * D (S m) (S n) x); [ring|]. rewrite A.
  transitivity (- (INR n + 1 - INR m) * ((2 * INR n + 3) * x * D m (S n) x) + (2 * INR n + 3) * (INR n + 1 + INR m) * D m n x); [rewrite B; ring|ring].
Qed.
Definition lower (m n : nat) : R := sqrt (INR ((2 * n + 1) * (n * n - m * m)) / INR (2 * n - 1)).
Lemma lower_norm m n : (m <= n)%nat -> lower m (S n) * pnorm m n = (INR (S n) + INR m) * pnorm m (S n).
Proof.
  intros H. unfold lower, pnorm. pose proof (pos_INR n). pose proof (pos_INR m). pose proof (le_INR _ _ H).
  assert (E1 : INR ((2 * S n + 1) * (S n * S n - m * m)) = (2 * INR n + 3) * ((INR n + 1) * (INR n + 1) - INR m * INR m)).
  { rewrite mult_INR, minus_INR by nia. rewrite !mult_INR, !plus_INR, !mult_INR, !S_INR. cbn [INR]. ring. }
  assert (E2 : INR (2 * S n - 1) = 2 * INR n + 1) by (replace (2 * S n - 1)%nat with (2 * n + 1)%nat by lia; rewrite plus_INR, mult_INR; cbn [INR]; ring).
  rewrite E1, E2. apply sqrt_mult_eq.
  - apply Rle_mult_inv_pos; [|lra]. apply Rmult_le_pos; [lra|nra].
  - apply ratio_pos.
  - rewrite S_INR. lra.
  - replace (S n - m)%nat with (S (n - m)) by lia. replace (S n + m)%nat with (S (n + m)) by lia. rewrite !fact_simpl, !mult_INR, !S_INR, plus_INR, minus_INR by auto.
    pose proof (fact_pos (n - m)). pose proof (fact_pos (n + m)). field. repeat split; lra.
Qed.
Lemma lower_zero n : lower n n = 0.
Proof. unfold lower. rewrite Nat.sub_diag, Nat.mul_0_r. cbn [INR]. unfold Rdiv. rewrite Rmult_0_l. apply sqrt_0. Qed.
(** what the code computes, times sin(t) *)
Lemma dPbar_lower m n t : (m <= n)%nat -> (1 <= n)%nat ->
  sin t * dPbar m n t = INR n * cos t * Pbar m n t - (if (m <? n)%nat then lower m n * Pbar m (n - 1) t else 0).
Proof.
  intros H H1. destruct n as [|n]; [lia|]. replace (S n - 1)%nat with n by lia.
  assert (S2 : sin t * sin t = 1 - cos t * cos t) by (pose proof (sin2_cos2 t); unfold Rsqr in *; lra).
  assert (E : sin t * dPbar m (S n) t = pnorm m (S n) * sin t ^ m * (INR m * cos t * D m (S n) (cos t) - (1 - cos t * cos t) * D (S m) (S n) (cos t))).
  { unfold dPbar. rewrite <- S2. destruct m; [cbn [INR]; rewrite Nat.add_comm; cbn [Nat.add pow]; ring|]. replace (S m - 1)%nat with m by lia. rewrite Nat.add_comm. cbn [Nat.add]. rewrite <- !tech_pow_Rmult. ring. }
  rewrite E, D_lower. destruct (Nat.ltb_spec m (S n)) as [L|L].
  - unfold Pbar. transitivity (INR (S n) * cos t * (pnorm m (S n) * (sin t ^ m * D m (S n) (cos t))) - ((INR (S n) + INR m) * pnorm m (S n)) * (sin t ^ m * D m n (cos t))); [ring|]. rewrite <- lower_norm by lia. ring.
  - assert (m = S n) as -> by lia. rewrite (D_zero (S n) n) by lia. unfold Pbar. ring.
Qed.

Section Quad.
Variables (nlat : nat) (wts : list R) (th : nat -> R).
Hypothesis HG : gaussian nlat wts th.
Notation L := (LG_Proofs2.L nlat wts th).
Notation I := (LG_Proofs2.I nlat wts th).
Lemma sine2 t : 1 - cos t * cos t = sin t * sin t.
Proof using. pose proof (sin2_cos2 t). unfold Rsqr in *. lra. Qed.
Lemma norm_I m n n' : (m <= n)%nat -> (m <= n')%nat -> (n < nlat)%nat -> (n' < nlat)%nat -> pnorm m n * pnorm m n' * I m n n' = if Nat.eqb n n' then 1 else 0.
Proof using HG.
  intros H1 H2 H3 H4. rewrite <- (Pbar_orthonormal nlat wts th HG m n n' H1 H2 H3 H4).
  unfold LG_Proofs2.I, LG_Proofs2.L. rewrite <- sumR_scal. apply sumR_ext. intros q _. unfold Pbar. rewrite sine2, Rpow_mult_distr. ring.
Qed.
(** the integrand of order k + 1 in x = cos *)
Definition grad (k n n' : nat) (x : R) : R :=
  let M := INR (S k) in
  (1 - x * x) ^ k * (M * M * (D (S k) n x * D (S k) n' x) +
    (M * x * D (S k) n x - (1 - x * x) * D (S (S k)) n x) * (M * x * D (S k) n' x - (1 - x * x) * D (S (S k)) n' x)).
Lemma grad_value k n n' : (S k <= n)%nat -> (S k <= n')%nat -> (n + n' + 1 <= 2 * nlat)%nat -> L (grad k n n') = INR n' * (INR n' + 1) * I (S k) n n'.
Proof using HG.
  intros Hn Hn' Hd. set (M := INR (S k)).
  set (F := fun x => D (S k) n x * ((1 - x * x) ^ S k * (-M * (x * D (S k) n' x) + (1 - x * x) * D (S (S k)) n' x))).
  set (F' := fun x => grad k n n' x + - (INR n' * (INR n' + 1)) * ((1 - x * x) ^ S k * (D (S k) n x * D (S k) n' x))).
  assert (P : poly (n - S k + (S k * 2 + S (n' - S k))) F).
  { apply (poly_mult (n - S k) _ (D (S k) n)); [apply poly_D|]. apply (poly_mult (S k * 2) _ (fun x => (1 - x * x) ^ S k)); [apply poly_pow; apply poly_s|].
    apply (poly_plus _ (fun x => - M * (x * D (S k) n' x)) (fun x => (1 - x * x) * D (S (S k)) n' x)).
    - apply (poly_scal _ (- M) (fun x => x * D (S k) n' x)). apply poly_x. apply poly_D.
    - destruct (Nat.eq_dec n' (S k)) as [->|NE].
      + apply (poly_ext _ (fun _ => 0)); [intros x; rewrite D_zero by lia; ring|]. apply poly_const.
      + apply (poly_le (2 + (n' - S (S k)))); [lia|]. apply (poly_mult 2 _ (fun x => 1 - x * x)); [apply poly_s|apply poly_D]. }
  assert (DF : forall x, derivable_pt_lim F x (F' x)).
  { intros x. set (A := D (S k) n x). set (B := D (S k) n' x). set (A1 := D (S (S k)) n x). set (B1 := D (S (S k)) n' x). set (B2 := D (S (S (S k))) n' x). set (s := 1 - x * x).
    replace (F' x) with (A1 * (s ^ S k * (- M * (x * B) + s * B1)) + A * (M * s ^ k * (-2 * x) * (- M * (x * B) + s * B1) + s ^ S k * (- M * (1 * B + x * B1) + (-2 * x * B1 + s * B2)))).
    - apply (derivable_pt_lim_mult (D (S k) n) (fun x => (1 - x * x) ^ S k * (-M * (x * D (S k) n' x) + (1 - x * x) * D (S (S k)) n' x))); [apply D_derive|].
      apply (derivable_pt_lim_mult (fun x => (1 - x * x) ^ S k) (fun x => -M * (x * D (S k) n' x) + (1 - x * x) * D (S (S k)) n' x)); [apply s_derive|].
      apply (derivable_pt_lim_plus (fun x => - M * (x * D (S k) n' x)) (fun x => (1 - x * x) * D (S (S k)) n' x)).
      + apply (derivable_pt_lim_scal (fun x => x * D (S k) n' x)). apply (derivable_pt_lim_mult id (D (S k) n')); [apply derivable_pt_lim_id|apply D_derive].
      + apply (derivable_pt_lim_mult (fun x => 1 - x * x) (D (S (S k)) n')); [|apply D_derive].
        replace (-2 * x) with (0 - (1 * x + x * 1)) by ring. apply (derivable_pt_lim_minus (fct_cte 1) (fun x => x * x)); [apply derivable_pt_lim_const|]. apply (derivable_pt_lim_mult id id); apply derivable_pt_lim_id.
    - unfold F', grad. cbv zeta. fold M A B A1 B1 s. pose proof (D_ode (S k) n' x) as O1. fold M B B1 B2 s in O1. cbn [pow].
      assert (O2 : s * B2 = 2 * (M + 1) * x * B1 - (INR n' - M) * (INR n' + M + 1) * B) by lra. rewrite O2.
      assert (X : x * x = 1 - s) by (unfold s; ring). generalize (s ^ k). intros p.
      transitivity (p * (A1 * s * (- M * x * B + s * B1) + A * (2 * M * M * (x * x) * B - 2 * M * x * s * B1) + s * A * (- M * B - M * x * B1 - 2 * x * B1 + 2 * (M + 1) * x * B1 - (INR n' - M) * (INR n' + M + 1) * B))); [ring|].
      transitivity (p * (M * M * (A * B) + (M * M * (x * x) * A * B - M * x * A * s * B1 - s * A1 * M * x * B + s * s * A1 * B1)) - INR n' * (INR n' + 1) * (s * p * (A * B))); [rewrite X; ring|ring]. }
  pose proof (L_derivative nlat wts th HG _ F F' P DF ltac:(lia)) as E. unfold F in E at 1 2. replace (1 - 1 * 1) with 0 in E by ring. replace (1 - -1 * -1) with 0 in E by ring. rewrite pow_i in E by lia.
  unfold F' in E. rewrite L_plus, L_scal in E. unfold LG_Proofs2.I. lra.
Qed.
Lemma gradient_first m n n' : (m <= n)%nat -> (m <= n')%nat -> (n < nlat)%nat -> (n' < nlat)%nat ->
  (forall q, (q < nlat)%nat -> sin (th (S q)) <> 0) ->
  sumR nlat (fun q => let t := th (S q) in nth q wts 0 * ((INR m / sin t) * (INR m / sin t) * Pbar m n t * Pbar m n' t + dPbar m n t * dPbar m n' t))
    = if Nat.eqb n n' then INR n * (INR n + 1) else 0.
Proof using HG.
  intros H1 H2 H3 H4 HS.
  transitivity (INR n' * (INR n' + 1) * (pnorm m n * pnorm m n' * I m n n')).
  2:{ rewrite norm_I by auto. destruct (Nat.eqb_spec n n') as [->|E]; ring. }
  destruct m as [|k].
  - transitivity (pnorm 0 n * pnorm 0 n' * I 1 n n').
    + unfold LG_Proofs2.I, LG_Proofs2.L. rewrite <- sumR_scal. apply sumR_ext. intros q Hq. cbv zeta. unfold dPbar. cbn [INR Nat.add Nat.sub pow]. rewrite sine2. unfold Rdiv. ring.
    + assert (n = 0%nat \/ n' = 0%nat \/ (1 <= n /\ 1 <= n')%nat) as [->|[->|[N1 N2]]] by lia.
      * transitivity 0; [|destruct (Nat.eq_dec n' 0) as [->|NE]; [cbn [INR]; ring|rewrite norm_I by lia; destruct (Nat.eqb_spec 0 n'); [lia|ring]]].
        unfold LG_Proofs2.I. rewrite (L_ext _ _ _ _ (fun x => 0 * leg n' x)) by (intros; rewrite D_S0; ring). rewrite L_scal. ring.
      * transitivity 0; [|cbn [INR]; ring]. unfold LG_Proofs2.I. rewrite (L_ext _ _ _ _ (fun x => 0 * leg n x)) by (intros; rewrite D_S0; ring). rewrite L_scal. ring.
      * rewrite (I_step nlat wts th HG 0 n n') by lia. cbn [INR]. ring.
  - transitivity (pnorm (S k) n * pnorm (S k) n' * L (grad k n n')); [|rewrite grad_value by lia; ring].
    unfold LG_Proofs2.L. rewrite <- sumR_scal. apply sumR_ext. intros q Hq. cbv zeta. set (t := th (S q)). assert (S0 : sin t <> 0) by (apply HS; auto).
    unfold grad, Pbar, dPbar. cbv zeta. rewrite sine2, Rpow_mult_distr. replace (S k - 1)%nat with k by lia. rewrite (Nat.add_comm (S k) 1). cbn [Nat.add]. rewrite <- !tech_pow_Rmult.
    generalize (INR (S k)) (sin t ^ k) (D (S k) n (cos t)) (D (S k) n' (cos t)) (D (S (S k)) n (cos t)) (D (S (S k)) n' (cos t)). intros M p A B A1 B1. field. auto.
Qed.
Lemma gradient_second m n n' : (m <= n)%nat -> (m <= n')%nat -> (n < nlat)%nat -> (n' < nlat)%nat ->
  (forall q, (q < nlat)%nat -> sin (th (S q)) <> 0) ->
  sumR nlat (fun q => let t := th (S q) in nth q wts 0 * (INR m / sin t) * (Pbar m n t * dPbar m n' t + dPbar m n t * Pbar m n' t)) = 0.
Proof using HG.
  intros H1 H2 H3 H4 HS. destruct m as [|k].
  - rewrite (sumR_ext _ _ (fun _ => 0)); [apply sumR_0; auto|]. intros q Hq. cbv zeta. cbn [INR]. unfold Rdiv. ring.
  - set (F := fun x => (1 - x * x) ^ S k * (D (S k) n x * D (S k) n' x)).
    set (F' := fun x => INR (S k) * (1 - x * x) ^ k * (-2 * x) * (D (S k) n x * D (S k) n' x) + (1 - x * x) ^ S k * (D (S (S k)) n x * D (S k) n' x + D (S k) n x * D (S (S k)) n' x)).
    assert (P : poly (S k * 2 + (n - S k + (n' - S k))) F).
    { apply (poly_mult (S k * 2) _ (fun x => (1 - x * x) ^ S k)); [apply poly_pow; apply poly_s|]. apply (poly_mult (n - S k) (n' - S k) (D (S k) n)); apply poly_D. }
    assert (DF : forall x, derivable_pt_lim F x (F' x)).
    { intros x. apply (derivable_pt_lim_mult (fun x => (1 - x * x) ^ S k) (fun x => D (S k) n x * D (S k) n' x)); [apply s_derive|]. apply (derivable_pt_lim_mult (D (S k) n) (D (S k) n')); apply D_derive. }
    pose proof (L_derivative nlat wts th HG _ F F' P DF ltac:(lia)) as E. unfold F in E at 1 2. replace (1 - 1 * 1) with 0 in E by ring. replace (1 - -1 * -1) with 0 in E by ring. rewrite pow_i in E by lia.
    transitivity (- (INR (S k) * (pnorm (S k) n * pnorm (S k) n')) * L F'); [|rewrite E; ring].
    unfold LG_Proofs2.L. rewrite <- sumR_scal. apply sumR_ext. intros q Hq. cbv zeta. set (t := th (S q)). assert (S0 : sin t <> 0) by (apply HS; auto).
    unfold F', Pbar, dPbar. cbv zeta. rewrite sine2, !Rpow_mult_distr. replace (S k - 1)%nat with k by lia. rewrite (Nat.add_comm (S k) 1). cbn [Nat.add]. rewrite <- !tech_pow_Rmult.
    generalize (INR (S k)) (sin t ^ k) (D (S k) n (cos t)) (D (S k) n' (cos t)) (D (S (S k)) n (cos t)) (D (S (S k)) n' (cos t)). intros M p A B A1 B1. field. auto.
Qed.
End Quad.
