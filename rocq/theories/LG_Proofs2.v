(** Orthogonality of the functions under a Gaussian quadrature. *)
From Coq Require Import Reals List Arith Lia Lra.
From Verif Require Import RS_Spec RS_Dft LG_Spec LG_Proofs1.
Import ListNotations.
Local Open Scope R_scope.

(** ** Polynomials *)
Definition poly (d : nat) (f : R -> R) : Prop := exists c : nat -> R, forall x, f x = sumR (S d) (fun k => c k * x ^ k).
Lemma poly_ext d f g : (forall x, f x = g x) -> poly d f -> poly d g.
Proof. intros E [c H]. exists c. intros x. rewrite <- E. auto. Qed.
Lemma poly_const d a : poly d (fun _ => a).
Proof.
  exists (fun k => match k with O => a | _ => 0 end). intros x. rewrite (sumR_one _ _ 0%nat); [cbn; ring|lia|]. intros [|i] _ H; [lia|ring].
Qed.
Lemma poly_plus d f g : poly d f -> poly d g -> poly d (fun x => f x + g x).
Proof. intros [c F] [e G]. exists (fun k => c k + e k). intros x. rewrite F, G, <- sumR_plus. apply sumR_ext. intros. ring. Qed.
Lemma poly_scal d a f : poly d f -> poly d (fun x => a * f x).
Proof. intros [c F]. exists (fun k => a * c k). intros x. rewrite F, <- sumR_scal. apply sumR_ext. intros. ring. Qed.
Lemma poly_le d d' f : (d <= d')%nat -> poly d f -> poly d' f.
Proof.
  intros H [c F]. exists (fun k => if (k <=? d)%nat then c k else 0). intros x. rewrite F. replace (S d') with (S d + (d' - d))%nat by lia. rewrite sumR_split.
  rewrite (sumR_0 (d' - d)); [rewrite Rplus_0_r; apply sumR_ext|]; intros k Hk; destruct (Nat.leb_spec k d), (Nat.leb_spec (S d + k) d); try lia; auto; ring.
Qed.
Lemma poly_x d f : poly d f -> poly (S d) (fun x => x * f x).
Proof.
  intros [c F]. exists (fun k => match k with O => 0 | S j => c j end). intros x. rewrite sumR_first, F, <- sumR_scal. rewrite Rmult_0_l, Rplus_0_l. apply sumR_ext. intros k Hk. cbn [pow]. ring.
Qed.
Lemma poly_mult d e f g : poly d f -> poly e g -> poly (d + e) (fun x => f x * g x).
Proof.
  revert f. induction d; intros f [c F] G.
  - apply poly_ext with (fun x => c 0%nat * g x); [|apply poly_scal; auto]. intros x. rewrite F. cbn. ring.
  - apply poly_ext with (fun x => c 0%nat * g x + x * (sumR (S d) (fun k => c (S k) * x ^ k) * g x)).
    + intros x. rewrite F. rewrite (sumR_first (S d)). rewrite <- Rmult_assoc, <- sumR_scal. rewrite Rmult_plus_distr_r. f_equal; [cbn [pow]; ring|]. f_equal. apply sumR_ext. intros. cbn [pow]. ring.
    + apply poly_plus; [apply poly_le with e; [lia|apply poly_scal; auto]|]. apply (poly_x (d + e) (fun x => sumR (S d) (fun k => c (S k) * x ^ k) * g x)). apply IHd; auto. exists (fun k => c (S k)). auto.
Qed.
Lemma poly_pow d f n : poly d f -> poly (n * d) (fun x => f x ^ n).
Proof. intros F. induction n; [apply poly_ext with (fun _ => 1); [reflexivity|apply poly_const]|]. apply (poly_mult d (n * d) f (fun x => f x ^ n)); auto. Qed.
Lemma poly_leg n : poly n (leg n).
Proof.
  apply two_step with (n := n).
  - apply poly_ext with (fun _ => 1); [reflexivity|apply poly_const].
  - apply poly_ext with (fun x => x * 1); [intros; rewrite leg_1; ring|apply (poly_x 0 (fun _ => 1)); apply poly_const].
  - intros k H0 H1. pose proof (pos_INR k). apply poly_ext with (fun x => (2 * INR k + 3) / (INR k + 2) * (x * leg (S k) x) + (- (INR k + 1) / (INR k + 2)) * leg k x).
    + intros x. pose proof (leg_SS k x) as E. apply (Rmult_eq_reg_l (INR k + 2)); [|lra]. rewrite E. field. lra.
    + apply poly_plus; apply poly_scal; [apply poly_x; auto|apply poly_le with k; auto].
Qed.
Lemma poly_D m : forall n, poly (n - m) (D m n).
Proof.
  induction m; intros n.
  - apply poly_le with n; [lia|]. apply poly_leg.
  - pattern n. apply two_step; clear n.
    + apply poly_ext with (fun _ => 0); [reflexivity|apply poly_const].
    + apply poly_ext with (D m 0); [reflexivity|]. apply poly_le with (0 - m)%nat; [lia|]. apply IHm.
    + intros n H0 _. apply poly_ext with (fun x => D (S m) n x + (2 * INR n + 3) * D m (S n) x); [intros; rewrite D_SS; auto|].
      apply poly_plus; [apply poly_le with (n - S m)%nat; [lia|auto]|]. apply poly_scal. apply poly_le with (S n - m)%nat; [lia|]. apply IHm.
Qed.
Lemma poly_s : poly 2 (fun x => 1 - x * x).
Proof.
  apply poly_ext with (fun x => 1 + (-1) * (x * (x * 1))); [intros; ring|]. apply poly_plus; [apply poly_const|]. apply poly_scal. apply (poly_x 1 (fun x => x * 1)). apply (poly_x 0 (fun _ => 1)). apply poly_const.
Qed.

(** ** The quadrature of a derivative *)
Lemma derive_sum n (c : nat -> R) x : derivable_pt_lim (fun x => sumR n (fun k => c k * x ^ k)) x (sumR n (fun k => c k * (INR k * x ^ (k - 1)))).
Proof.
  induction n; cbn [sumR].
  - apply derivable_pt_lim_const.
  - apply (derivable_pt_lim_plus (fun x => sumR n (fun k => c k * x ^ k)) (fun x => c n * x ^ n)); auto.
    apply (derivable_pt_lim_scal (fun x => x ^ n)). replace (n - 1)%nat with (pred n) by lia. apply derivable_pt_lim_pow.
Qed.
Section Quad.
Variables (nlat : nat) (wts : list R) (th : nat -> R).
Hypothesis HG : gaussian nlat wts th.
Definition L (f : R -> R) : R := sumR nlat (fun q => nth q wts 0 * f (cos (th (S q)))).
Lemma L_ext f g : (forall x, f x = g x) -> L f = L g.
Proof using. intros E. apply sumR_ext. intros. rewrite E. auto. Qed.
Lemma L_plus f g : L (fun x => f x + g x) = L f + L g.
Proof using. unfold L. rewrite <- sumR_plus. apply sumR_ext. intros. ring. Qed.
Lemma L_scal a f : L (fun x => a * f x) = a * L f.
Proof using. unfold L. rewrite <- sumR_scal. apply sumR_ext. intros. ring. Qed.
Lemma L_sum n (g : nat -> R -> R) : L (fun x => sumR n (fun k => g k x)) = sumR n (fun k => L (g k)).
Proof using. unfold L. rewrite <- sumR_swap. apply sumR_ext. intros. rewrite <- sumR_scal. auto. Qed.
Lemma L_derivative d f f' : poly d f -> (forall x, derivable_pt_lim f x (f' x)) -> (d <= 2 * nlat)%nat -> L f' = f 1 - f (-1).
Proof using HG.
  intros [c F] DF Hd.
  assert (E : forall x, f' x = sumR (S d) (fun k => (c k * INR k) * x ^ (k - 1))).
  { intros x. apply (uniqueness_limite f x); [apply DF|]. pose proof (derive_sum (S d) c x) as S0.
    intros eps He. destruct (S0 eps He) as [dl Hd']. exists dl. intros h Hh Hl. rewrite !F.
    replace (sumR (S d) (fun k => c k * INR k * x ^ (k - 1))) with (sumR (S d) (fun k => c k * (INR k * x ^ (k - 1)))) by (apply sumR_ext; intros; ring). auto. }
  rewrite (L_ext _ _ E), L_sum, !F, <- sumR_minus. apply sumR_ext. intros k Hk. rewrite L_scal. destruct k as [|k].
  - cbn. ring.
  - replace (S k - 1)%nat with k by lia. assert (M : L (fun x => x ^ k) = (1 + (-1) ^ k) / (INR k + 1)) by (apply HG; lia). rewrite M, S_INR. pose proof (pos_INR k). cbn [pow]. rewrite pow1. field. lra.
Qed.

(** ** The integrals *)
Definition I (m n n' : nat) : R := L (fun x => (1 - x * x) ^ m * (D m n x * D m n' x)).
Lemma I_sym m n n' : I m n n' = I m n' n.
Proof using. apply L_ext. intros. ring. Qed.
Lemma s_derive m x : derivable_pt_lim (fun x => (1 - x * x) ^ S m) x (INR (S m) * (1 - x * x) ^ m * (-2 * x)).
Proof using.
  apply (derivable_pt_lim_comp (fun x => 1 - x * x) (fun y => y ^ S m)).
  - replace (-2 * x) with (0 - (1 * x + x * 1)) by ring. apply (derivable_pt_lim_minus (fct_cte 1) (fun x => x * x)); [apply derivable_pt_lim_const|].
    apply (derivable_pt_lim_mult id id); apply derivable_pt_lim_id.
  - apply (derivable_pt_lim_pow (1 - x * x) (S m)).
Qed.
Lemma I_step m n n' : (S m <= n)%nat -> (S m <= n')%nat -> (n + n' + 1 <= 2 * nlat)%nat -> I (S m) n n' = (INR n' - INR m) * (INR n' + INR m + 1) * I m n n'.
Proof using HG.
  intros Hn Hn' Hd. set (F := fun x => D m n x * ((1 - x * x) ^ S m * D (S m) n' x)).
  set (F' := fun x => (1 - x * x) ^ S m * (D (S m) n x * D (S m) n' x) + - ((INR n' - INR m) * (INR n' + INR m + 1)) * ((1 - x * x) ^ m * (D m n x * D m n' x))).
  assert (P : poly (n - m + (S m * 2 + (n' - S m))) F) by (apply (poly_mult (n - m) _ (D m n)); [apply poly_D|]; apply (poly_mult (S m * 2) (n' - S m) (fun x => (1 - x * x) ^ S m)); [apply poly_pow; apply poly_s|apply poly_D]).
  assert (DF : forall x, derivable_pt_lim F x (F' x)).
  { intros x. replace (F' x) with (D (S m) n x * ((1 - x * x) ^ S m * D (S m) n' x) + D m n x * (INR (S m) * (1 - x * x) ^ m * (-2 * x) * D (S m) n' x + (1 - x * x) ^ S m * D (S (S m)) n' x)).
    - apply (derivable_pt_lim_mult (D m n) (fun x => (1 - x * x) ^ S m * D (S m) n' x)); [apply D_derive|].
      apply (derivable_pt_lim_mult (fun x => (1 - x * x) ^ S m) (D (S m) n')); [apply s_derive|apply D_derive].
    - unfold F'. pose proof (D_ode m n' x) as O1. rewrite S_INR. cbn [pow]. set (s := (1 - x * x) ^ m).
      transitivity ((1 - x * x) * s * (D (S m) n x * D (S m) n' x) + s * D m n x * ((1 - x * x) * D (S (S m)) n' x - 2 * (INR m + 1) * x * D (S m) n' x)); [ring|]. rewrite O1. ring. }
  pose proof (L_derivative _ F F' P DF ltac:(lia)) as E. unfold F in E at 1 2. replace (1 - 1 * 1) with 0 in E by ring. replace (1 - -1 * -1) with 0 in E by ring. rewrite pow_i in E by lia.
  unfold F' in E. rewrite L_plus, L_scal in E. unfold I. lra.
Qed.
Lemma I_0 n n' : (n + n' + 1 <= 2 * nlat)%nat -> n <> n' -> I 0 n n' = 0.
Proof using HG.
  intros Hd Hn. destruct (Nat.eq_dec n 0) as [->|N0]; [|destruct (Nat.eq_dec n' 0) as [->|N0']].
  3:{ pose proof (I_step 0 n n' ltac:(lia) ltac:(lia) Hd) as A. pose proof (I_step 0 n' n ltac:(lia) ltac:(lia) ltac:(lia)) as B. rewrite (I_sym 1), (I_sym 0) in B. rewrite A in B. cbn [INR] in B.
      assert (X : (INR n - INR n') * (INR n + INR n' + 1) * I 0 n n' = 0) by lra. pose proof (pos_INR n). pose proof (pos_INR n').
      apply Rmult_integral in X. destruct X as [X|X]; auto. exfalso. apply Rmult_integral in X. destruct X as [X|X]; [|lra]. apply Hn. apply INR_eq. lra. }
  all: assert (G : forall k, (0 < k)%nat -> (k + 1 <= 2 * nlat)%nat -> I 0 0 k = 0).
  2: { apply G; lia. }
  3: { rewrite I_sym. apply G; lia. }
  all: intros k Hk0 Hk; set (F := fun x => (1 - x * x) ^ 1 * D 1 k x); set (F' := fun x => - (INR k * (INR k + 1)) * ((1 - x * x) ^ 0 * (D 0 0 x * D 0 k x)));
    assert (P : poly (1 * 2 + (k - 1)) F) by (apply (poly_mult (1 * 2) (k - 1) (fun x => (1 - x * x) ^ 1)); [apply poly_pow; apply poly_s|apply poly_D]);
    assert (DF : forall x, derivable_pt_lim F x (F' x)) by
     (intros x; replace (F' x) with (INR 1 * (1 - x * x) ^ 0 * (-2 * x) * D 1 k x + (1 - x * x) ^ 1 * D 2 k x);
      [apply (derivable_pt_lim_mult (fun x => (1 - x * x) ^ 1) (D 1 k)); [apply s_derive|apply D_derive]
      |unfold F'; pose proof (D_ode 0 k x) as O1; cbn [INR pow] in *; change (D 0 0 x) with 1; transitivity ((1 - x * x) * D 2 k x - 2 * (0 + 1) * x * D 1 k x); [ring|]; rewrite O1; ring]);
    pose proof (L_derivative _ F F' P DF ltac:(lia)) as E; unfold F in E at 1 2; replace (1 - 1 * 1) with 0 in E by ring; replace (1 - -1 * -1) with 0 in E by ring; rewrite pow_i in E by lia;
    unfold F' in E; rewrite L_scal in E; unfold I; pose proof (lt_0_INR k Hk0);
    (assert (X : INR k * (INR k + 1) * L (fun x => (1 - x * x) ^ 0 * (D 0 0 x * D 0 k x)) = 0) by lra);
    apply Rmult_integral in X; destruct X as [X|X]; auto; exfalso; apply Rmult_integral in X; destruct X; lra.
Qed.
Lemma leg_derivative_orthogonal n : (2 * n + 1 <= 2 * nlat)%nat -> forall k, (k <= n + 1)%nat -> L (fun x => leg n x * D 1 k x) = if Nat.eqb k (n + 1) then (2 * INR n + 1) * I 0 n n else 0.
Proof using HG.
  intros Hn k. pattern k. apply two_step; clear k.
  - intros _. destruct (Nat.eqb_spec 0 (n + 1)); [lia|]. rewrite (L_ext _ (fun x => 0 * leg n x)), L_scal; [ring|]. intros. rewrite D_S0. ring.
  - intros H. rewrite (L_ext _ (fun x => (1 - x * x) ^ 0 * (D 0 n x * D 0 0 x))) by (intros; rewrite D_S1; change (D 0) with leg; cbn [pow]; ring). fold (I 0 n 0).
    destruct (Nat.eqb_spec 1 (n + 1)) as [E|E]; [assert (n = 0%nat) as -> by lia; cbn [INR]; ring|apply I_0; lia].
  - intros k H0 _ H. rewrite (L_ext _ (fun x => leg n x * D 1 k x + (2 * INR k + 3) * ((1 - x * x) ^ 0 * (D 0 n x * D 0 (S k) x)))) by (intros; rewrite D_SS; change (D 0) with leg; cbn [pow]; ring).
    rewrite L_plus, L_scal. fold (I 0 n (S k)). rewrite H0 by lia. destruct (Nat.eqb_spec k (n + 1)); [lia|].
    destruct (Nat.eqb_spec (S (S k)) (n + 1)) as [E|E]; [assert (n = S k) as -> by lia; rewrite S_INR; ring|]. rewrite I_0 by lia. ring.
Qed.
Lemma I_norm n : (n < nlat)%nat -> I 0 n n = 2 / (2 * INR n + 1).
Proof using HG.
  intros Hn. pose proof (pos_INR n).
  set (F := fun x => leg n x * leg (n + 1) x). set (F' := fun x => D 1 n x * leg (n + 1) x + leg n x * D 1 (n + 1) x).
  assert (P : poly (n + (n + 1)) F) by (apply (poly_mult n (n + 1) (leg n) (leg (n + 1))); apply poly_leg).
  assert (DF : forall x, derivable_pt_lim F x (F' x)) by (intros x; apply (derivable_pt_lim_mult (leg n) (leg (n + 1))); apply (D_derive 0)).
  pose proof (L_derivative _ F F' P DF ltac:(lia)) as E.
  assert (PN : forall k, leg k (-1) = (-1) ^ k) by (intros k; pose proof (D_parity 0 k 1) as Q; change (D 0) with leg in Q; rewrite leg_one in Q; replace (k + 0)%nat with k in Q by lia; replace (- (1)) with (-1) in Q by ring; lra).
  unfold F in E. rewrite !leg_one, !PN in E. rewrite pow_add in E. cbn [pow] in E.
  assert (SQ : (-1) ^ n * (-1) ^ n = 1) by (rewrite <- Rpow_mult_distr; replace (-1 * -1) with 1 by ring; apply pow1).
  unfold F' in E. rewrite L_plus in E. rewrite (leg_derivative_orthogonal n ltac:(lia) (n + 1)%nat ltac:(lia)), Nat.eqb_refl in E.
  rewrite (L_ext (fun x => D 1 n x * leg (n + 1) x) (fun x => leg (n + 1) x * D 1 n x)) in E by (intros; ring).
  assert (Z : L (fun x => leg (n + 1) x * D 1 n x) = 0).
  { assert (G : forall k, (k <= n)%nat -> L (fun x => leg (n + 1) x * D 1 k x) = 0).
    { intros k. pattern k. apply two_step; clear k.
      - intros _. rewrite (L_ext _ (fun x => 0 * leg n x)), L_scal; [ring|]. intros. rewrite D_S0. ring.
      - intros H1. rewrite (L_ext _ (fun x => (1 - x * x) ^ 0 * (D 0 (n + 1) x * D 0 0 x))) by (intros; rewrite D_S1; change (D 0) with leg; cbn [pow]; ring). apply (I_0 (n + 1) 0); lia.
      - intros k H0 _ H1. rewrite (L_ext _ (fun x => leg (n + 1) x * D 1 k x + (2 * INR k + 3) * ((1 - x * x) ^ 0 * (D 0 (n + 1) x * D 0 (S k) x)))) by (intros; rewrite D_SS; change (D 0) with leg; cbn [pow]; ring).
        rewrite L_plus, L_scal. fold (I 0 (n + 1) (S k)). rewrite H0, I_0 by lia. ring. }
    apply G. lia. }
  rewrite Z in E. apply (Rmult_eq_reg_l (2 * INR n + 1)); [|lra].
  transitivity (0 + (2 * INR n + 1) * I 0 n n); [ring|]. rewrite E. transitivity (1 + (-1) ^ n * (-1) ^ n); [ring|]. rewrite SQ. field. lra.
Qed.
Lemma I_value m : forall n n', (m <= n)%nat -> (m <= n')%nat -> (n < nlat)%nat -> (n' < nlat)%nat ->
  I m n n' = if Nat.eqb n n' then 2 / (2 * INR n + 1) * (INR (fact (n + m)) / INR (fact (n - m))) else 0.
Proof using HG.
  induction m; intros n n' H1 H2 H3 H4.
  - destruct (Nat.eqb_spec n n') as [->|E]; [|apply I_0; lia]. rewrite I_norm by auto. replace (n' + 0)%nat with n' by lia. replace (n' - 0)%nat with n' by lia. field. split; [apply INR_fact_neq_0|]. pose proof (pos_INR n'). lra.
  - rewrite I_step, IHm by lia. destruct (Nat.eqb_spec n n') as [<-|E]; [|ring].
    replace (n + S m)%nat with (S (n + m)) by lia. replace (n - m)%nat with (S (n - S m)) by lia. rewrite !fact_simpl, !mult_INR, !S_INR, plus_INR.
    rewrite minus_INR by lia. rewrite S_INR. pose proof (pos_INR n).
    assert (INR n - INR m > 0) by (apply Rgt_minus; apply lt_INR; lia). field. split; [|split]; try apply INR_fact_neq_0; lra.
Qed.
Lemma Pbar_orthonormal m n n' : (m <= n)%nat -> (m <= n')%nat -> (n < nlat)%nat -> (n' < nlat)%nat ->
  sumR nlat (fun q => nth q wts 0 * Pbar m n (th (S q)) * Pbar m n' (th (S q))) = if Nat.eqb n n' then 1 else 0.
Proof using HG.
  intros H1 H2 H3 H4.
  transitivity (pnorm m n * pnorm m n' * I m n n').
  - unfold I, L. rewrite <- sumR_scal. apply sumR_ext. intros q _. unfold Pbar. set (t := th (S q)).
    replace (1 - cos t * cos t) with (sin t * sin t) by (pose proof (sin2_cos2 t); unfold Rsqr in *; lra). rewrite Rpow_mult_distr. ring.
  - rewrite I_value by auto. destruct (Nat.eqb_spec n n') as [<-|E]; [|ring].
    assert (F1 : INR (fact (n + m)) > 0) by apply INR_fact_lt_0. assert (F2 : INR (fact (n - m)) > 0) by apply INR_fact_lt_0. pose proof (pos_INR n).
    unfold pnorm. rewrite sqrt_sqrt; [field; lra|]. apply Rmult_le_pos; [lra|]. apply Rle_mult_inv_pos; lra.
Qed.
End Quad.
