(** Gauss's theorem: the weights 2 / ((1 - x^2) P_n'(x)^2) at n distinct zeros of P_n
    integrate every polynomial of degree below 2n exactly. *)
From Coq Require Import Reals List Arith Lia Lra Bool.
From Verif Require Import RS_Spec RS_Dft LG_Spec LG_Proofs1 LG_Proofs2.
Import ListNotations.
Local Open Scope R_scope.

(** ** Zeros of a polynomial *)
Lemma poly_divide d : forall f r, poly d f -> exists g, poly (d - 1) g /\ forall x, f x - f r = (x - r) * g x.
Proof.
  induction d; intros f r [c F].
  - exists (fun _ => 0). split; [apply poly_const|]. intros x. rewrite !F. cbn. ring.
  - set (h := fun x => sumR (S d) (fun k => c (S k) * x ^ k)).
    assert (E : forall x, f x = c 0%nat + x * h x).
    { intros x. rewrite F, sumR_first. unfold h. rewrite <- sumR_scal. f_equal; [cbn; ring|]. apply sumR_ext. intros. cbn [pow]. ring. }
    assert (PH : poly d h) by (exists (fun k => c (S k)); auto). destruct (IHd h r PH) as (g & PG & EG).
    exists (fun x => h x + r * g x). split; [|intros x; rewrite !E; pose proof (EG x) as Q; replace (c 0%nat + x * h x - (c 0%nat + r * h r)) with ((x - r) * h x + r * (h x - h r)) by ring; rewrite Q; ring].
    replace (S d - 1)%nat with d by lia. apply poly_plus; auto. apply poly_scal. apply poly_le with (d - 1)%nat; [lia|auto].
Qed.
Lemma poly_zero d : forall f (xs : nat -> R), poly d f -> (forall q, (q <= d)%nat -> f (xs q) = 0) -> (forall p q, (p < q <= d)%nat -> xs p <> xs q) -> forall x, f x = 0.
Proof.
  induction d; intros f xs P Z DI x.
  - destruct P as [c F]. rewrite <- (Z 0%nat ltac:(lia)), !F. cbn. ring.
  - destruct (poly_divide (S d) f (xs (S d)) P) as (g & PG & EG). rewrite (Z (S d)) in EG by lia. replace (S d - 1)%nat with d in PG by lia.
    assert (G0 : forall y, g y = 0).
    { apply (IHd g xs PG); [|intros; apply DI; lia]. intros q Hq. pose proof (EG (xs q)) as E. rewrite Z in E by lia. pose proof (DI q (S d) ltac:(lia)). assert (X : (xs q - xs (S d)) * g (xs q) = 0) by lra. apply Rmult_integral in X. destruct X; auto. lra. }
    pose proof (EG x) as E. rewrite G0 in E. lra.
Qed.

(** ** Integral over [-1, 1] of a function with an antiderivative *)
Definition hasint (f : R -> R) (v : R) : Prop := exists F, (forall x, derivable_pt_lim F x (f x)) /\ F 1 - F (-1) = v.
Lemma hasint_ext f g v : (forall x, f x = g x) -> hasint f v -> hasint g v.
Proof. intros E (F & DF & V). exists F. split; auto. intros x. rewrite <- E. auto. Qed.
Lemma hasint_unique f v v' : hasint f v -> hasint f v' -> v = v'.
Proof.
  intros (F & DF & V) (F' & DF' & V').
  assert (DH : forall x, derivable_pt_lim (F - F')%F x 0) by (intros x; replace 0 with (f x - f x) by ring; apply derivable_pt_lim_minus; auto).
  assert (pr : derivable (F - F')%F) by (intros x; exists 0; apply DH).
  assert (CH : constant (F - F')%F).
  { apply null_derivative_1 with pr. intros x. apply derive_pt_eq_0. apply DH. }
  specialize (CH 1 (-1)). unfold minus_fct in CH. lra.
Qed.
Lemma hasint_sum n (c : nat -> R) (f : nat -> R -> R) (v : nat -> R) : (forall j, (j < n)%nat -> hasint (f j) (v j)) ->
  hasint (fun x => sumR n (fun j => c j * f j x)) (sumR n (fun j => c j * v j)).
Proof.
  induction n; intros H.
  - exists (fun _ => 0). split; [intros x; apply derivable_pt_lim_const|cbn; ring].
  - destruct IHn as (F & DF & V); [auto|]. destruct (H n ltac:(lia)) as (F' & DF' & V'). exists (F + mult_real_fct (c n) F')%F. split.
    + intros x. cbn [sumR]. apply derivable_pt_lim_plus; auto. apply derivable_pt_lim_scal. auto.
    + unfold plus_fct, mult_real_fct. cbn [sumR]. rewrite <- V, <- V'. ring.
Qed.
Definition moment (k : nat) : R := (1 + (-1) ^ k) / (INR k + 1).
Lemma hasint_pow k : hasint (fun x => x ^ k) (moment k).
Proof.
  pose proof (pos_INR k). exists (fun x => / (INR k + 1) * x ^ S k). split.
  - intros x. replace (x ^ k) with (/ (INR k + 1) * (INR (S k) * x ^ k)) by (rewrite S_INR; field; lra). apply (derivable_pt_lim_scal (fun x => x ^ S k)). apply (derivable_pt_lim_pow x (S k)).
  - unfold moment. rewrite pow1. cbn [pow]. field. lra.
Qed.
Lemma leg_minus_one k : leg k (-1) = (-1) ^ k.
Proof. pose proof (D_parity 0 k 1) as Q. change (D 0) with leg in Q. rewrite leg_one in Q. replace (k + 0)%nat with k in Q by lia. replace (- (1)) with (-1) in Q by ring. lra. Qed.
Definition unit0 (k : nat) : R := if (k =? 0)%nat then 2 else 0.
Lemma hasint_leg k : hasint (leg k) (unit0 k).
Proof.
  destruct k as [|k]; [apply hasint_ext with (fun x => x ^ 0); [reflexivity|]; replace (unit0 0) with (moment 0) by (unfold moment, unit0; cbn; field); apply hasint_pow|].
  pose proof (pos_INR k). exists (fun x => / (2 * INR k + 3) * (leg (S (S k)) x - leg k x)). split.
  - intros x. replace (leg (S k) x) with (/ (2 * INR k + 3) * (D 1 (S (S k)) x - D 1 k x)) by (rewrite D_SS; change (D 0) with leg; field; lra).
    apply (derivable_pt_lim_scal (fun x => leg (S (S k)) x - leg k x)). apply (derivable_pt_lim_minus (leg (S (S k))) (leg k)); apply (D_derive 0).
  - rewrite !leg_one, !leg_minus_one. unfold unit0. cbn [pow Nat.eqb]. ring.
Qed.

(** ** Christoffel and Darboux *)
Definition ker (n : nat) (x y : R) : R := sumR n (fun k => (2 * INR k + 1) * (leg k x * leg k y)).
Lemma darboux n x y : (x - y) * ker (S n) x y = (INR n + 1) * (leg (S n) x * leg n y - leg n x * leg (S n) y).
Proof.
  unfold ker. induction n; [cbn; ring|]. set (K := sumR (S n) (fun k => (2 * INR k + 1) * (leg k x * leg k y))) in *.
  change (sumR (S (S n)) (fun k => (2 * INR k + 1) * (leg k x * leg k y))) with (K + (2 * INR (S n) + 1) * (leg (S n) x * leg (S n) y)).
  rewrite Rmult_plus_distr_l, IHn. rewrite S_INR. pose proof (leg_SS n x) as X. pose proof (leg_SS n y) as Y.
  replace ((INR n + 1 + 1) * (leg (S (S n)) x * leg (S n) y - leg (S n) x * leg (S (S n)) y)) with ((INR n + 2) * leg (S (S n)) x * leg (S n) y - leg (S n) x * ((INR n + 2) * leg (S (S n)) y)) by ring.
  rewrite X, Y. ring.
Qed.
Lemma bonnet_D1 n x : (INR n + 2) * D 1 (S (S n)) x = (2 * INR n + 3) * (leg (S n) x + x * D 1 (S n) x) - (INR n + 1) * D 1 n x.
Proof. pose proof (D_x 1 n x) as X. pose proof (D_SS 0 n x) as Y. change (D 0) with leg in Y. cbn [INR] in X. rewrite Y in X |- *. lra. Qed.
Lemma confluent n x : ker (S n) x x = (INR n + 1) * (D 1 (S n) x * leg n x - D 1 n x * leg (S n) x).
Proof.
  unfold ker. induction n; [cbn; ring|]. set (K := sumR (S n) (fun k => (2 * INR k + 1) * (leg k x * leg k x))) in *.
  change (sumR (S (S n)) (fun k => (2 * INR k + 1) * (leg k x * leg k x))) with (K + (2 * INR (S n) + 1) * (leg (S n) x * leg (S n) x)).
  rewrite IHn, S_INR. pose proof (leg_SS n x) as X. pose proof (bonnet_D1 n x) as Y.
  replace ((INR n + 1 + 1) * (D 1 (S (S n)) x * leg (S n) x - D 1 (S n) x * leg (S (S n)) x)) with ((INR n + 2) * D 1 (S (S n)) x * leg (S n) x - D 1 (S n) x * ((INR n + 2) * leg (S (S n)) x)) by ring.
  rewrite X, Y. ring.
Qed.
Lemma D1_root n x : (1 - x * x) * D 1 (S n) x = (INR n + 1) * (leg n x - x * leg (S n) x).
Proof.
  pose proof (D_s 0 n x) as X. change (D 0) with leg in X. cbn [INR] in X. pose proof (leg_SS n x) as Y. pose proof (pos_INR n).
  apply (Rmult_eq_reg_l (2 * INR n + 3)); [|lra]. rewrite <- Rmult_assoc, X.
  replace ((INR n + 2 + 0) * (INR n + 1 + 0) * leg n x - (INR n + 1 - 0) * (INR n + 2 - 0) * leg (S (S n)) x) with ((INR n + 2) * (INR n + 1) * leg n x - (INR n + 1) * ((INR n + 2) * leg (S (S n)) x)) by ring. rewrite Y. ring.
Qed.
Lemma ker_root n x : (1 <= n)%nat -> leg n x = 0 -> ker n x x = (1 - x * x) * (D 1 n x * D 1 n x).
Proof. intros Hn Z. destruct n as [|n]; [lia|]. rewrite confluent, Z. pose proof (D1_root n x) as X. rewrite Z in X. rewrite <- Rmult_assoc, X. ring. Qed.
Lemma ker_pos n x : (1 <= n)%nat -> 1 <= ker n x x.
Proof.
  intros Hn. destruct n as [|n]; [lia|]. unfold ker. rewrite sumR_first. rewrite leg_0. change (INR 0) with 0.
  assert (0 <= sumR n (fun k => (2 * INR (S k) + 1) * (leg (S k) x * leg (S k) x))); [|lra].
  clear. induction n; cbn [sumR]; [lra|]. pose proof (pos_INR (S n)). pose proof (Rle_0_sqr (leg (S n) x)) as Q. unfold Rsqr in Q. assert (0 <= (2 * INR (S n) + 1) * (leg (S n) x * leg (S n) x)) by (apply Rmult_le_pos; lra). lra.
Qed.

(** ** Combinations of Legendre polynomials of degree lo .. hi-1 on a set of points *)
Definition span (lo hi : nat) (X : R -> Prop) (f : R -> R) : Prop :=
  exists c : nat -> R, forall x, X x -> f x = sumR hi (fun j => (if (lo <=? j)%nat then c j else 0) * leg j x).
Section Span.
Variable X : R -> Prop.
Lemma span_ext lo hi f g : (forall x, X x -> f x = g x) -> span lo hi X f -> span lo hi X g.
Proof. intros E [c F]. exists c. intros x Hx. rewrite <- E; auto. Qed.
Lemma span_0 lo hi : span lo hi X (fun _ => 0).
Proof. exists (fun _ => 0). intros x _. rewrite sumR_0; auto. intros k _. destruct (lo <=? k)%nat; ring. Qed.
Lemma span_plus lo hi f g : span lo hi X f -> span lo hi X g -> span lo hi X (fun x => f x + g x).
Proof. intros [c F] [e G]. exists (fun k => c k + e k). intros x Hx. rewrite F, G, <- sumR_plus by auto. apply sumR_ext. intros k _. destruct (lo <=? k)%nat; ring. Qed.
Lemma span_scal lo hi a f : span lo hi X f -> span lo hi X (fun x => a * f x).
Proof. intros [c F]. exists (fun k => a * c k). intros x Hx. rewrite F, <- sumR_scal by auto. apply sumR_ext. intros k _. destruct (lo <=? k)%nat; ring. Qed.
Lemma span_sum lo hi n (f : nat -> R -> R) : (forall j, (j < n)%nat -> span lo hi X (f j)) -> span lo hi X (fun x => sumR n (fun j => f j x)).
Proof. induction n; intros H; [apply span_0|]. cbn [sumR]. apply (span_plus lo hi (fun x => sumR n (fun j => f j x)) (f n)); auto. Qed.
Lemma span_leg lo hi j : (lo <= j < hi)%nat -> span lo hi X (leg j).
Proof.
  intros H. exists (fun k => if (k =? j)%nat then 1 else 0). intros x _. rewrite (sumR_one _ _ j); [|lia|].
  - rewrite Nat.eqb_refl. destruct (Nat.leb_spec lo j); [ring|lia].
  - intros i _ Hi. destruct (Nat.eqb_spec i j); [lia|]. destruct (lo <=? i)%nat; ring.
Qed.
Lemma span_le lo hi lo' hi' f : (lo' <= lo)%nat -> (hi <= hi')%nat -> span lo hi X f -> span lo' hi' X f.
Proof.
  intros H1 H2 [c F]. apply span_ext with (fun x => sumR hi (fun j => (if (lo <=? j)%nat then c j else 0) * leg j x)); [intros; symmetry; auto|].
  apply span_sum. intros j Hj. destruct (Nat.leb_spec lo j).
  - apply span_scal. apply span_leg. lia.
  - apply span_ext with (fun _ => 0); [intros; ring|apply span_0].
Qed.
Lemma x_leg j x : x * leg (S j) x = (INR j + 1) / (2 * INR j + 3) * leg j x + (INR j + 2) / (2 * INR j + 3) * leg (S (S j)) x.
Proof. pose proof (leg_SS j x). pose proof (pos_INR j). apply (Rmult_eq_reg_l (2 * INR j + 3)); [|lra]. transitivity ((INR j + 1) * leg j x + (INR j + 2) * leg (S (S j)) x); [lra|field; lra]. Qed.
(** multiplication by x where the highest polynomial is available or vanishes *)
Lemma span_x lo hi hi' f : (hi <= hi')%nat -> (forall x, X x -> (hi' = hi)%nat -> leg hi x = 0) -> span lo hi X f -> span (lo - 1) hi' X (fun x => x * f x).
Proof.
  intros Hh Z [c F]. apply span_ext with (fun x => sumR hi (fun j => (if (lo <=? j)%nat then c j else 0) * (x * leg j x))).
  { intros x Hx. rewrite F, <- sumR_scal by auto. apply sumR_ext. intros. ring. }
  apply span_sum. intros j Hj. destruct (Nat.leb_spec lo j); [|apply span_ext with (fun _ => 0); [intros; ring|apply span_0]]. apply span_scal.
  assert (NXT : forall k, (lo - 1 <= k <= hi)%nat -> span (lo - 1) hi' X (leg k)).
  { intros k Hk. destruct (Nat.eq_dec k hi') as [E|E]; [|apply span_leg; lia]. apply span_ext with (fun _ => 0); [|apply span_0]. intros x Hx. assert (k = hi) as -> by lia. symmetry. apply Z; auto. }
  destruct j as [|j].
  - apply span_ext with (leg 1); [intros; rewrite leg_0, leg_1; ring|]. apply NXT. lia.
  - apply span_ext with (fun x => (INR j + 1) / (2 * INR j + 3) * leg j x + (INR j + 2) / (2 * INR j + 3) * leg (S (S j)) x); [intros; symmetry; apply x_leg|].
    apply span_plus; apply span_scal; apply NXT; lia.
Qed.
End Span.
Lemma span_pow k : span 0 (S k) (fun _ => True) (fun x => x ^ k).
Proof.
  induction k; [apply span_ext with (leg 0); [reflexivity|apply span_leg; lia]|]. apply (span_x _ 0 (S k) (S (S k)) (fun x => x ^ k)); auto. intros; lia.
Qed.
(** at the zeros of P_n, the polynomial of degree n + j is a combination of those of degree n-j .. n-1 *)
Lemma span_reduce n j : (j < n)%nat -> span (n - j) n (fun x => leg n x = 0) (leg (n + j)).
Proof.
  assert (G : forall j, (j < n)%nat -> span (n - j) n (fun x => leg n x = 0) (leg (n + j)) /\ ((S j < n)%nat -> span (n - S j) n (fun x => leg n x = 0) (leg (n + S j)))); [|intros; apply G; auto].
  clear j. induction j; intros Hj.
  - split.
    + apply span_ext with (fun _ => 0); [intros x Hx; rewrite Nat.add_0_r; auto|apply span_0].
    + intros H1. destruct n as [|n]; [lia|]. apply span_ext with (fun x => (- (INR n + 1) / (INR n + 2)) * leg n x).
      * intros x Hx. replace (S n + 1)%nat with (S (S n)) by lia. pose proof (leg_SS n x) as E. rewrite Hx in E. pose proof (pos_INR n). apply (Rmult_eq_reg_l (INR n + 2)); [|lra]. rewrite E. field. lra.
      * apply span_scal. apply span_leg. lia.
  - destruct (IHj ltac:(lia)) as [A B]. specialize (B Hj). split; auto. intros H2. set (k := (n + j)%nat). replace (n + S (S j))%nat with (S (S k)) by lia. pose proof (pos_INR k).
    apply span_ext with (fun x => (2 * INR k + 3) / (INR k + 2) * (x * leg (S k) x) + (- (INR k + 1) / (INR k + 2)) * leg k x).
    + intros x _. pose proof (leg_SS k x) as E. apply (Rmult_eq_reg_l (INR k + 2)); [|lra]. rewrite E. field. lra.
    + apply span_plus; apply span_scal.
      * apply span_le with (n - S j - 1)%nat n; [lia|lia|]. apply (span_x _ (n - S j) n n (leg (S k))); auto. replace (S k) with (n + S j)%nat by lia. auto.
      * apply span_le with (n - j)%nat n; [lia|lia|]. auto.
Qed.

(** ** Gauss *)
Section Gauss.
Variable n : nat.
Variable xs : nat -> R.
Hypothesis Hn : (1 <= n)%nat.
Hypothesis HZ : forall q, (q < n)%nat -> leg n (xs q) = 0.
Hypothesis HD : forall p q, (p < q < n)%nat -> xs p <> xs q.
Definition gw (q : nat) : R := 2 / ker n (xs q) (xs q).
Definition quad (f : R -> R) : R := sumR n (fun q => gw q * f (xs q)).
Lemma ker_off p q : (p < n)%nat -> (q < n)%nat -> p <> q -> ker n (xs p) (xs q) = 0.
Proof.
  intros Hp Hq N. assert (xs p <> xs q) by (destruct (lt_dec p q); [apply HD; lia|intros E; symmetry in E; revert E; apply HD; lia]).
  pose proof (darboux (n - 1) (xs p) (xs q)) as E. replace (S (n - 1)) with n in E by lia. rewrite !HZ in E by auto. assert (X : (xs p - xs q) * ker n (xs p) (xs q) = 0) by lra. apply Rmult_integral in X. destruct X; auto. lra.
Qed.
Lemma poly_ker x : poly (n - 1) (ker n x).
Proof.
  unfold ker. assert (G : forall k, (k <= n)%nat -> poly (n - 1) (fun y => sumR k (fun j => (2 * INR j + 1) * (leg j x * leg j y)))); [|apply G; auto].
  induction k; intros Hk; cbn [sumR]; [apply poly_const|]. apply poly_plus; [apply IHk; lia|].
  apply poly_ext with (fun y => (2 * INR k + 1) * leg k x * leg k y); [intros; ring|]. apply poly_scal. apply poly_le with k; [lia|apply poly_leg].
Qed.
Lemma quad_low k : (k < n)%nat -> quad (leg k) = unit0 k.
Proof.
  intros Hk. set (s := fun y => sumR n (fun q => (gw q / 2 * leg k (xs q)) * ker n (xs q) y)).
  assert (PS : poly (n - 1) s).
  { unfold s. assert (G : forall m, poly (n - 1) (fun y => sumR m (fun q => gw q / 2 * leg k (xs q) * ker n (xs q) y))); [|apply G]. induction m; cbn [sumR]; [apply poly_const|]. apply poly_plus; auto. apply poly_scal. apply poly_ker. }
  assert (E : forall y, leg k y = s y).
  { intros y. assert (Z : leg k y + (-1) * s y = 0); [|lra]. apply (poly_zero (n - 1) (fun y => leg k y + (-1) * s y) xs).
    - apply poly_plus; [apply poly_le with k; [lia|apply poly_leg]|]. apply poly_scal. auto.
    - intros p Hp. unfold s. rewrite (sumR_one _ _ p); [|lia|].
      + unfold gw. pose proof (ker_pos n (xs p) Hn). field. lra.
      + intros q Hq N. rewrite ker_off by (auto; lia). ring.
    - intros p q Hpq. apply HD. lia. }
  apply (hasint_unique (leg k)); [|apply hasint_leg]. apply hasint_ext with s; [intros; symmetry; auto|].
  apply hasint_ext with (fun y => sumR n (fun j => (sumR n (fun q => gw q / 2 * leg k (xs q) * ((2 * INR j + 1) * leg j (xs q)))) * leg j y)).
  - intros y. unfold s, ker. transitivity (sumR n (fun j => sumR n (fun q => gw q / 2 * leg k (xs q) * ((2 * INR j + 1) * (leg j (xs q) * leg j y))))).
    + apply sumR_ext. intros j _. rewrite <- sumR_scal_r. apply sumR_ext. intros. ring.
    + rewrite sumR_swap. apply sumR_ext. intros q _. rewrite <- sumR_scal. auto.
  - replace (quad (leg k)) with (sumR n (fun j => (sumR n (fun q => gw q / 2 * leg k (xs q) * ((2 * INR j + 1) * leg j (xs q)))) * unit0 j)); [apply hasint_sum; intros; apply hasint_leg|].
    rewrite (sumR_one _ _ 0%nat); [|lia|intros [|i] _ H; [lia|unfold unit0; cbn [Nat.eqb]; ring]]. unfold quad. rewrite <- sumR_scal_r. apply sumR_ext. intros q _. rewrite leg_0. unfold unit0. cbn [Nat.eqb INR]. field.
Qed.
Lemma quad_leg k : (k < 2 * n)%nat -> quad (leg k) = unit0 k.
Proof.
  intros Hk. destruct (lt_dec k n) as [L|L]; [apply quad_low; auto|]. destruct (span_reduce n (k - n) ltac:(lia)) as [c F]. replace (n + (k - n))%nat with k in F by lia.
  unfold unit0. destruct (Nat.eqb_spec k 0); [lia|]. unfold quad.
  transitivity (sumR n (fun j => (if (n - (k - n) <=? j)%nat then c j else 0) * quad (leg j))).
  - unfold quad. transitivity (sumR n (fun j => sumR n (fun q => (if (n - (k - n) <=? j)%nat then c j else 0) * (gw q * leg j (xs q))))); [|apply sumR_ext; intros; apply sumR_scal].
    rewrite sumR_swap. apply sumR_ext. intros q Hq. rewrite F by (apply HZ; auto). rewrite <- sumR_scal. apply sumR_ext. intros. ring.
  - apply sumR_0. intros j Hj. destruct (Nat.leb_spec (n - (k - n)) j); [|ring]. rewrite quad_low by auto. unfold unit0. destruct (Nat.eqb_spec j 0); [lia|]. ring.
Qed.
Theorem gauss_exact k : (k < 2 * n)%nat -> quad (fun x => x ^ k) = moment k.
Proof.
  intros Hk. destruct (span_pow k) as [c F]. apply (hasint_unique (fun x => x ^ k)); [|apply hasint_pow].
  apply hasint_ext with (fun x => sumR (S k) (fun j => c j * leg j x)).
  { intros x. rewrite F by auto. apply sumR_ext. intros j _. reflexivity. }
  replace (quad (fun x => x ^ k)) with (sumR (S k) (fun j => c j * unit0 j)); [apply hasint_sum; intros; apply hasint_leg|].
  unfold quad. transitivity (sumR (S k) (fun j => sumR n (fun q => c j * (gw q * leg j (xs q))))).
  - apply sumR_ext. intros j Hj. rewrite sumR_scal. f_equal. symmetry. apply quad_leg. lia.
  - rewrite sumR_swap. apply sumR_ext. intros q _. rewrite F by auto. rewrite <- sumR_scal. apply sumR_ext. intros j _. cbn [Nat.leb]. ring.
Qed.
End Gauss.
