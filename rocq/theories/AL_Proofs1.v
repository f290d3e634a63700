(** The Fourier series in the colatitude of a normalised associated Legendre
    function of any order. *)
From Coq Require Import Reals List Arith ZArith Lia Bool Lra.
From Verif Require Import RS_Spec RS_Dft LG_Spec LG_Proofs1 LG_Model LG_Proofs3 LG_Proofs5 LG_Proofs6.
Import ListNotations.
Local Open Scope R_scope.

Lemma lim_ext f g x l : (forall y, f y = g y) -> derivable_pt_lim f x l -> derivable_pt_lim g x l.
Proof. intros E H eps He. destruct (H eps He) as [dl Hd]. exists dl. intros h Hh Hl. rewrite <- !E. auto. Qed.
Lemma lim_eq f g x l l' : (forall y, f y = g y) -> derivable_pt_lim f x l -> derivable_pt_lim g x l' -> l = l'.
Proof. intros E H H'. apply (uniqueness_limite f x); auto. apply (lim_ext g f); auto. Qed.
Lemma lim_val f x l l' : l = l' -> derivable_pt_lim f x l -> derivable_pt_lim f x l'.
Proof. intros ->. auto. Qed.

(** ** The differential equation *)
Definition q (m n : nat) (t : R) : R := sin t ^ m * D m n (cos t).
Definition qd (m n : nat) (t : R) : R := INR m * sin t ^ (m - 1) * cos t * D m n (cos t) - sin t ^ m * (D (S m) n (cos t) * sin t).
Lemma q_derive m n t : derivable_pt_lim (q m n) t (qd m n t).
Proof.
  unfold q, qd. apply (lim_val _ _ ((INR m * sin t ^ pred m * cos t) * D m n (cos t) + sin t ^ m * (D (S m) n (cos t) * - sin t))).
  - replace (pred m) with (m - 1)%nat by lia. ring.
  - apply (derivable_pt_lim_mult (fun t => sin t ^ m) (fun t => D m n (cos t))).
    + apply (derivable_pt_lim_comp sin (fun x => x ^ m)); [apply derivable_pt_lim_sin|apply derivable_pt_lim_pow].
    + apply (derivable_pt_lim_comp cos (D m n)); [apply derivable_pt_lim_cos|apply D_derive].
Qed.
Lemma sin_qd m n t : sin t * qd m n t = INR m * cos t * q m n t - sin t * q (S m) n t.
Proof. unfold qd, q. destruct m; [cbn [INR pow]; ring|]. replace (S m - 1)%nat with m by lia. cbn [pow]. ring. Qed.
Lemma q_ode m n t : sin t * q (S (S m)) n t - 2 * (INR m + 1) * cos t * q (S m) n t = - ((INR n - INR m) * (INR n + INR m + 1)) * sin t * q m n t.
Proof.
  pose proof (D_ode m n (cos t)) as E. replace (1 - cos t * cos t) with (sin t * sin t) in E by (pose proof (sin2_cos2 t); unfold Rsqr in *; lra).
  unfold q. cbn [pow]. transitivity (sin t * sin t ^ m * (sin t * sin t * D (S (S m)) n (cos t) - 2 * (INR m + 1) * cos t * D (S m) n (cos t))); [ring|]. rewrite E. ring.
Qed.
(** a function with the two derivatives F1 and F2 that equals the Legendre function solves the equation *)
Lemma ode m n c F F1 F2 : (forall t, F t = c * q m n t) -> (forall t, derivable_pt_lim F t (F1 t)) -> (forall t, derivable_pt_lim F1 t (F2 t)) ->
  forall t, sin t * sin t * F2 t + sin t * cos t * F1 t + (INR n * (INR n + 1) * (sin t * sin t) - INR m * INR m) * F t = 0.
Proof.
  intros E H1 H2 t.
  assert (A : forall t, F1 t = c * qd m n t) by (intros u; apply (lim_eq F (fun t => c * q m n t) u); auto; apply (derivable_pt_lim_scal (q m n)), q_derive).
  assert (B : forall t, sin t * F1 t = c * (INR m * (cos t * q m n t) - sin t * q (S m) n t)) by (intros u; rewrite A; transitivity (c * (sin u * qd m n u)); [ring|]; rewrite sin_qd; ring).
  assert (L : derivable_pt_lim (fun t => sin t * F1 t) t (cos t * F1 t + sin t * F2 t)) by (apply (derivable_pt_lim_mult sin F1); auto; apply derivable_pt_lim_sin).
  assert (Rr : derivable_pt_lim (fun t => c * (INR m * (cos t * q m n t) - sin t * q (S m) n t)) t
    (c * (INR m * (- sin t * q m n t + cos t * qd m n t) - (cos t * q (S m) n t + sin t * qd (S m) n t)))).
  { apply (derivable_pt_lim_scal (fun t => INR m * (cos t * q m n t) - sin t * q (S m) n t)).
    apply (derivable_pt_lim_minus (fun t => INR m * (cos t * q m n t)) (fun t => sin t * q (S m) n t)).
    - apply (derivable_pt_lim_scal (fun t => cos t * q m n t)). apply (derivable_pt_lim_mult cos (q m n)); [apply derivable_pt_lim_cos|apply q_derive].
    - apply (derivable_pt_lim_mult sin (q (S m) n)); [apply derivable_pt_lim_sin|apply q_derive]. }
  pose proof (lim_eq _ _ _ _ _ B L Rr) as X. pose proof (sin_qd m n t) as S0. pose proof (sin_qd (S m) n t) as S1. pose proof (q_ode m n t) as O. rewrite E. rewrite S_INR in S1.
  pose proof (sin2_cos2 t) as SC. unfold Rsqr in SC. set (s := sin t) in *. set (k := cos t) in *.
  transitivity (s * (k * F1 t + s * F2 t) + (INR n * (INR n + 1) * (s * s) - INR m * INR m) * (c * q m n t)); [ring|]. rewrite X.
  transitivity (c * (INR m * (- s * s * q m n t + k * (s * qd m n t)) - (s * k * q (S m) n t + s * (s * qd (S m) n t))) + (INR n * (INR n + 1) * (s * s) - INR m * INR m) * (c * q m n t)); [ring|].
  rewrite S0, S1.
  transitivity (c * (INR m * INR m * (k * k - 1) * q m n t - INR m * (s * s) * q m n t + INR n * (INR n + 1) * (s * s) * q m n t + s * (s * q (S (S m)) n t - 2 * (INR m + 1) * k * q (S m) n t))); [ring|].
  rewrite O. replace (k * k - 1) with (- (s * s)) by lra. ring.
Qed.

(** ** The waves *)
Definition ev (m : nat) : bool := (m mod 2 =? 0)%nat.
Definition sg (m : nat) : R := if ev m then 1 else -1.
Definition e (m : nat) (x : R) : R := if ev m then cos x else sin x.
Definition e1 (m : nat) (x : R) : R := if ev m then - sin x else cos x.
Lemma ev_SS m : ev (S (S m)) = ev m.
Proof. unfold ev. replace (S (S m)) with (m + 1 * 2)%nat by lia. rewrite Nat.mod_add by lia. auto. Qed.
Lemma sg_SS m : sg (S (S m)) = sg m. Proof. unfold sg. rewrite ev_SS. auto. Qed.
Lemma e_SS m x : e (S (S m)) x = e m x. Proof. unfold e. rewrite ev_SS. auto. Qed.
Lemma e_mult m a b : e m a * e m b = (cos (a - b) + sg m * cos (a + b)) / 2.
Proof. unfold e, sg. rewrite cos_minus, cos_plus. destruct (ev m); field. Qed.
Lemma wave_d m w t : derivable_pt_lim (fun t => e m (w * t)) t (w * e1 m (w * t)).
Proof.
  unfold e, e1. assert (L : derivable_pt_lim (fun t => w * t) t (w * 1)) by (apply (derivable_pt_lim_scal id); apply derivable_pt_lim_id). destruct (ev m).
  - apply (lim_val _ _ (- sin (w * t) * (w * 1))); [ring|]. apply (derivable_pt_lim_comp (fun t => w * t) cos); [auto|apply derivable_pt_lim_cos].
  - apply (lim_val _ _ (cos (w * t) * (w * 1))); [ring|]. apply (derivable_pt_lim_comp (fun t => w * t) sin); [auto|apply derivable_pt_lim_sin].
Qed.
Lemma wave_d1 m w t : derivable_pt_lim (fun t => e1 m (w * t)) t (- w * e m (w * t)).
Proof.
  unfold e, e1. assert (L : derivable_pt_lim (fun t => w * t) t (w * 1)) by (apply (derivable_pt_lim_scal id); apply derivable_pt_lim_id). destruct (ev m).
  - apply (lim_val _ _ (- (cos (w * t) * (w * 1)))); [ring|]. apply (derivable_pt_lim_opp (fun t => sin (w * t))). apply (derivable_pt_lim_comp (fun t => w * t) sin); [auto|apply derivable_pt_lim_sin].
  - apply (lim_val _ _ (- sin (w * t) * (w * 1))); [ring|]. apply (derivable_pt_lim_comp (fun t => w * t) cos); [auto|apply derivable_pt_lim_cos].
Qed.
Lemma sum_d N (c : nat -> R) (f f' : nat -> R -> R) t : (forall j, derivable_pt_lim (f j) t (f' j t)) -> derivable_pt_lim (fun t => sumR N (fun j => c j * f j t)) t (sumR N (fun j => c j * f' j t)).
Proof.
  intros H. induction N; cbn [sumR]; [apply derivable_pt_lim_const|].
  apply (derivable_pt_lim_plus (fun t => sumR N (fun j => c j * f j t)) (fun t => c N * f N t)); auto. apply (derivable_pt_lim_scal (f N)). auto.
Qed.
(** sin^2, sin cos d/dt applied to one wave *)
Lemma wave_op m w t N2 M2 : sin t * sin t * (w * (- w * e m (w * t))) + sin t * cos t * (w * e1 m (w * t)) + (N2 * (sin t * sin t) - M2) * e m (w * t) =
  1 / 4 * ((w * (w + 1) - N2) * e m ((w + 2) * t) - 2 * (w * w - (N2 - 2 * M2)) * e m (w * t) + (w * (w - 1) - N2) * e m ((w - 2) * t)).
Proof.
  replace ((w + 2) * t) with (w * t + (t + t)) by ring. replace ((w - 2) * t) with (w * t - (t + t)) by ring. unfold e, e1. pose proof (sin2_cos2 t) as SC. unfold Rsqr in SC.
  assert (C2 : cos t * cos t = 1 - sin t * sin t) by lra.
  destruct (ev m); [rewrite !cos_plus, !cos_minus|rewrite !sin_plus, !sin_minus]; rewrite ?cos_plus, ?sin_plus, C2; field.
Qed.

(** ** The coefficients of a sum of waves *)
Section Coef.
Variables (m n : nat).
Let M := (n + 2)%nat.
Let N := (2 * M + 1)%nat.
Let th (p : nat) : R := 2 * PI * INR p / INR N.
Lemma N_pos : 0 < INR N. Proof. apply lt_0_INR. lia. Qed.
Lemma period x y : (x <= y + M)%nat -> (y <= x + M)%nat -> sumR N (fun p => cos (2 * (INR x - INR y) * th p)) = if (x =? y)%nat then INR N else 0.
Proof.
  intros H1 H2. pose proof N_pos as NP. assert (HN : (0 < N)%nat) by lia.
  assert (E : sumR N (fun p => cos (2 * (INR x - INR y) * th p)) = sumR N (fun p => cos (angle N (2 * (Nat.max x y - Nat.min x y)) p))).
  { apply sumR_ext. intros p _. unfold th, angle. destruct (Nat.le_ge_cases x y) as [L|L].
    - rewrite Nat.max_r, Nat.min_l by lia. rewrite mult_INR, minus_INR by lia. cbn [INR]. rewrite <- cos_neg. f_equal. field. lra.
    - rewrite Nat.max_l, Nat.min_r by lia. rewrite mult_INR, minus_INR by lia. cbn [INR]. f_equal. field. lra. }
  rewrite E. destruct (Nat.eqb_spec x y) as [->|NE].
  - apply cos_sum_full; lia.
  - apply cos_sum_zero; lia.
Qed.
Definition ip (i i0 : nat) : R := sumR N (fun p => e m (wave M i * th p) * e m (wave M i0 * th p)).
Lemma ip_val i i0 : (i <= M)%nat -> (i0 <= M)%nat -> ip i i0 = INR N / 2 * ((if (i =? i0)%nat then 1 else 0) + sg m * (if (i + i0 =? M)%nat then 1 else 0)).
Proof.
  intros H H0. unfold ip.
  rewrite (sumR_ext N _ (fun p => / 2 * cos (2 * (INR i0 - INR i) * th p) + sg m / 2 * cos (2 * (INR M - INR (i + i0)) * th p))).
  - rewrite sumR_plus, !sumR_scal, !period by lia. rewrite (Nat.eqb_sym i0 i), (Nat.eqb_sym M (i + i0)). destruct (i =? i0)%nat, (i + i0 =? M)%nat; field.
  - intros p _. rewrite e_mult. replace (wave M i * th p - wave M i0 * th p) with (2 * (INR i0 - INR i) * th p) by (unfold wave; ring).
    replace (wave M i * th p + wave M i0 * th p) with (2 * (INR M - INR (i + i0)) * th p) by (unfold wave; rewrite plus_INR; ring). field.
Qed.

Variable c : nat -> R.
Hypothesis Sym : forall j, (j <= n)%nat -> c (n - j)%nat = sg m * c j.
Hypothesis Rep : forall t, Pbar m n t = 1 / 2 * sumR (S n) (fun j => c j * e m (wave n j * t)).
Let N2 := INR n * (INR n + 1).
Let M2 := INR m * INR m.
Let al (j : nat) := wave n j * (wave n j + 1) - N2.
Let be (j : nat) := - (2 * (wave n j * wave n j - (N2 - 2 * M2))).
Let ga (j : nat) := wave n j * (wave n j - 1) - N2.

Lemma zero_sum t : sumR (S n) (fun j => c j * (al j * e m (wave M j * t) + be j * e m (wave M (S j) * t) + ga j * e m (wave M (S (S j)) * t))) = 0.
Proof.
  pose proof (ode m n (pnorm m n) (fun t => sumR (S n) (fun j => (1 / 2 * c j) * e m (wave n j * t))) (fun t => sumR (S n) (fun j => (1 / 2 * c j) * (wave n j * e1 m (wave n j * t))))
    (fun t => sumR (S n) (fun j => (1 / 2 * c j) * (wave n j * (- wave n j * e m (wave n j * t)))))) as O.
  assert (Z : sin t * sin t * sumR (S n) (fun j => (1 / 2 * c j) * (wave n j * (- wave n j * e m (wave n j * t)))) + sin t * cos t * sumR (S n) (fun j => (1 / 2 * c j) * (wave n j * e1 m (wave n j * t))) +
    (INR n * (INR n + 1) * (sin t * sin t) - INR m * INR m) * sumR (S n) (fun j => (1 / 2 * c j) * e m (wave n j * t)) = 0).
  { apply O.
    - intros u. pose proof (Rep u) as R0. unfold Pbar in R0. unfold q. rewrite R0, <- sumR_scal. apply sumR_ext. intros; ring.
    - intros u. apply (sum_d (S n) (fun j => 1 / 2 * c j) (fun j t => e m (wave n j * t)) (fun j t => wave n j * e1 m (wave n j * t))). intros j. apply wave_d.
    - intros u. apply (sum_d (S n) (fun j => 1 / 2 * c j) (fun j t => wave n j * e1 m (wave n j * t)) (fun j t => wave n j * (- wave n j * e m (wave n j * t)))). intros j. apply (derivable_pt_lim_scal (fun t => e1 m (wave n j * t))). apply wave_d1. }
  rewrite <- !sumR_scal, <- !sumR_plus in Z. apply (Rmult_eq_reg_l (1 / 8)); [|lra]. rewrite Rmult_0_r, <- Z, <- sumR_scal. apply sumR_ext. intros j _.
  transitivity (1 / 2 * c j * (sin t * sin t * (wave n j * (- wave n j * e m (wave n j * t))) + sin t * cos t * (wave n j * e1 m (wave n j * t)) + (INR n * (INR n + 1) * (sin t * sin t) - INR m * INR m) * e m (wave n j * t))); [|ring].
  rewrite wave_op. replace (wave M j) with (wave n j + 2) by (unfold wave, M; rewrite plus_INR; cbn [INR]; ring). replace (wave M (S j)) with (wave n j) by (unfold wave, M; rewrite plus_INR, !S_INR; cbn [INR]; ring).
  replace (wave M (S (S j))) with (wave n j - 2) by (unfold wave, M; rewrite plus_INR, !S_INR; cbn [INR]; ring). unfold al, be, ga, N2, M2. field.
Qed.
Lemma pick (f : nat -> R) a : sumR (S n) (fun j => f j * (if (j =? a)%nat then 1 else 0)) = if (a <=? n)%nat then f a else 0.
Proof.
  destruct (Nat.leb_spec a n).
  - rewrite (sumR_one _ _ a); [rewrite Nat.eqb_refl; ring|lia|]. intros i _ NE. destruct (Nat.eqb_spec i a); [lia|ring].
  - apply sumR_0. intros i Hi. destruct (Nat.eqb_spec i a); [lia|ring].
Qed.
Lemma pick_ext (f g : nat -> R) a : (forall j, (j <= n)%nat -> g j = f j * (if (j =? a)%nat then 1 else 0)) -> sumR (S n) g = if (a <=? n)%nat then f a else 0.
Proof. intros H. rewrite <- pick. apply sumR_ext. intros j Hj. apply H. lia. Qed.
Lemma moment i0 : (i0 <= M)%nat -> sumR (S n) (fun j => c j * al j * ip j i0) + sumR (S n) (fun j => c j * be j * ip (S j) i0) + sumR (S n) (fun j => c j * ga j * ip (S (S j)) i0) = 0.
Proof.
  intros H. rewrite <- !sumR_plus.
  transitivity (sumR N (fun p => sumR (S n) (fun j => c j * (al j * e m (wave M j * th p) + be j * e m (wave M (S j) * th p) + ga j * e m (wave M (S (S j)) * th p))) * e m (wave M i0 * th p))).
  - rewrite (sumR_ext N _ (fun p => sumR (S n) (fun j => c j * (al j * e m (wave M j * th p) + be j * e m (wave M (S j) * th p) + ga j * e m (wave M (S (S j)) * th p)) * e m (wave M i0 * th p)))) by (intros; rewrite sumR_scal_r; auto).
    rewrite sumR_swap. apply sumR_ext. intros j _. unfold ip. rewrite <- !sumR_scal, <- !sumR_plus. apply sumR_ext. intros p _. ring.
  - apply sumR_0. intros p _. rewrite zero_sum. ring.
Qed.
Lemma al_mirror j : (j <= n)%nat -> al (n - j) = ga j.
Proof. intros. unfold al, ga. rewrite wave_mirror by auto. ring. Qed.
Lemma ga_mirror j : (j <= n)%nat -> ga (n - j) = al j.
Proof. intros. unfold al, ga. rewrite wave_mirror by auto. ring. Qed.
Lemma be_mirror j : (j <= n)%nat -> be (n - j) = be j.
Proof. intros. unfold be. rewrite wave_mirror by auto. ring. Qed.
Lemma sg_sq : sg m * sg m = 1. Proof. unfold sg. destruct (ev m); ring. Qed.
(** sum of f j against the wave number d + j *)
Lemma one_moment (f : nat -> R) d i0 : (d <= 2)%nat -> (i0 <= M)%nat ->
  sumR (S n) (fun j => f j * ip (d + j) i0) = INR N / 2 * ((if andb (d <=? i0) (i0 - d <=? n) then f (i0 - d)%nat else 0) + sg m * (if andb (d + i0 <=? M) (M - d - i0 <=? n) then f (M - d - i0)%nat else 0)).
Proof.
  intros Hd Hi.
  rewrite (sumR_ext (S n) _ (fun j => INR N / 2 * (f j * (if (d + j =? i0)%nat then 1 else 0)) + INR N / 2 * sg m * (f j * (if (d + j + i0 =? M)%nat then 1 else 0)))) by (intros j Hj; rewrite ip_val by lia; ring).
  rewrite sumR_plus, !sumR_scal, Rmult_plus_distr_l, <- Rmult_assoc. f_equal; f_equal.
  - destruct (Nat.leb_spec d i0) as [L|L]; cbn [andb].
    + apply pick_ext. intros j Hj. f_equal. destruct (Nat.eqb_spec (d + j) i0), (Nat.eqb_spec j (i0 - d)); auto; lia.
    + apply sumR_0. intros j _. destruct (Nat.eqb_spec (d + j) i0); [lia|ring].
  - destruct (Nat.leb_spec (d + i0) M) as [L|L]; cbn [andb].
    + apply pick_ext. intros j Hj. f_equal. destruct (Nat.eqb_spec (d + j + i0) M), (Nat.eqb_spec j (M - d - i0)); auto; lia.
    + apply sumR_0. intros j _. destruct (Nat.eqb_spec (d + j + i0) M); [lia|ring].
Qed.
Lemma coef_first : (1 <= n)%nat -> c 1%nat * al 1 + c 0%nat * be 0 = 0.
Proof.
  intros Hn. pose proof (moment 1 ltac:(lia)) as E. pose proof N_pos as NP.
  pose proof (one_moment (fun j => c j * al j) 0 1 ltac:(lia) ltac:(lia)) as A. pose proof (one_moment (fun j => c j * be j) 1 1 ltac:(lia) ltac:(lia)) as B. pose proof (one_moment (fun j => c j * ga j) 2 1 ltac:(lia) ltac:(lia)) as G0.
  cbn [Nat.add] in A, B, G0. rewrite A, B, G0 in E. clear A B G0. unfold M in E.
  rewrite (proj2 (Nat.leb_le 0 1)), (proj2 (Nat.leb_le (1 - 0) n)), (proj2 (Nat.leb_le 1 (n + 2))), (proj2 (Nat.leb_gt (n + 2 - 0 - 1) n)), (proj2 (Nat.leb_le 1 1)), (proj2 (Nat.leb_le (1 - 1) n)), (proj2 (Nat.leb_le 2 (n + 2))), (proj2 (Nat.leb_le (n + 2 - 1 - 1) n)), (proj2 (Nat.leb_gt 2 1)), (proj2 (Nat.leb_le 3 (n + 2))), (proj2 (Nat.leb_le (n + 2 - 2 - 1) n)) in E by lia.
  cbn [andb] in E. replace (n + 2 - 1 - 1)%nat with (n - 0)%nat in E by lia. replace (n + 2 - 2 - 1)%nat with (n - 1)%nat in E by lia. cbn [Nat.sub] in E.
  replace (n - 0)%nat with (n - 0)%nat in E by auto. pose proof (Sym 0 ltac:(lia)) as S0. pose proof (Sym 1 ltac:(lia)) as S1. pose proof (be_mirror 0 ltac:(lia)) as B0. pose proof (ga_mirror 1 ltac:(lia)) as G1.
  rewrite S0, B0, S1, G1 in E. pose proof sg_sq as Q2. apply (Rmult_eq_reg_l (INR N)); [|lra]. rewrite Rmult_0_r, <- E.
  transitivity (INR N / 2 * (c 1%nat * al 1 + c 0%nat * be 0 + (sg m * sg m) * (c 0%nat * be 0 + c 1%nat * al 1))); [rewrite Q2; field|ring].
Qed.
Lemma coef_next s : (s + 2 <= n)%nat -> c (s + 2)%nat * al (s + 2) + c (s + 1)%nat * be (s + 1) + c s * ga s = 0.
Proof.
  intros Hn. pose proof (moment (s + 2) ltac:(lia)) as E. pose proof N_pos as NP.
  pose proof (one_moment (fun j => c j * al j) 0 (s + 2) ltac:(lia) ltac:(lia)) as A. pose proof (one_moment (fun j => c j * be j) 1 (s + 2) ltac:(lia) ltac:(lia)) as B. pose proof (one_moment (fun j => c j * ga j) 2 (s + 2) ltac:(lia) ltac:(lia)) as G0.
  assert (T : forall a b, (a <= b)%nat -> (a <=? b)%nat = true) by (intros; apply Nat.leb_le; auto).
  rewrite (T 0%nat), (T (s + 2 - 0)%nat), (T (0 + (s + 2))%nat), (T (M - 0 - (s + 2))%nat) in A by lia.
  rewrite (T 1%nat), (T (s + 2 - 1)%nat), (T (1 + (s + 2))%nat), (T (M - 1 - (s + 2))%nat) in B by lia.
  rewrite (T 2%nat), (T (s + 2 - 2)%nat), (T (2 + (s + 2))%nat), (T (M - 2 - (s + 2))%nat) in G0 by lia. cbn [andb] in A, B, G0.
  change (fun j => c j * al j * ip (0 + j) (s + 2)) with (fun j => c j * al j * ip j (s + 2)) in A.
  change (fun j => c j * be j * ip (1 + j) (s + 2)) with (fun j => c j * be j * ip (S j) (s + 2)) in B.
  change (fun j => c j * ga j * ip (2 + j) (s + 2)) with (fun j => c j * ga j * ip (S (S j)) (s + 2)) in G0.
  rewrite A, B, G0 in E. clear A B G0.
  replace (s + 2 - 0)%nat with (s + 2)%nat in E by lia. replace (s + 2 - 1)%nat with (s + 1)%nat in E by lia. replace (s + 2 - 2)%nat with s in E by lia.
  replace (M - 0 - (s + 2))%nat with (n - s)%nat in E by lia. replace (M - 1 - (s + 2))%nat with (n - (s + 1))%nat in E by lia. replace (M - 2 - (s + 2))%nat with (n - (s + 2))%nat in E by lia.
  rewrite !Sym, al_mirror, be_mirror, ga_mirror in E by lia. pose proof sg_sq as Q2. apply (Rmult_eq_reg_l (INR N)); [|lra]. rewrite Rmult_0_r, <- E.
  transitivity (INR N / 2 * (c (s + 2)%nat * al (s + 2) + c (s + 1)%nat * be (s + 1) + c s * ga s + (sg m * sg m) * (c s * ga s + c (s + 1)%nat * be (s + 1) + c (s + 2)%nat * al (s + 2)))); [rewrite Q2; field|ring].
Qed.
Lemma rec_first : (2 <= n)%nat -> cp_first (INR (n * (n + 1))) (INR (n * (n + 1)) - 2 * INR (m * m)) (INR n) (c 0%nat) = c 1%nat.
Proof.
  intros Hn. pose proof (coef_first ltac:(lia)) as E. unfold cp_first. rewrite mult_INR, plus_INR, mult_INR. assert (H2 : 2 <= INR n) by (change 2 with (INR 2); apply le_INR; auto).
  unfold al, be, N2, M2, wave in E. cbn [INR] in *. assert (NZ : (INR n - 2) * (INR n - 1) - INR n * (INR n + 1) <> 0) by nra.
  apply (Rmult_eq_reg_r ((INR n - 2) * (INR n - 1) - INR n * (INR n + 1))); auto. unfold Rdiv. rewrite Rmult_assoc, Rinv_l by auto.
  transitivity (2 * (INR n * INR n - (INR n * (INR n + 1) - 2 * (INR m * INR m))) * c 0%nat); [ring|]. lra.
Qed.
Lemma rec_next s : (2 * S s + 2 <= n)%nat ->
  cp_next (INR (n * (n + 1))) (INR (n * (n + 1)) - 2 * INR (m * m)) (INR n - 2 * INR (S s)) (c (S s)) (c s) = c (S (S s)).
Proof.
  intros Hn. pose proof (coef_next s ltac:(lia)) as E. replace (s + 2)%nat with (S (S s)) in E by lia. replace (s + 1)%nat with (S s) in E by lia. unfold cp_next. rewrite mult_INR, plus_INR, mult_INR.
  assert (H2 : INR (2 * S s + 2) <= INR n) by (apply le_INR; auto). rewrite plus_INR, mult_INR, (S_INR s) in H2. cbn [INR] in H2.
  unfold al, be, ga, N2, M2, wave in E. rewrite !S_INR in *. pose proof (pos_INR s). replace (INR 0 + 1) with 1 by (cbn [INR]; ring). set (x := INR n) in *. set (y := INR s) in *.
  assert (NZ : (x - 2 * (y + 1) - 2) * (x - 2 * (y + 1) - 1) - x * (x + 1) <> 0) by nra.
  assert (X : - (-2 * ((x - 2 * (y + 1)) * (x - 2 * (y + 1)) - (x * (x + 1) - 2 * (INR m * INR m))) * c (S s) + ((x - 2 * (y + 1) + 1) * (x - 2 * (y + 1) + 2) - x * (x + 1)) * c s) =
    c (S (S s)) * ((x - 2 * (y + 1) - 2) * (x - 2 * (y + 1) - 1) - x * (x + 1))) by lra.
  rewrite X. unfold Rdiv. rewrite Rmult_assoc, Rinv_r by auto. ring.
Qed.
End Coef.
