(** Identities of the derivatives of the Legendre polynomials. *)
From Coq Require Import Reals List Arith Lia Lra.
From Verif Require Import RS_Spec RS_Dft LG_Spec.
Import ListNotations.
Local Open Scope R_scope.

Ltac ir := rewrite ?S_INR, ?plus_INR, ?mult_INR; cbn [INR].
Lemma two_step (P : nat -> Prop) : P 0%nat -> P 1%nat -> (forall n, P n -> P (S n) -> P (S (S n))) -> forall n, P n.
Proof. intros H0 H1 HS n. assert (P n /\ P (S n)) as [X _]; auto. induction n; [auto|]. destruct IHn. auto. Qed.

Lemma leg_0 x : leg 0 x = 1. Proof. reflexivity. Qed.
Lemma leg_1 x : leg 1 x = x. Proof. reflexivity. Qed.
Lemma leg_SS n x : (INR n + 2) * leg (S (S n)) x = (2 * INR n + 3) * x * leg (S n) x - (INR n + 1) * leg n x.
Proof.
  assert (E : forall n, leg_pair n x = (leg n x, leg (S n) x)).
  { intros k. unfold leg. cbn [leg_pair]. destruct (leg_pair k x). reflexivity. }
  unfold leg at 1. cbn [leg_pair]. rewrite (E n). cbn [fst]. pose proof (pos_INR n). field. lra.
Qed.
Lemma D_0 n x : D 0 n x = leg n x. Proof. reflexivity. Qed.
Lemma D_S0 m x : D (S m) 0 x = 0. Proof. reflexivity. Qed.
Lemma D_S1 m x : D (S m) 1 x = D m 0 x. Proof. reflexivity. Qed.
Lemma D_SS m n x : D (S m) (S (S n)) x = D (S m) n x + (2 * INR n + 3) * D m (S n) x.
Proof. reflexivity. Qed.
Lemma D_zero m : forall n x, (n < m)%nat -> D m n x = 0.
Proof.
  induction m; [lia|]. intros n x. pattern n. apply two_step; clear n.
  - auto.
  - intros H. rewrite D_S1. apply IHm. lia.
  - intros n H0 H1 H. rewrite D_SS, H0, IHm by lia. lra.
Qed.

(** x times a derivative *)
Lemma D_x m : forall n x, (2 * INR n + 3) * x * D m (S n) x = (INR n + 1 + INR m) * D m n x + (INR n + 2 - INR m) * D m (S (S n)) x.
Proof.
  induction m; intros n x.
  - cbn [INR]. change (D 0) with leg. pose proof (leg_SS n x). lra.
  - pattern n. apply two_step; clear n.
    + rewrite D_S1, D_SS, D_S0. rewrite (S_INR m). change (INR 0) with 0. destruct m as [|[|m]].
      * change (D 0) with leg. rewrite leg_0, leg_1. cbn [INR]. lra.
      * rewrite D_S0, D_S1. cbn [INR]. lra.
      * rewrite D_S0, (D_zero (S (S m)) 1) by lia. lra.
    + pose proof (IHm 0%nat x) as H. cbn [INR] in H. rewrite (D_SS m 0), (D_SS m 1), D_S0, D_S1. rewrite (S_INR m). change (INR 1) with 1. change (INR 0) with 0.
      assert (Z : INR m * D m 0 x = 0) by (destruct m; [cbn [INR]; lra|rewrite D_S0; lra]).
      transitivity (5 * ((2 * 0 + 3) * x * D m 1 x)); [ring|]. rewrite H.
      transitivity (5 * D m 0 x + 5 * (INR m * D m 0 x) + 5 * (2 - INR m) * D m 2 x); [ring|]. rewrite Z. ring.
    + intros n H _. pose proof (IHm (S n) x) as H1. rewrite (D_SS m (S (S n))). rewrite (D_SS m (S n)).
      pose proof (D_SS m n x) as H2. rewrite ?S_INR in *. pose proof (pos_INR n) as Hn.
      set (a := D (S m) n x) in *. set (b := D (S m) (S (S n)) x) in *. set (e := D m (S n) x) in *. set (f := D m (S (S n)) x) in *. set (g := D m (S (S (S n))) x) in *.
      set (h := D (S m) (S n) x) in *.
      assert (X : x * h = ((INR n + 1 + (INR m + 1)) * a + (INR n + 2 - (INR m + 1)) * b) / (2 * INR n + 3)) by (apply (Rmult_eq_reg_l (2 * INR n + 3)); [|lra]; rewrite <- H at 1; field_simplify; [|lra]; lra).
      assert (Y : x * f * (2 * INR n + 5) = (INR n + 2 + INR m) * e + (INR n + 3 - INR m) * g) by lra.
      assert (Z : e = (b - a) / (2 * INR n + 3)) by (rewrite H2; field; lra).
      transitivity ((2 * INR n + 7) * (x * h + x * f * (2 * INR n + 5))); [ring|].
      rewrite X, Y. transitivity ((2 * INR n + 7) * (b + (INR n + 3 - INR m) * g)); [|ring].
      f_equal. rewrite Z. field. lra.
Qed.

(** (1 - x^2) times a derivative *)
Lemma D_s m : forall n x, (2 * INR n + 3) * (1 - x * x) * D (S m) (S n) x =
  (INR n + 2 + INR m) * (INR n + 1 + INR m) * D m n x - (INR n + 1 - INR m) * (INR n + 2 - INR m) * D m (S (S n)) x.
Proof.
  intros n x. pattern n. apply two_step; clear n.
  - rewrite D_S1. change (INR 0) with 0. destruct m as [|[|[|m]]].
    + change (D 0) with leg. pose proof (leg_SS 0 x) as H. rewrite leg_0, leg_1 in *. cbn [INR] in *. assert (leg 2 x = (3 * x * x - 1) / 2) by lra. rewrite H0. field.
    + rewrite D_S0. cbn [INR]. ring.
    + rewrite D_S0. cbn [INR]. ring.
    + rewrite (D_zero (S (S (S m))) 2) by lia. rewrite D_S0. ring.
  - rewrite D_SS, D_S0. change (INR 1) with 1. change (INR 0) with 0. pose proof (leg_SS 0 x) as H. pose proof (leg_SS 1 x) as H1. rewrite leg_0, leg_1 in *. cbn [INR] in *. assert (E : leg 2 x = (3 * x * x - 1) / 2) by lra. rewrite E in H1. assert (E3 : leg 3 x = ((2 * 1 + 3) * x * ((3 * x * x - 1) / 2) - (1 + 1) * x) / 3) by lra.
    destruct m as [|[|[|[|m]]]].
    + change (D 0) with leg. rewrite leg_1, E3. cbn [INR]. field.
    + rewrite D_SS, !D_S1. change (D 0) with leg. rewrite E, leg_0. cbn [INR]. field.
    + rewrite D_S1, D_S0. cbn [INR]. ring.
    + rewrite D_S1, D_S0. cbn [INR]. ring.
    + rewrite (D_zero (S (S (S (S m)))) 3), (D_zero (S (S (S (S m)))) 1) by lia. ring.
  - intros n H _. pose proof (D_x m n x) as X0. pose proof (D_x m (S n) x) as X1. pose proof (D_x m (S (S n)) x) as X2.
    rewrite (D_SS m (S n)). rewrite ?S_INR in *. pose proof (pos_INR n) as Hn.
    set (a := D m n x) in *. set (b := D m (S n) x) in *. set (c := D m (S (S n)) x) in *. set (d := D m (S (S (S n))) x) in *. set (e := D m (S (S (S (S n)))) x) in *.
    set (h := D (S m) (S n) x) in *.
    assert (XB : x * b = ((INR n + 1 + INR m) * a + (INR n + 2 - INR m) * c) / (2 * INR n + 3)) by (apply (Rmult_eq_reg_l (2 * INR n + 3)); [|lra]; field_simplify; [|lra]; lra).
    assert (XD : x * d = ((INR n + 3 + INR m) * c + (INR n + 4 - INR m) * e) / (2 * INR n + 7)) by (apply (Rmult_eq_reg_l (2 * INR n + 7)); [|lra]; field_simplify; [|lra]; lra).
    assert (XC : (2 * INR n + 5) * (x * c) = (INR n + 2 + INR m) * b + (INR n + 3 - INR m) * d) by lra.
    assert (XXC : (2 * INR n + 5) * (x * x * c) = (INR n + 2 + INR m) * (x * b) + (INR n + 3 - INR m) * (x * d)) by (transitivity (x * ((2 * INR n + 5) * (x * c))); [ring|rewrite XC; ring]).
    rewrite XB, XD in XXC.
    assert (H' : (1 - x * x) * h = ((INR n + 2 + INR m) * (INR n + 1 + INR m) * a - (INR n + 1 - INR m) * (INR n + 2 - INR m) * c) / (2 * INR n + 3)) by (apply (Rmult_eq_reg_l (2 * INR n + 3)); [|lra]; field_simplify; [|lra]; lra).
    transitivity ((2 * INR n + 7) * ((1 - x * x) * h + (2 * INR n + 5) * c - (2 * INR n + 5) * (x * x * c))); [ring|].
    rewrite H', XXC. field. lra.
Qed.

(** Legendre's equation, differentiated m - 1 times *)
Lemma D_ode m n x : (1 - x * x) * D (S (S m)) n x - 2 * (INR m + 1) * x * D (S m) n x = - ((INR n - INR m) * (INR n + INR m + 1)) * D m n x.
Proof.
  destruct n as [|n].
  - rewrite !D_S0. destruct m; [cbn [INR]; ring|]. rewrite D_S0. ring.
  - pose proof (D_s (S m) n x) as H1. pose proof (D_x (S m) n x) as H2. pose proof (D_SS m n x) as H3. rewrite ?S_INR in *. pose proof (pos_INR n).
    apply (Rmult_eq_reg_l (2 * INR n + 3)); [|lra].
    transitivity ((2 * INR n + 3) * (1 - x * x) * D (S (S m)) (S n) x - 2 * (INR m + 1) * ((2 * INR n + 3) * x * D (S m) (S n) x)); [ring|].
    rewrite H1, H2. rewrite H3. ring.
Qed.

(** D (m+1) n is the derivative of D m n *)
Lemma D_derive m : forall n x, derivable_pt_lim (D m n) x (D (S m) n x).
Proof.
  assert (EXT : forall f g x l, (forall y, f y = g y) -> derivable_pt_lim f x l -> derivable_pt_lim g x l).
  { intros f g x l E H eps He. destruct (H eps He) as [dl Hd]. exists dl. intros h Hh Hl. rewrite <- !E. auto. }
  induction m; intros n x; pattern n; apply two_step; clear n.
  - apply (EXT (fct_cte 1)); [reflexivity|]. rewrite D_S0. apply derivable_pt_lim_const.
  - apply (EXT id); [reflexivity|]. rewrite D_S1. change (D 0) with leg. rewrite leg_0. apply derivable_pt_lim_id.
  - intros n H0 H1. pose proof (pos_INR n).
    apply (EXT (fun y => (((2 * INR n + 3) / (INR n + 2)) * (y * D 0 (S n) y) + (- (INR n + 1) / (INR n + 2)) * D 0 n y))).
    { intros y. change (D 0) with leg. pose proof (leg_SS n y). apply (Rmult_eq_reg_l (INR n + 2)); [|lra]. rewrite H2. field. lra. }
    replace (D 1 (S (S n)) x) with ((2 * INR n + 3) / (INR n + 2) * (1 * D 0 (S n) x + x * D 1 (S n) x) + - (INR n + 1) / (INR n + 2) * D 1 n x).
    + apply (derivable_pt_lim_plus (fun y => (2 * INR n + 3) / (INR n + 2) * (y * D 0 (S n) y)) (fun y => - (INR n + 1) / (INR n + 2) * D 0 n y)).
      * apply (derivable_pt_lim_scal (fun y => y * D 0 (S n) y)). apply (derivable_pt_lim_mult id (D 0 (S n))); [apply derivable_pt_lim_id|exact H1].
      * apply (derivable_pt_lim_scal (D 0 n)). exact H0.
    + pose proof (D_x 1 n x) as X. pose proof (D_SS 0 n x) as Y. cbn [INR] in X.
      apply (Rmult_eq_reg_l (INR n + 2)); [|lra].
      transitivity ((2 * INR n + 3) * D 0 (S n) x + (2 * INR n + 3) * x * D 1 (S n) x - (INR n + 1) * D 1 n x); [field; lra|]. rewrite X, Y. ring.
  - apply (EXT (fct_cte 0)); [reflexivity|]. rewrite D_S0. apply derivable_pt_lim_const.
  - apply (EXT (D m 0)); [reflexivity|]. rewrite D_S1. apply IHm.
  - intros n H0 _. apply (EXT (fun y => D (S m) n y + (2 * INR n + 3) * D m (S n) y)); [intros; rewrite D_SS; auto|]. rewrite D_SS.
    apply (derivable_pt_lim_plus (D (S m) n) (fun y => (2 * INR n + 3) * D m (S n) y)); [exact H0|]. apply (derivable_pt_lim_scal (D m (S n))). apply IHm.
Qed.

(** parity, values at the ends *)
Lemma D_parity m : forall n x, D m n (- x) = (-1) ^ (n + m) * D m n x.
Proof.
  induction m; intros n x; pattern n; apply two_step; clear n.
  - change (D 0) with leg. rewrite !leg_0. cbn. ring.
  - change (D 0) with leg. rewrite !leg_1. cbn. ring.
  - intros n H0 H1. change (D 0) with leg in *. pose proof (leg_SS n x) as A. pose proof (leg_SS n (- x)) as B. pose proof (pos_INR n). rewrite H0, H1 in B.
    replace (S n + 0)%nat with (S n) in B by lia. replace (n + 0)%nat with n in B by lia. replace (S (S n) + 0)%nat with (S (S n)) by lia. cbn [pow] in *.
    apply (Rmult_eq_reg_l (INR n + 2)); [|lra]. rewrite B. transitivity ((-1) ^ n * ((INR n + 2) * leg (S (S n)) x)); [rewrite A; ring|ring].
  - rewrite !D_S0. ring.
  - rewrite !D_S1, IHm. cbn [Nat.add]. replace (0 + m)%nat with m by lia. cbn [pow]. ring.
  - intros n H0 _. rewrite !D_SS, H0, IHm. replace (S n + m)%nat with (S (n + m)) by lia. replace (S (S n) + S m)%nat with (S (S (S (n + m)))) by lia. replace (n + S m)%nat with (S (n + m)) by lia. cbn [pow]. ring.
Qed.
Lemma leg_one n : leg n 1 = 1.
Proof.
  apply two_step with (n := n); [reflexivity|reflexivity|]. intros k H0 H1. pose proof (leg_SS k 1) as A. rewrite H0, H1 in A. pose proof (pos_INR k).
  apply (Rmult_eq_reg_l (INR k + 2)); [|lra]. rewrite A. ring.
Qed.
