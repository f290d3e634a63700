(** P_n has n zeros between -1 and 1, placed symmetrically *)
From Coq Require Import Reals List Arith ZArith Lia Lra Bool.
From Verif Require Import RS_Spec RS_Dft LG_Spec LG_Proofs1 LG_Proofs2 LG_Proofs6 GQ_Spec GQ_Proofs1 GQ_Proofs2 GQ_Proofs4.
Import ListNotations.
Local Open Scope R_scope.

Fixpoint prodR (n : nat) (f : nat -> R) : R := match n with O => 1 | S k => prodR k f * f k end.
Lemma factor d : forall f (xs : nat -> R), poly d f -> (forall q, (q < d)%nat -> f (xs q) = 0) -> (forall p q, (p < q < d)%nat -> xs p <> xs q) ->
  exists c, forall x, f x = c * prodR d (fun q => x - xs q).
Proof.
  induction d; intros f xs P Z DI.
  - destruct P as [c F]. exists (c 0%nat). intros x. rewrite F. cbn. ring.
  - destruct (poly_divide (S d) f (xs d) P) as (g & PG & EG). rewrite (Z d) in EG by lia. replace (S d - 1)%nat with d in PG by lia.
    destruct (IHd g xs PG) as [c F]; [|intros; apply DI; lia|].
    + intros q Hq. pose proof (EG (xs q)) as E. rewrite Z in E by lia. pose proof (DI q d ltac:(lia)). assert (X : (xs q - xs d) * g (xs q) = 0) by lra. apply Rmult_integral in X. destruct X; auto. lra.
    + exists c. intros x. cbn [prodR]. pose proof (EG x) as E. rewrite F in E. lra.
Qed.
Lemma prod_sign y (xs : nat -> R) m n : (m <= n)%nat -> (forall q, (q < m)%nat -> xs q < y) -> (forall q, (m <= q < n)%nat -> y < xs q) ->
  0 < (-1) ^ (n - m) * prodR n (fun q => y - xs q).
Proof.
  intros Hm LO HI. induction n.
  - assert (m = 0)%nat as -> by lia. cbn. lra.
  - destruct (Nat.eq_dec m (S n)) as [->|N].
    + rewrite Nat.sub_diag. cbn [pow]. rewrite Rmult_1_l. clear IHn HI. assert (G : forall k, (k <= S n)%nat -> 0 < prodR k (fun q => y - xs q)); [|apply G; lia].
      induction k; intros Hk; cbn [prodR]; [lra|]. apply Rmult_lt_0_compat; [apply IHk; lia|]. pose proof (LO k ltac:(lia)). lra.
    + replace (S n - m)%nat with (S (n - m)) by lia. cbn [pow prodR]. pose proof (IHn ltac:(lia) ltac:(intros; apply HI; lia)) as IH. pose proof (HI n ltac:(lia)).
      replace (-1 * (-1) ^ (n - m) * (prodR n (fun q => y - xs q) * (y - xs n))) with ((-1) ^ (n - m) * prodR n (fun q => y - xs q) * (xs n - y)) by ring. apply Rmult_lt_0_compat; lra.
Qed.
Lemma finite_choice m (P : nat -> R -> Prop) : (forall q, (q < m)%nat -> exists y, P q y) -> exists f, forall q, (q < m)%nat -> P q (f q).
Proof.
  induction m; intros H; [exists (fun _ => 0); intros; lia|]. destruct IHm as [f F]; [auto|]. destruct (H m ltac:(lia)) as [y Y]. exists (fun q => if (q =? m)%nat then y else f q). intros q Hq. destruct (Nat.eqb_spec q m) as [->|]; auto. apply F. lia.
Qed.
Lemma leg_continuous n : continuity (leg n).
Proof. intros x. apply derivable_continuous_pt. exists (D 1 n x). apply (D_derive 0). Qed.
Lemma root_between n a b : a < b -> leg n a * leg n b < 0 -> exists z, a < z < b /\ leg n z = 0.
Proof.
  intros L S. destruct (IVT_cor (leg n) a b (leg_continuous n)) as (z & B & Z); [lra|lra|]. exists z. split; auto. split.
  - destruct (Req_dec z a) as [->|]; [rewrite Z in S; lra|lra].
  - destruct (Req_dec z b) as [->|]; [rewrite Z in S; lra|lra].
Qed.
Definition increasing (n : nat) (xs : nat -> R) : Prop := forall p q, (p < q < n)%nat -> xs p < xs q.
Lemma sign_flip a b k : 0 < (-1) ^ S k * a -> 0 < (-1) ^ k * b -> a * b < 0.
Proof.
  intros A B. cbn [pow] in A. pose proof (Rmult_lt_0_compat _ _ A B) as P. replace (-1 * (-1) ^ k * a * ((-1) ^ k * b)) with ((-1) ^ k * (-1) ^ k * - (a * b)) in P by ring. rewrite sign_sq in P. lra.
Qed.
(** zeros of P_{n+1}, with the sign of P_n at each *)
Lemma zeros n : exists xs, increasing (S n) xs /\ (forall q, (q <= n)%nat -> -1 < xs q < 1 /\ leg (S n) (xs q) = 0 /\ 0 < (-1) ^ (n - q) * leg n (xs q)).
Proof.
  induction n as [|n (xs & INC & Z)].
  - exists (fun _ => 0). split; [intros p q H; lia|]. intros q Hq. assert (q = 0)%nat as -> by lia. rewrite leg_1, leg_0. cbn. lra.
  - set (N := S n) in *. set (e := fun j => match j with O => -1 | S q => if (q <? N)%nat then xs q else 1 end).
    assert (EI : forall j, (j <= N)%nat -> e j < e (S j)).
    { intros j Hj. unfold e. destruct j as [|j].
      - destruct (Nat.ltb_spec 0 N); [|lra]. apply Z. lia.
      - destruct (Nat.ltb_spec j N); [|lia]. destruct (Nat.ltb_spec (S j) N); [apply INC; lia|]. apply Z. lia. }
    assert (ES : forall j, (j <= S N)%nat -> 0 < (-1) ^ (S N - j) * leg (S N) (e j)).
    { intros j Hj. destruct j as [|q]; [unfold e; rewrite leg_minus_one, Nat.sub_0_r, sign_sq; lra|]. unfold e. destruct (Nat.ltb_spec q N).
      - destruct (Z q ltac:(lia)) as (_ & Z0 & SG). pose proof (leg_SS n (xs q)) as E. unfold N in Z0. rewrite Z0 in E. pose proof (pos_INR n). replace (S N - S q)%nat with (S (n - q)) by lia.
        assert (LE : leg (S N) (xs q) = - ((INR n + 1) / (INR n + 2)) * leg n (xs q)) by (apply (Rmult_eq_reg_l (INR n + 2)); [unfold N; rewrite E; field; lra|lra]). rewrite LE. cbn [pow].
        replace (-1 * (-1) ^ (n - q) * (- ((INR n + 1) / (INR n + 2)) * leg n (xs q))) with ((INR n + 1) / (INR n + 2) * ((-1) ^ (n - q) * leg n (xs q))) by (field; lra). apply Rmult_lt_0_compat; auto. apply Rdiv_lt_0_compat; lra.
      - assert (q = N) as -> by lia. rewrite Nat.sub_diag, leg_one. cbn. lra. }
    destruct (finite_choice (S N) (fun q y => e q < y < e (S q) /\ leg (S N) y = 0)) as [ys Y].
    { intros q Hq. apply root_between; [apply EI; lia|]. apply sign_flip with (S N - S q)%nat; [|apply ES; lia]. replace (S (S N - S q)) with (S N - q)%nat by lia. apply ES. lia. }
    assert (EM : forall a b, (a <= b <= S N)%nat -> e a <= e b).
    { intros a b Hab. assert (exists d, b = a + d)%nat as [d ->] by (exists (b - a)%nat; lia). induction d; [rewrite Nat.add_0_r; lra|]. replace (a + S d)%nat with (S (a + d)) by lia. pose proof (EI (a + d)%nat ltac:(lia)). pose proof (IHd ltac:(lia)). lra. }
    exists ys. split.
    + intros p q Hpq. destruct (Y p ltac:(lia)) as [A _]. destruct (Y q ltac:(lia)) as [B _]. pose proof (EM (S p) q ltac:(lia)). lra.
    + intros q Hq. destruct (Y q ltac:(lia)) as [A Y0]. split; [|split; auto].
      * pose proof (EM 0%nat q ltac:(lia)) as E0. pose proof (EM (S q) (S N) ltac:(lia)) as E1. change (e 0%nat) with (-1) in E0. assert (EE : e (S N) = 1) by (unfold e; rewrite Nat.ltb_irrefl; auto). rewrite EE in E1. lra.
      * destruct (factor N (leg N) xs) as [c F]; [apply poly_leg|intros p Hp; apply Z; lia|intros p p' Hp; pose proof (INC p p' Hp); lra|].
        assert (XE : forall i, (i < N)%nat -> e (S i) = xs i) by (intros i Hi; unfold e; destruct (Nat.ltb_spec i N); [auto|lia]).
        assert (C0 : 0 < c).
        { pose proof (F 1) as F1. rewrite leg_one in F1. pose proof (prod_sign 1 xs N N ltac:(lia) ltac:(intros i Hi; apply Z; lia) ltac:(intros; lia)) as P. rewrite Nat.sub_diag in P. cbn [pow] in P. rewrite Rmult_1_l in P. destruct (Rtotal_order c 0) as [C1|[C1|C1]]; auto; nra. }
        rewrite F. pose proof (prod_sign (ys q) xs q N ltac:(lia)) as P.
        assert (0 < (-1) ^ (N - q) * prodR N (fun i => ys q - xs i)).
        { apply P. - intros i Hi. rewrite <- XE by lia. pose proof (EM (S i) q ltac:(lia)). lra. - intros i Hi. rewrite <- XE by lia. pose proof (EM (S q) (S i) ltac:(lia)). lra. }
        replace ((-1) ^ (N - q) * (c * prodR N (fun i => ys q - xs i))) with (c * ((-1) ^ (N - q) * prodR N (fun i => ys q - xs i))) by ring. apply Rmult_lt_0_compat; auto.
Qed.
Lemma no_more n xs : increasing n xs -> (forall q, (q < n)%nat -> leg n (xs q) = 0) -> forall y, leg n y = 0 -> exists q, (q < n)%nat /\ y = xs q.
Proof.
  intros INC Z y Y. destruct (factor n (leg n) xs (poly_leg n) Z) as [c F]; [intros p q H; pose proof (INC p q H); lra|].
  assert (C0 : c <> 0) by (intros ->; pose proof (F 1) as F1; rewrite leg_one in F1; lra). rewrite F in Y. apply Rmult_integral in Y. destruct Y as [|Y]; [contradiction|]. clear -Y. induction n; cbn [prodR] in Y; [lra|]. apply Rmult_integral in Y. destruct Y as [Y|Y].
  - destruct (IHn Y) as (q & A & B). exists q. split; [lia|auto].
  - exists n. split; [lia|lra].
Qed.
Lemma same_order n xs ys : increasing n xs -> increasing n ys -> (forall q, (q < n)%nat -> exists j, (j < n)%nat /\ ys q = xs j) -> forall q, (q < n)%nat -> ys q = xs q.
Proof.
  intros IX IY H. assert (CH : exists j : nat -> nat, forall q, (q < n)%nat -> (j q < n)%nat /\ ys q = xs (j q)).
  { assert (G : forall m, (m <= n)%nat -> exists j : nat -> nat, forall q, (q < m)%nat -> (j q < n)%nat /\ ys q = xs (j q)); [|apply G; auto]. induction m; intros Hm; [exists (fun _ => 0%nat); intros; lia|]. destruct IHm as [j J]; [lia|]. destruct (H m ltac:(lia)) as (k & K1 & K2). exists (fun q => if (q =? m)%nat then k else j q). intros q Hq. destruct (Nat.eqb_spec q m) as [->|]; auto. apply J. lia. }
  destruct CH as [j J]. assert (JI : forall p q, (p < q < n)%nat -> (j p < j q)%nat).
  { intros p q Hpq. destruct (J p ltac:(lia)) as [A1 A2]. destruct (J q ltac:(lia)) as [B1 B2]. pose proof (IY p q Hpq) as L. rewrite A2, B2 in L. destruct (lt_eq_lt_dec (j p) (j q)) as [[G|G]|G]; auto; [rewrite G in L; lra|]. pose proof (IX (j q) (j p) ltac:(lia)). lra. }
  assert (LO : forall q, (q < n)%nat -> (q <= j q)%nat).
  { induction q; intros Hq; [lia|]. pose proof (JI q (S q) ltac:(lia)). pose proof (IHq ltac:(lia)). lia. }
  assert (HI : forall d q, (q < n)%nat -> (d = n - 1 - q)%nat -> (j q <= q)%nat).
  { induction d; intros q Hq E; [destruct (J q Hq); lia|]. pose proof (IHd (S q) ltac:(lia) ltac:(lia)). pose proof (JI q (S q) ltac:(lia)). lia. }
  intros q Hq. destruct (J q Hq) as [_ ->]. f_equal. pose proof (LO q Hq). pose proof (HI _ q Hq eq_refl). lia.
Qed.
(** north to south, the colatitudes of the zeros *)
Theorem zeros_exist n : exists z : nat -> R,
  (forall i, (1 <= i <= n)%nat -> 0 < z i < PI /\ leg n (cos (z i)) = 0) /\
  (forall i j, (1 <= i < j)%nat -> (j <= n)%nat -> z i < z j) /\ symmetric_colatitudes n z /\
  (forall t, 0 <= t <= PI -> leg n (cos t) = 0 -> exists i, (1 <= i <= n)%nat /\ t = z i).
Proof.
  destruct n as [|n].
  - exists (fun _ => 0). repeat split; try (intros; lia); [intros i Hi; lia|]. intros t _ H. rewrite leg_0 in H. lra.
  - destruct (zeros n) as (xs & INC & Z). set (N := S n) in *.
    assert (SY : forall q, (q < N)%nat -> - xs (N - 1 - q)%nat = xs q).
    { apply (same_order N xs (fun q => - xs (N - 1 - q)%nat)); auto.
      - intros p q H. pose proof (INC (N - 1 - q)%nat (N - 1 - p)%nat ltac:(lia)). lra.
      - intros q Hq. apply (no_more N xs INC); [intros p Hp; apply Z; lia|]. rewrite leg_opp. destruct (Z (N - 1 - q)%nat ltac:(lia)) as (_ & -> & _). ring. }
    exists (fun i => acos (xs (N - i)%nat)). split; [|split; [|split]].
    + intros i Hi. destruct (Z (N - i)%nat ltac:(lia)) as (A & B & _). split; [apply acos_bound_lt; auto|rewrite cos_acos by lra; auto].
    + intros i j Hij Hj. destruct (Z (N - i)%nat ltac:(lia)) as (A & _). destruct (Z (N - j)%nat ltac:(lia)) as (B & _). pose proof (INC (N - j)%nat (N - i)%nat ltac:(lia)).
      pose proof (acos_bound (xs (N - i)%nat)). pose proof (acos_bound (xs (N - j)%nat)). apply cos_decreasing_0; try lra. rewrite !cos_acos by lra. auto.
    + intros i Hi. rewrite <- acos_opp. f_equal. pose proof (SY (i - 1)%nat ltac:(lia)) as E. replace (N - 1 - (i - 1))%nat with (N - i)%nat in E by lia. rewrite E. f_equal. lia.
    + intros t Ht H0. destruct (no_more N xs INC ltac:(intros p Hp; apply Z; lia) (cos t) H0) as (q & Hq & E). exists (N - q)%nat. split; [lia|]. replace (N - (N - q))%nat with q by lia. rewrite <- E, acos_cos by lra. auto.
Qed.
