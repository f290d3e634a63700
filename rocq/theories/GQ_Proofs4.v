(** Exact zeros give an exact quadrature *)
From Coq Require Import Reals List Arith ZArith Lia Lra Bool.
From Verif Require Import Base Buffer VH_Model RS_Spec RS_Dft GS_Proofs1 LG_Spec LG_Proofs1 LG_Proofs2 LG_Proofs4 LG_Proofs5 LG_Proofs6 GQ_Spec GQ_Model GQ_Proofs1 GQ_Proofs2 GQ_Proofs3.
Import ListNotations.
Local Open Scope R_scope.

Lemma le_quot a b c : 0 < b -> c * b <= a -> c <= a / b.
Proof. intros B H. apply (Rmult_le_reg_r b); auto. replace (a / b * b) with a by (field; lra). auto. Qed.
Lemma lead_le n : lead n <= 1.
Proof.
  rewrite lead_g. induction n; cbn [g]; [lra|]. pose proof (g_pos n). pose proof (pos_INR n). assert ((2 * INR n + 1) / (2 * INR n + 2) <= 1) by (apply (Rmult_le_reg_r (2 * INR n + 2)); [lra|]; unfold Rdiv; rewrite Rmult_assoc, Rinv_l by lra; lra).
  apply Rle_trans with (g n * 1); [apply Rmult_le_compat_l; lra|lra].
Qed.
Lemma lead_low n : (1 <= n)%nat -> 1 <= 4 * INR n * (lead n * lead n).
Proof.
  rewrite lead_g. induction n as [|n IH]; intros H; [lia|]. destruct n as [|n]; [cbn; lra|]. specialize (IH ltac:(lia)). set (m := S n) in *. cbn [g]. pose proof (g_pos m). rewrite S_INR. assert (1 <= INR m) by (apply (le_INR 1); lia). set (x := INR m) in *.
  replace (4 * (x + 1) * (g m * ((2 * x + 1) / (2 * x + 2)) * (g m * ((2 * x + 1) / (2 * x + 2))))) with (4 * x * (g m * g m) * ((2 * x + 1) * (2 * x + 1) / (4 * x * (x + 1)))) by (field; lra).
  assert (1 <= (2 * x + 1) * (2 * x + 1) / (4 * x * (x + 1))).
  { apply le_quot; nra. }
  set (a := 4 * x * (g m * g m)) in *. set (b := (2 * x + 1) * (2 * x + 1) / (4 * x * (x + 1))) in *. clearbody a b. nra.
Qed.
Lemma leg_opp n x : leg n (- x) = (-1) ^ n * leg n x.
Proof. pose proof (D_parity 0 n x) as P. change (D 0) with leg in P. rewrite Nat.add_0_r in P. auto. Qed.
Lemma sign_sq k : (-1) ^ k * (-1) ^ k = 1.
Proof. rewrite <- Rpow_mult_distr. replace (-1 * -1) with 1 by ring. apply pow1. Qed.
Lemma ker_opp n x : ker n (- x) (- x) = ker n x x.
Proof. unfold ker. apply sumR_ext. intros k _. rewrite leg_opp. replace ((-1) ^ k * leg k x * ((-1) ^ k * leg k x)) with ((-1) ^ k * (-1) ^ k * (leg k x * leg k x)) by ring. rewrite sign_sq. ring. Qed.
Lemma value_zero n t : value n t = 0 <-> leg n (cos t) = 0.
Proof. unfold value. pose proof (lead_pos n). split; intros H0; [|rewrite H0; unfold Rdiv; ring]. apply (Rmult_eq_reg_r (/ (2 * lead n))); [rewrite Rmult_0_l; exact H0|apply Rinv_neq_0_compat; lra]. Qed.
Lemma sin_sq t : sin t * sin t = 1 - cos t * cos t.
Proof. pose proof (sin2_cos2 t) as H. unfold Rsqr in H. lra. Qed.
Lemma slope_sq n t : (1 <= n)%nat -> value n t = 0 -> Rsqr (slope n t) = ker n (cos t) (cos t) / (4 * (lead n * lead n)).
Proof.
  intros Hn Z. apply value_zero in Z. rewrite (ker_root n (cos t) Hn Z), <- sin_sq. unfold slope, Rsqr. pose proof (lead_pos n). field. lra.
Qed.
(** the derivative is far from zero at a zero *)
Lemma slope_big n t : (1 <= n)%nat -> value n t = 0 -> 1 / 2 <= Rabs (slope n t).
Proof.
  intros Hn Z. pose proof (slope_sq n t Hn Z) as S. pose proof (ker_pos n (cos t) Hn). pose proof (lead_pos n). pose proof (lead_le n).
  assert (1 / 4 <= Rsqr (slope n t)).
  { rewrite S. apply le_quot; nra. }
  replace (1 / 2) with (Rabs (1 / 2)) by (apply Rabs_right; lra). apply Rsqr_le_abs_0. unfold Rsqr in *. lra.
Qed.
Lemma small_lt : small < 1 / 2. Proof. unfold small. lra. Qed.
(** an exact zero stays where it is *)
Lemma step_zero n eps cmax t : (1 <= n)%nat -> 0 < cmax -> value n t = 0 -> step n eps cmax t = t.
Proof.
  intros Hn Hc Z. unfold step. pose proof (slope_big n t Hn Z). pose proof small_lt. destruct (Rlt_dec (Rabs (slope n t)) small); [lra|]. rewrite Z. unfold Rdiv. rewrite Rmult_0_l. unfold Rmin, Rmax. destruct (Rle_dec 0 cmax); [|lra]. destruct (Rle_dec (- cmax) 0); lra.
Qed.
Lemma raw_zero n t : value n t = 0 -> raw n t = (2 * INR n + 1) / Rsqr (slope n t).
Proof. intros Z. unfold raw. rewrite Z, Rmult_0_l, Rplus_0_r. destruct (Rlt_dec _ _); auto. Qed.

Definition kappa (n : nat) : R := (2 * INR n + 1) * 2 * (lead n * lead n).
Lemma kappa_ge n : (1 <= n)%nat -> 1 <= kappa n.
Proof. intros Hn. pose proof (lead_low n Hn). pose proof (lead_pos n). unfold kappa. nra. Qed.
Lemma raw_gw n t : (1 <= n)%nat -> value n t = 0 -> (2 * INR n + 1) / Rsqr (slope n t) = kappa n * (2 / ker n (cos t) (cos t)).
Proof.
  intros Hn Z. rewrite slope_sq by auto. unfold kappa. pose proof (ker_pos n (cos t) Hn). pose proof (lead_pos n). field. split; lra.
Qed.
Lemma cos_distinct a b : 0 <= a <= PI -> 0 <= b <= PI -> a < b -> cos a <> cos b.
Proof. intros A B L E. pose proof (cos_decreasing_1 a b). lra. Qed.

(** the finished rule at exact zeros *)
Theorem exact_rule n (th wt w : nat -> R) : (1 <= n)%nat -> INR n <= 2 ^ 53 ->
  (forall i, (1 <= i <= n)%nat -> 0 < th i < PI) -> (forall i j, (1 <= i < j)%nat -> (j <= n)%nat -> th i <> th j) ->
  (forall i, (1 <= i <= n)%nat -> value n (th i) = 0) -> (forall i, (1 <= i <= n)%nat -> w i = (2 * INR n + 1) / Rsqr (slope n (th i))) ->
  (let s := sumR n (fun q => w (S q)) in forall i, (1 <= i <= n)%nat -> wt i = 2 * w i / (if Rlt_dec (Rabs s) (INR n / 2 ^ 52) then 2 else s)) ->
  forall k, (k < 2 * n)%nat -> sumR n (fun q => wt (S q) * cos (th (S q)) ^ k) = moment k.
Proof.
  intros Hn HB IN DI Z W WT k Hk. set (xs := fun q => cos (th (S q))).
  assert (HZ : forall q, (q < n)%nat -> leg n (xs q) = 0) by (intros q Hq; apply value_zero; apply Z; lia).
  assert (HD : forall p q, (p < q < n)%nat -> xs p <> xs q).
  { intros p q Hpq. unfold xs. pose proof (IN (S p) ltac:(lia)). pose proof (IN (S q) ltac:(lia)). pose proof (DI (S p) (S q) ltac:(lia) ltac:(lia)).
    destruct (Rtotal_order (th (S p)) (th (S q))) as [L|[L|L]]; [apply cos_distinct; lra|lra|]. intros E. symmetry in E. revert E. apply cos_distinct; lra. }
  assert (WG : forall q, (q < n)%nat -> w (S q) = kappa n * gw n xs q) by (intros q Hq; rewrite W by lia; rewrite raw_gw; [reflexivity|auto|apply Z; lia]).
  pose proof (gauss_exact n xs Hn HZ HD) as GE. unfold quad in GE.
  assert (S2 : sumR n (fun q => w (S q)) = 2 * kappa n).
  { rewrite (sumR_ext _ (fun q => w (S q)) (fun q => kappa n * (gw n xs q * xs q ^ 0))) by (intros q Hq; rewrite WG by auto; cbn [pow]; ring). rewrite sumR_scal, GE by lia. unfold moment. cbn. field. }
  pose proof (kappa_ge n Hn) as KG. cbv zeta in WT. rewrite S2 in WT.
  rewrite <- GE by auto. apply sumR_ext. intros q Hq. fold (xs q). f_equal. rewrite WT by lia. destruct (Rlt_dec (Rabs (2 * kappa n)) (INR n / 2 ^ 52)) as [L|_].
  - rewrite Rabs_right in L by lra. assert (INR n / 2 ^ 52 <= 2); [|lra]. apply (Rmult_le_reg_r (2 ^ 52)); [apply pow_lt; lra|]. unfold Rdiv. rewrite Rmult_assoc, Rinv_l by (apply pow_nonzero; lra). lra.
  - rewrite WG by auto. field. lra.
Qed.

(** what follows the loop, when the loop has left exact zeros *)
Theorem finish_exact nlat cz theta wts : (3 <= nlat)%nat -> INR nlat <= 2 ^ 53 -> length theta = nlat -> length wts = nlat -> held nlat (nlat / 2) (dcpv nlat) 1 wts ->
  (forall p, (p < nlat / 2)%nat -> 0 < nth p theta 0 < PI / 2 /\ value nlat (nth p theta 0) = 0 /\ nth p wts 0 = raw nlat (nth p theta 0)) ->
  (forall p q, (p < q < nlat / 2)%nat -> nth p theta 0 <> nth q theta 0) ->
  exists th wt, finish nlat cz theta wts = Some (th, wt) /\ length th = nlat /\ length wt = nlat /\
    (forall p, (p < nlat / 2)%nat -> nth p th 0 = nth p theta 0) /\
    symmetric_colatitudes nlat (fun i => nth (i - 1) th 0) /\ (forall i, (1 <= i <= nlat)%nat -> nth (nlat + 1 - i - 1) wt 0 = nth (i - 1) wt 0) /\
    gaussian nlat wt (fun i => nth (i - 1) th 0).
Proof.
  intros Hn HB L1 L2 H2 PT DI. destruct (finish_ok nlat Hn cz theta wts L1 L2 H2) as (th & wt & w & E & LT & LW & SY & SW & KE & MI & WT). cbv zeta in WT.
  exists th, wt. split; auto. split; auto. split; auto. split; [intros p Hp; apply KE; auto|]. split; auto. split; [intros i Hi; rewrite !WT, SW by lia; auto|]. pose proof (half_cases nlat) as HC. set (ns2 := (nlat / 2)%nat) in *. pose proof PI_RGT_0 as PP.
  assert (LO : forall i, (1 <= i <= ns2)%nat -> 0 < nth (i - 1) th 0 < PI / 2 /\ value nlat (nth (i - 1) th 0) = 0 /\ w i = (2 * INR nlat + 1) / Rsqr (slope nlat (nth (i - 1) th 0))).
  { intros i Hi. destruct (KE (i - 1)%nat ltac:(lia)) as [T1 W1]. replace (S (i - 1)) with i in W1 by lia. rewrite T1. destruct (PT (i - 1)%nat ltac:(lia)) as (A & B & C'). split; auto. split; auto. rewrite W1, C'. apply raw_zero. auto. }
  assert (HI : forall i, (1 <= i <= ns2)%nat -> let t := nth (nlat + 1 - i - 1) th 0 in PI / 2 < t < PI /\ value nlat t = 0 /\ w (nlat + 1 - i)%nat = (2 * INR nlat + 1) / Rsqr (slope nlat t)).
  { intros i Hi t. destruct (LO i Hi) as (A & B & C'). assert (ET : t = PI - nth (i - 1) th 0) by (apply SY; lia).
    assert (V : value nlat t = 0). { apply value_zero. rewrite ET. rewrite Rtrigo_facts.cos_pi_minus, leg_opp. apply value_zero in B. rewrite B. ring. }
    split; [lra|]. split; auto. rewrite SW by lia. rewrite C'. rewrite !raw_gw by (auto; lia). do 2 f_equal. rewrite ET, Rtrigo_facts.cos_pi_minus. symmetry. apply ker_opp. }
  assert (MID : Nat.even nlat = false -> nth ns2 th 0 = PI / 2 /\ value nlat (PI / 2) = 0).
  { intros OD. destruct HC as [(X & _)|(_ & M & N1 & N2)]; [congruence|]. split.
    - pose proof (SY (ns2 + 1)%nat ltac:(lia)) as X. cbn beta in X. replace (nlat + 1 - (ns2 + 1) - 1)%nat with ns2 in X by lia. replace (ns2 + 1 - 1)%nat with ns2 in X by lia. lra.
    - apply value_zero. rewrite cos_PI2. pose proof (leg_opp nlat 0) as P. rewrite Ropp_0 in P. assert (SG : (-1) ^ nlat = -1) by (rewrite N1, pow_add, pow_mult; replace ((-1) ^ 2) with 1 by ring; rewrite pow1; ring). rewrite SG in P. lra. }
  assert (CASE : forall i, (1 <= i <= nlat)%nat -> (i <= ns2)%nat \/ (nlat + 1 - i <= ns2)%nat \/ (Nat.even nlat = false /\ i = ns2 + 1)%nat).
  { intros i Hi. destruct (le_dec i ns2); [auto|]. destruct (le_dec (nlat + 1 - i) ns2); [auto|]. right; right. destruct HC as [(EV & _ & N1 & N2)|(OD & _ & N1 & N2)]; [lia|]. split; [auto|lia]. }
  assert (ALL : forall i, (1 <= i <= nlat)%nat -> 0 < nth (i - 1) th 0 < PI /\ value nlat (nth (i - 1) th 0) = 0 /\ w i = (2 * INR nlat + 1) / Rsqr (slope nlat (nth (i - 1) th 0))).
  { intros i Hi. destruct (CASE i Hi) as [C1|[C1|[OD ->]]].
    - destruct (LO i ltac:(lia)) as (A & B & C'). split; [lra|auto].
    - pose proof (HI (nlat + 1 - i)%nat ltac:(lia)) as X. cbv zeta in X. replace (nlat + 1 - (nlat + 1 - i))%nat with i in X by lia. destruct X as (A & B & C'). split; [lra|auto].
    - replace (ns2 + 1 - 1)%nat with ns2 by lia. destruct (MID OD) as [-> V]. split; [lra|]. split; auto. destruct HC as [(X & _)|(_ & M & N1 & N2)]; [congruence|]. rewrite <- N2. apply MI. auto. }
  assert (INC : forall i j, (1 <= i < j)%nat -> (j <= nlat)%nat -> nth (i - 1) th 0 <> nth (j - 1) th 0).
  { assert (LL : forall i j, (1 <= i <= ns2)%nat -> (1 <= j <= ns2)%nat -> i <> j -> nth (i - 1) th 0 <> nth (j - 1) th 0).
    { intros i j Hi Hj N. destruct (KE (i - 1)%nat ltac:(lia)) as [-> _]. destruct (KE (j - 1)%nat ltac:(lia)) as [-> _]. destruct (lt_dec i j); [apply DI; lia|]. intros EQ. symmetry in EQ. revert EQ. apply DI. lia. }
    intros i j Hij Hj. destruct (CASE i ltac:(lia)) as [C1|[C1|[OD C1]]]; destruct (CASE j ltac:(lia)) as [C2|[C2|[OD2 C2]]]; try lia.
    - apply LL; lia.
    - destruct (LO i ltac:(lia)) as (A & _). pose proof (HI (nlat + 1 - j)%nat ltac:(lia)) as X. cbv zeta in X. replace (nlat + 1 - (nlat + 1 - j))%nat with j in X by lia. lra.
    - destruct (LO i ltac:(lia)) as (A & _). rewrite C2. replace (ns2 + 1 - 1)%nat with ns2 by lia. destruct (MID OD2) as [-> _]. lra.
    - pose proof (SY (nlat + 1 - i)%nat ltac:(lia)) as X. pose proof (SY (nlat + 1 - j)%nat ltac:(lia)) as Y. cbn beta in X, Y. replace (nlat + 1 - (nlat + 1 - i))%nat with i in X by lia. replace (nlat + 1 - (nlat + 1 - j))%nat with j in Y by lia.
      pose proof (LL (nlat + 1 - i)%nat (nlat + 1 - j)%nat ltac:(lia) ltac:(lia) ltac:(lia)). rewrite X, Y. lra.
    - pose proof (HI (nlat + 1 - j)%nat ltac:(lia)) as X. cbv zeta in X. replace (nlat + 1 - (nlat + 1 - j))%nat with j in X by lia. rewrite C1. replace (ns2 + 1 - 1)%nat with ns2 by lia. destruct (MID OD) as [-> _]. lra. }
  intros k Hk. change ((1 + (-1) ^ k) / (INR k + 1)) with (moment k).
  rewrite <- (exact_rule nlat (fun i => nth (i - 1) th 0) (fun i => nth (i - 1) wt 0) w) with (k := k); auto; try lia.
  - apply sumR_ext. intros q Hq. cbn [Nat.sub]. rewrite !Nat.sub_0_r. reflexivity.
  - intros i Hi. apply ALL. auto.
  - intros i Hi. apply ALL. auto.
  - intros i Hi. apply ALL. auto.
Qed.
(** ** One and two points *)
Lemma gaqd_one dz theta wts : length theta = 1%nat -> length wts = 1%nat ->
  exists th wt, gaqd 1 dz theta wts = Some (0%nat, th, wt) /\ symmetric_colatitudes 1 (fun i => nth (i - 1) th 0) /\ gaussian 1 wt (fun i => nth (i - 1) th 0).
Proof.
  intros L1 L2. destruct theta as [|a [|]]; try discriminate. destruct wts as [|b [|]]; try discriminate. exists (acos 0 :: nil), (2 :: nil). split; [reflexivity|]. rewrite acos_0. split.
  - intros i Hi. assert (i = 1)%nat as -> by lia. cbn. lra.
  - intros k Hk. destruct k as [|[|k]]; [| |lia]; cbn; rewrite ?cos_PI2; field.
Qed.
Lemma gaqd_two dz theta wts : length theta = 2%nat -> length wts = 2%nat ->
  exists th wt, gaqd 2 dz theta wts = Some (0%nat, th, wt) /\ symmetric_colatitudes 2 (fun i => nth (i - 1) th 0) /\ gaussian 2 wt (fun i => nth (i - 1) th 0).
Proof.
  intros L1 L2. destruct theta as [|a [|a' [|]]]; try discriminate. destruct wts as [|b [|b' [|]]]; try discriminate. set (x := sqrt (1 / 3)).
  exists (acos x :: acos (- x) :: nil), (1 :: 1 :: nil). split; [reflexivity|].
  assert (X2 : x * x = 1 / 3) by (apply sqrt_sqrt; lra). assert (X0 : 0 <= x) by apply sqrt_pos. assert (X1 : x <= 1) by nra. split.
  - intros i Hi. assert (i = 1 \/ i = 2)%nat as [->| ->] by lia; cbn; rewrite acos_opp; ring.
  - intros k Hk. cbn [sumR nth Nat.sub]. rewrite !cos_acos by lra. destruct k as [|[|[|[|k]]]]; [| | | |lia]; cbn; try field.
    + replace (0 + 1 * (x * (x * 1)) + 1 * (- x * (- x * 1))) with (2 * (x * x)) by ring. rewrite X2. field.
Qed.
