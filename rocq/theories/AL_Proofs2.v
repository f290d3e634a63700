(** alfk and lfpt give the normalised function of every order and degree. *)
From Coq Require Import Reals List Arith ZArith Lia Bool Lra.
From Verif Require Import Base Buffer VH_Model RS_Spec RS_Dft RS_Proofs6 GS_Spec GS_Proofs1 LG_Spec LG_Proofs1 LG_Model LG_Proofs3 LG_Proofs4 LG_Proofs5 LG_Proofs6 AL_Model AL_Proofs1.
Import ListNotations.
Local Open Scope R_scope.

(** ** The highest coefficient *)
Fixpoint pt (k : nat) (f p : R) : R := match k with O => 1 | S j => pt j f p * ((f + 2 * INR j) / (f + 2 * INR j + p)) end.
Lemma pt_first k : forall f p, pt (S k) f p = f / (f + p) * pt k (f + 2) p.
Proof.
  induction k; intros f p.
  - cbn [pt INR]. rewrite Rmult_0_r, Rplus_0_r. ring.
  - transitivity (pt (S k) f p * ((f + 2 * INR (S k)) / (f + 2 * INR (S k) + p))); [reflexivity|]. rewrite IHk. cbn [pt]. rewrite S_INR.
    replace (f + 2 * (INR k + 1)) with (f + 2 + 2 * INR k) by ring. ring.
Qed.
Lemma iter_t2 k f p : Nat.iter k (LG_Model.t2_step p) (1, f) = (pt k f p, f + 2 * INR k).
Proof.
  induction k.
  - cbn [Nat.iter nat_rect pt INR]. f_equal. ring.
  - change (Nat.iter (S k) (LG_Model.t2_step p) (1, f)) with (LG_Model.t2_step p (Nat.iter k (LG_Model.t2_step p) (1, f))). rewrite IHk. unfold LG_Model.t2_step. cbn [pt]. rewrite S_INR. f_equal; [unfold Rdiv; ring|ring].
Qed.
Lemma pr_two N x : pr (S N) x * (2 + 2 * INR N) = pr N (x + 2) * x.
Proof. rewrite pr_shift. cbn [pr]. pose proof (pos_INR N). field. lra. Qed.
(** the highest coefficient, without the scaling *)
Definition tops (ma n : nat) : R :=
  let even := ((n + ma) mod 2 =? 0)%nat in
  let N := (if even then (n - ma) / 2 else (n - ma - 1) / 2)%nat in
  let fnum := if even then INR (n + ma + 1) else INR (n + ma + 2) in
  let fnmh := if even then INR (n - ma + 1) else INR (n - ma + 2) in
  let pm1 := if even then 1 else -1 in
  (if ((ma / 2) mod 2 =? 0)%nat then 1 else -1) * (pr N fnum / 2 ^ (n - 1)) * sqrt ((INR n + 1 / 2) * pt ma fnmh pm1).
Lemma top_tops ma n : (1 <= n)%nat -> top ma n = tops ma n.
Proof.
  intros Hn. unfold top, tops. destruct (iter_t1 (if ((n + ma) mod 2 =? 0)%nat then (n - ma) / 2 else (n - ma - 1) / 2)%nat (if ((n + ma) mod 2 =? 0)%nat then INR (n + ma + 1) else INR (n + ma + 2))) as (t & nex & I & H).
  rewrite I, iter_t2, (t1_final n nex t _ Hn H). destruct ((ma / 2) mod 2 =? 0)%nat; ring.
Qed.
Lemma sign_flip m : ((S (S m) / 2) mod 2 =? 0)%nat = negb ((m / 2) mod 2 =? 0)%nat.
Proof.
  replace (S (S m)) with (m + 1 * 2)%nat by lia. rewrite Nat.div_add by lia. destruct (Nat.Even_or_Odd (m / 2)) as [[k E]|[k E]]; rewrite E.
  - rewrite odd_nat, even_nat. auto.
  - replace (2 * k + 1 + 1)%nat with (2 * (k + 1))%nat by lia. rewrite odd_nat, even_nat. auto.
Qed.
Lemma cbel_pos m n : (m <= n)%nat -> 0 <= (INR n - INR m + 1) * (INR n - INR m + 2) / ((INR n + INR m + 3) * (INR n + INR m + 4)).
Proof. intros H. pose proof (pos_INR n). pose proof (pos_INR m). pose proof (le_real _ _ H). apply Rle_mult_inv_pos; nra. Qed.
Lemma sqrt_ratio K A B r : 0 <= K -> 0 <= r -> B = r * r * (K * A) -> sqrt B = r * (sqrt K * sqrt A).
Proof. intros HK Hr ->. rewrite sqrt_mult_alt by nra. rewrite sqrt_square by auto. rewrite sqrt_mult_alt by auto. auto. Qed.
Lemma tops_step m n : (m <= n)%nat -> tops (S (S m)) (S (S n)) = - (cbel_of (Z.of_nat (S (S m))) (Z.of_nat (S (S n))) * tops m (S (S n))).
Proof.
  intros H. pose proof (pos_INR n) as Pn. pose proof (pos_INR m) as Pm. pose proof (le_real _ _ H) as HH. rewrite cbel_val. unfold tops. rewrite sign_flip.
  replace ((S (S n) + S (S m)) mod 2)%nat with ((S (S n) + m) mod 2)%nat by (replace (S (S n) + S (S m))%nat with (S (S n) + m + 1 * 2)%nat by lia; rewrite Nat.mod_add by lia; auto).
  set (K := (INR n - INR m + 1) * (INR n - INR m + 2) / ((INR n + INR m + 3) * (INR n + INR m + 4))). pose proof (cbel_pos m n H) as KP. fold K in KP.
  assert (PW : 2 ^ (S (S n) - 1) <> 0) by (apply pow_nonzero; lra). set (T := 2 ^ (S (S n) - 1)) in *.
  set (sgn := if negb ((m / 2) mod 2 =? 0)%nat then 1 else -1).
  assert (SG : (if ((m / 2) mod 2 =? 0)%nat then 1 else -1) = - sgn) by (unfold sgn; destruct ((m / 2) mod 2 =? 0)%nat; cbn [negb]; ring). rewrite SG.
  assert (main : forall N x f p r, 0 <= r -> r * (2 + 2 * INR N) = x -> 
    (INR (S (S n)) + 1 / 2) * pt (S (S m)) f p = r * r * (K * ((INR (S (S n)) + 1 / 2) * pt m (f + 2) p)) ->
    sgn * (pr N (x + 2) / T) * sqrt ((INR (S (S n)) + 1 / 2) * pt (S (S m)) f p) = - (sqrt K * (- sgn * (pr (S N) x / T) * sqrt ((INR (S (S n)) + 1 / 2) * pt m (f + 2) p)))).
  { intros N x f p r Hr Ex EP. rewrite (sqrt_ratio K _ _ r KP Hr EP). pose proof (pr_two N x) as E. rewrite <- Ex in E at 3. pose proof (pos_INR N).
    assert (E2 : pr (S N) x = pr N (x + 2) * r) by (apply (Rmult_eq_reg_r (2 + 2 * INR N)); [rewrite E; ring|lra]). rewrite E2. field. auto. }
  destruct (Nat.Even_or_Odd (S (S n) + m)) as [[k E]|[k E]]; rewrite E.
  - rewrite even_nat. cbn [Nat.eqb]. replace ((S (S n) - m) / 2)%nat with (S ((n - m) / 2)) by (replace (S (S n) - m)%nat with (n - m + 1 * 2)%nat by lia; rewrite Nat.div_add by lia; lia).
    replace (S (S n) - S (S m))%nat with (n - m)%nat by lia.
    assert (HN : 2 * INR ((n - m) / 2) = INR n - INR m).
    { replace (n - m)%nat with (2 * (k - 1 - m))%nat by lia. rewrite half_e. replace (INR n) with (INR (2 * (k - 1 - m) + m)) by (f_equal; lia). rewrite plus_INR, mult_INR. cbn [INR]. ring. }
    replace (INR (S (S n) + S (S m) + 1)) with (INR (2 * k + 1) + 2) by (rewrite <- E, !plus_INR, !S_INR; ring). replace (INR (S (S n) - m + 1)) with (INR (n - m + 1) + 2) by (replace (S (S n) - m + 1)%nat with (S (S (n - m + 1))) by lia; rewrite !S_INR; ring).
    apply (main _ _ _ _ ((INR n + INR m + 3) / (INR n - INR m + 2))).
    + apply Rle_mult_inv_pos; lra.
    + rewrite HN, <- E, !plus_INR, !S_INR. cbn [INR]. field. lra.
    + rewrite pt_first. cbn [pt]. unfold K. rewrite !plus_INR, minus_INR, !S_INR by auto. cbn [INR]. field. lra.
  - rewrite odd_nat. cbn [Nat.eqb]. replace ((S (S n) - m - 1) / 2)%nat with (S ((n - m - 1) / 2)) by (replace (S (S n) - m - 1)%nat with (n - m - 1 + 1 * 2)%nat by lia; rewrite Nat.div_add by lia; lia).
    replace (S (S n) - S (S m))%nat with (n - m)%nat by lia. assert (HM : (m + 1 <= n)%nat) by lia. pose proof (le_real _ _ HM) as HH1. rewrite plus_INR in HH1. cbn [INR] in HH1.
    assert (HN : 2 * INR ((n - m - 1) / 2) = INR n - INR m - 1).
    { replace (n - m - 1)%nat with (2 * (k - 1 - m))%nat by lia. rewrite half_e. replace (INR n) with (INR (2 * (k - 1 - m) + m + 1)) by (f_equal; lia). rewrite !plus_INR, mult_INR. cbn [INR]. ring. }
    replace (INR (S (S n) + S (S m) + 2)) with (INR (2 * k + 1 + 2) + 2) by (replace (2 * k + 1 + 2)%nat with (S (S n) + m + 2)%nat by lia; rewrite !plus_INR, !S_INR; ring).
    replace (INR (S (S n) - m + 2)) with (INR (n - m + 2) + 2) by (replace (S (S n) - m + 2)%nat with (S (S (n - m + 2))) by lia; rewrite !S_INR; ring).
    apply (main _ _ _ _ ((INR n + INR m + 4) / (INR n - INR m + 1))).
    + apply Rle_mult_inv_pos; lra.
    + rewrite HN. replace (2 * k + 1 + 2)%nat with (S (S n) + m + 2)%nat by lia. rewrite !plus_INR, !S_INR. cbn [INR]. field. lra.
    + rewrite pt_first. cbn [pt]. unfold K. rewrite !plus_INR, minus_INR, !S_INR by auto. cbn [INR]. field. lra.
Qed.

(** ** The series of every order *)
Record series (m n : nat) (c : nat -> R) : Prop := mk_series {
  ser_sym : forall j, (j <= n)%nat -> c (n - j)%nat = sg m * c j;
  ser_rep : forall t, Pbar m n t = 1 / 2 * sumR (S n) (fun j => c j * e m (wave n j * t));
  ser_top : (2 <= n)%nat -> c 0%nat = tops m n }.
Lemma C_base m n : (m <= 1)%nat -> series m n (C m n).
Proof.
  intros Hm. assert (m = 0%nat \/ m = 1%nat) as M01 by lia. split.
  - intros j Hj. unfold C, G. replace (n - (n - j))%nat with j by lia. rewrite wave_mirror by auto. destruct M01 as [->| ->]; unfold sg, ev; cbn; ring.
  - intros t. unfold Pbar. destruct M01 as [->| ->].
    + rewrite pow_O, Rmult_1_l. change (D 0) with leg. rewrite leg_Q. unfold Q. rewrite <- !sumR_scal. apply sumR_ext. intros j _. unfold C, G, e, ev. cbn [Nat.eqb Nat.modulo Nat.divmod fst snd Nat.sub]. field.
    + rewrite pow_1, D1_QS. unfold QS. rewrite <- !sumR_scal. apply sumR_ext. intros j _. unfold C, G, e, ev. cbn [Nat.eqb Nat.modulo Nat.divmod fst snd Nat.sub]. field.
  - intros Hn. rewrite <- top_tops by lia. symmetry. apply top_ok; auto.
Qed.
(** the coefficients of degree n among the waves of degree n + 2 *)
Definition sh (n : nat) (c : nat -> R) (j : nat) : R := match j with O => 0 | S i => if (i <=? n)%nat then c i else 0 end.
Lemma sh_sum m n c t : sumR (S (S (S n))) (fun j => sh n c j * e m (wave (S (S n)) j * t)) = sumR (S n) (fun j => c j * e m (wave n j * t)).
Proof.
  rewrite sumR_first. cbn [sh]. rewrite Rmult_0_l, Rplus_0_l. replace (S (S n)) with (S n + 1)%nat at 1 by lia. rewrite sumR_split. cbn [sumR]. rewrite (proj2 (Nat.leb_gt (S n + 0) n)) by lia. rewrite Rmult_0_l, !Rplus_0_r.
  rewrite <- (Rplus_0_r (sumR n (fun k => (if (k <=? n)%nat then c k else 0) * e m (wave (S (S n)) (S k) * t)) + _)) at 1. rewrite Rplus_0_r.
  change (sumR (S n) (fun k => (if (k <=? n)%nat then c k else 0) * e m (wave (S (S n)) (S k) * t)) = sumR (S n) (fun j => c j * e m (wave n j * t))).
  apply sumR_ext. intros j Hj. rewrite (proj2 (Nat.leb_le j n)) by lia. do 3 f_equal. unfold wave. rewrite !S_INR. ring.
Qed.
Lemma sh_sym m n c j : (forall j, (j <= n)%nat -> c (n - j)%nat = sg m * c j) -> (j <= S (S n))%nat -> sh n c (S (S n) - j) = sg m * sh n c j.
Proof.
  intros H Hj. destruct j as [|i].
  - replace (S (S n) - 0)%nat with (S (S n)) by lia. cbn [sh]. rewrite (proj2 (Nat.leb_gt (S n) n)) by lia. ring.
  - replace (S (S n) - S i)%nat with (S n - i)%nat by lia. destruct (Nat.eq_dec i (S n)) as [->|NE].
    + replace (S n - S n)%nat with 0%nat by lia. cbn [sh]. rewrite (proj2 (Nat.leb_gt (S n) n)) by lia. ring.
    + replace (S n - i)%nat with (S (n - i)) by lia. cbn [sh]. rewrite !(proj2 (Nat.leb_le _ n)) by lia. apply H. lia.
Qed.
Lemma series_step m n c1 c2 c3 : (m <= n)%nat -> series m n c1 -> ((S (S m) <= n)%nat -> series (S (S m)) n c2) -> ((n < S (S m))%nat -> forall j, c2 j = 0) -> series m (S (S n)) c3 ->
  series (S (S m)) (S (S n)) (fun j => abel_of (Z.of_nat (S (S m))) (Z.of_nat (S (S n))) * sh n c1 j + bbel_of (Z.of_nat (S (S m))) (Z.of_nat (S (S n))) * sh n c2 j - cbel_of (Z.of_nat (S (S m))) (Z.of_nat (S (S n))) * c3 j).
Proof.
  intros H S1 S2 Z2 S3. split.
  - intros j Hj. rewrite sg_SS. rewrite (ser_sym _ _ _ S3) by auto. rewrite (sh_sym m n c1 j (ser_sym _ _ _ S1) Hj).
    assert (X : sh n c2 (S (S n) - j) = sg m * sh n c2 j).
    { apply (sh_sym m n c2 j); auto. intros i Hi. destruct (Nat.le_gt_cases (S (S m)) n) as [L|L]; [rewrite <- sg_SS; apply (ser_sym _ _ _ (S2 L)); auto|rewrite !(Z2 L); ring]. }
    rewrite X. ring.
  - intros t. rewrite <- (Pbar_rec m n t (1 / 2 * sumR (S n) (fun j => c2 j * e m (wave n j * t))) H).
    + rewrite (ser_rep _ _ _ S1), (ser_rep _ _ _ S3), <- (sh_sum m n c1), <- (sh_sum m n c2).
      rewrite (sumR_ext _ (fun j => (_ - _) * e (S (S m)) _) (fun j => (abel_of (Z.of_nat (S (S m))) (Z.of_nat (S (S n))) * (sh n c1 j * e m (wave (S (S n)) j * t)) + bbel_of (Z.of_nat (S (S m))) (Z.of_nat (S (S n))) * (sh n c2 j * e m (wave (S (S n)) j * t))) - cbel_of (Z.of_nat (S (S m))) (Z.of_nat (S (S n))) * (c3 j * e m (wave (S (S n)) j * t)))) by (intros j _; rewrite e_SS; ring).
      rewrite sumR_minus, sumR_plus, !sumR_scal. ring.
    + intros L. rewrite (ser_rep _ _ _ (S2 L)). f_equal. apply sumR_ext. intros j _. rewrite e_SS. auto.
  - intros _. cbn [sh]. rewrite (ser_top _ _ _ S3) by lia. rewrite tops_step by auto. ring.
Qed.
Lemma series_exists m : forall n, (m <= n)%nat -> exists c, series m n c.
Proof.
  apply (two_step (fun m => forall n, (m <= n)%nat -> exists c, series m n c)); clear m.
  - intros n _. exists (C 0 n). apply C_base. lia.
  - intros n _. exists (C 1 n). apply C_base. lia.
  - intros m IH _ n. induction n as [n IHn] using lt_wf_ind. intros Hn. destruct n as [|[|k]]; try lia. assert (Hk : (m <= k)%nat) by lia.
    destruct (IH k Hk) as [c1 S1]. destruct (IH (S (S k)) ltac:(lia)) as [c3 S3].
    assert (X : exists c2, ((S (S m) <= k)%nat -> series (S (S m)) k c2) /\ ((k < S (S m))%nat -> forall j, c2 j = 0)).
    { destruct (Nat.le_gt_cases (S (S m)) k) as [L|L].
      - destruct (IHn k ltac:(lia) L) as [c2 S2]. exists c2. split; [auto|lia].
      - exists (fun _ => 0). split; [lia|auto]. }
    destruct X as (c2 & S2 & Z2). eexists. apply (series_step m k c1 c2 c3); auto.
Qed.
