(** The forward pass of general odd radix. *)
From Coq Require Import Reals List Arith Lia Lra Bool.
From Verif Require Import Base Buffer VH_Model RS_Spec RS_Dft FF_Model FF_Proofs FF_Proofs2 FF_Proofs3 FF_Proofs5.
Import ListNotations.
Local Open Scope R_scope.

(** A sum over an odd number of terms, pairing s and ip - s *)
Lemma sumR_pair h g : sumR (2 * h + 1) g = g 0%nat + sumR h (fun u => g (S u) + g (2 * h + 1 - S u)%nat).
Proof.
  replace (2 * h + 1)%nat with (S (h + h)) by lia. rewrite sumR_first, sumR_split, sumR_plus. f_equal. f_equal.
  rewrite sumR_rev. apply sumR_ext. intros. f_equal. lia.
Qed.
Lemma cos_refl ip s a : (0 < ip)%nat -> (s <= ip)%nat -> cos (th ip ((ip - s) * a)) = cos (th ip (s * a)).
Proof. intros. rewrite Nat.mul_sub_distr_r. apply cos_th_back; nia. Qed.
Lemma sin_refl ip s a : (0 < ip)%nat -> (s <= ip)%nat -> sin (th ip ((ip - s) * a)) = - sin (th ip (s * a)).
Proof. intros. rewrite Nat.mul_sub_distr_r. apply sin_th_back; nia. Qed.

Section Gen.
Variable d : R.
Variables ido ip l1 h : nat.
Hypothesis Hip : ip = (2 * h + 1)%nat.
Hypothesis Hh : (1 <= h)%nat.
Hypothesis Hodd : (ido mod 2 = 1)%nat.
Hypothesis Hl1 : (0 < l1)%nat.
Variable x : nat -> R.
Variable wa : nat -> R.
Hypothesis Hw : twisted ip ido (fun s i => wa (s * ido + i)%nat).
Local Notation N := (ip * ido)%nat.
Local Notation idl1 := (ido * l1)%nat.
Lemma Hido : (0 < ido)%nat.
Proof. destruct ido; [discriminate Hodd|lia]. Qed.
Lemma ipph_h : ((ip + 1) / 2 = h + 1)%nat.
Proof. rewrite Hip. replace (2 * h + 1 + 1)%nat with ((h + 1) * 2)%nat by lia. apply Nat.div_mul; lia. Qed.
Lemma len_eq : (ido * ip * l1 = idl1 * ip)%nat.
Proof. nia. Qed.

Definition grid (G : nat -> nat -> nat -> R) (X : list R) : Prop :=
  forall t k s, (t < ido)%nat -> (k < l1)%nat -> (s < ip)%nat -> nth (t + ido * (k + l1 * s)) X d = G t k s.
Lemma grid_el G X i k s : grid G X -> (1 <= i <= ido)%nat -> (1 <= k <= l1)%nat -> (s < ip)%nat ->
  el3 d ido l1 X i k (S s) = G (i - 1)%nat (k - 1)%nat s.
Proof. intros H ? ? ?. unfold el3, c3. cbn [Nat.sub]. rewrite Nat.sub_0_r. apply H; lia. Qed.
Lemma grid_row G X e s : grid G X -> (e < idl1)%nat -> (s < ip)%nat ->
  nth (e + idl1 * s) X d = G (e mod ido)%nat (e / ido)%nat s.
Proof.
  intros H He Hs. pose proof Hido. pose proof (Nat.div_mod_eq e ido). pose proof (Nat.mod_upper_bound e ido ltac:(lia)).
  rewrite <- H; auto; [f_equal; nia|]. apply Nat.div_lt_upper_bound; lia.
Qed.
Lemma row_grid G X : (forall e s, (e < idl1)%nat -> (s < ip)%nat -> nth (e + idl1 * s) X d = G (e mod ido)%nat (e / ido)%nat s) -> grid G X.
Proof.
  intros H t k s Ht Hk Hs. specialize (H (t + ido * k)%nat s). 
  replace (t + ido * (k + l1 * s))%nat with (t + ido * k + idl1 * s)%nat by nia.
  rewrite H by nia. replace (t + ido * k)%nat with (t + k * ido)%nat by nia.
  rewrite Nat.mod_add, Nat.div_add by lia. rewrite Nat.mod_small, Nat.div_small by lia. f_equal.
Qed.

(** The twisted coefficients, packed *)
Definition Tv (t k s : nat) : R :=
  if (t =? 0)%nat then TR ip ido (strided x l1 k) 0 s
  else if Nat.odd t then TR ip ido (strided x l1 k) ((t + 1) / 2) s else TI ip ido (strided x l1 k) (t / 2) s.
Lemma Tv_re q k s : (1 <= q)%nat -> Tv (2 * q + 1 - 1 - 1) k s = TR ip ido (strided x l1 k) q s.
Proof.
  intros. unfold Tv. destruct (Nat.eqb_spec (2 * q + 1 - 1 - 1) 0); [lia|].
  replace (2 * q + 1 - 1 - 1)%nat with (1 + 2 * (q - 1))%nat by lia. rewrite Nat.odd_add_mul_2. cbn [Nat.odd Nat.even negb].
  replace (1 + 2 * (q - 1) + 1)%nat with (q * 2)%nat by lia. rewrite Nat.div_mul by lia. reflexivity.
Qed.
Lemma Tv_im q k s : (1 <= q)%nat -> Tv (2 * q + 1 - 1) k s = TI ip ido (strided x l1 k) q s.
Proof.
  intros. unfold Tv. destruct (Nat.eqb_spec (2 * q + 1 - 1) 0); [lia|].
  replace (2 * q + 1 - 1)%nat with (0 + 2 * q)%nat by lia. rewrite Nat.odd_add_mul_2. cbn [Nat.odd Nat.even negb Nat.add].
  rewrite (Nat.mul_comm 2 q), Nat.div_mul by lia. reflexivity.
Qed.
Lemma col t : (t < ido)%nat -> t = 0%nat \/ exists q, (1 <= q)%nat /\ (2 * q + 1 <= ido)%nat /\ (t = 2 * q + 1 - 1 \/ t = 2 * q + 1 - 1 - 1)%nat.
Proof.
  intros. destruct (col_odd ido (t + 1) ltac:(lia)) as [E|[(q & ? & ? & ?)|[E1 E2]]]; [left; lia|right; exists q; lia|lia].
Qed.

(** fg1: from the blocks to the twisted blocks *)
Lemma fg1_ok A B : stage_in d ip ido l1 x A -> length B = (ido * ip * l1)%nat ->
  exists B', run (fg1 d ido ip l1 wa) (A, B) = Some (A, B') /\ length B' = length B /\ grid Tv B'.
Proof.
  intros Hin HB. pose proof Hido as Hi0. assert (Hip0 : (0 < ip)%nat) by lia.
  assert (tw : forall j i k z, (2 <= j <= ip)%nat -> (1 <= k <= l1)%nat -> (exists q, 1 <= q /\ 2 * q + 1 <= ido /\ i = 2 * q + 1)%nat ->
    In z (fg_twist d ido l1 wa j i k) -> a_ch z = true /\ (a_ix z < length B)%nat /\ forall b, a_val z A b = at3 ido l1 Tv (a_ix z)).
  { intros j i k z Hj Hk (q & Q1 & Q2 & ->) Hz. destruct j as [|s]; [lia|].
    unfold fg_twist in Hz. cbn [In] in Hz.
    assert (I1 : ((S s - 2) * ido + (2 * q + 1 - 1) - 1 = (s - 1) * ido + (2 * q + 1 - 2))%nat) by (replace (S s - 2)%nat with (s - 1)%nat by lia; generalize ((s - 1) * ido)%nat; intros; lia).
    assert (I2 : ((S s - 2) * ido + (2 * q + 1 - 1) = (s - 1) * ido + (2 * q + 1 - 1))%nat) by (replace (S s - 2)%nat with (s - 1)%nat by lia; generalize ((s - 1) * ido)%nat; intros; lia).
    assert (B1 : (c3 ido l1 (2 * q + 1) k (S s) < length B)%nat) by (rewrite HB, len_eq; apply c3_bound; lia).
    assert (B2 : (c3 ido l1 (2 * q + 1 - 1) k (S s) < length B)%nat) by (rewrite HB, len_eq; apply c3_bound; lia).
    destruct Hz as [<-|[<-|[]]]; cbn [a_ch a_ix a_val at_ch]; (split; [reflexivity|]); (split; [assumption|]); intros _;
      rewrite at3_c3 by lia; replace (S s - 1)%nat with s by lia; unfold e_c1.
    - rewrite Tv_re by lia. rewrite (TR_q d ip ido l1 x A Hip0 Hi0 Hl1 Hin _ Hw) by lia. rewrite I1, I2. reflexivity.
    - rewrite Tv_im by lia. rewrite (TI_q d ip ido l1 x A Hip0 Hi0 Hl1 Hin _ Hw) by lia. rewrite I1, I2. reflexivity. }
  destruct (run_ch d (at3 ido l1 Tv) (fg1 d ido ip l1 wa) A B) as (B' & R1 & R2 & R3 & _).
  { intros z Hz. unfold fg1 in Hz. apply in_app_iff in Hz. destruct Hz as [Hz|Hz].
    - apply in_loop in Hz. destruct Hz as (ik & Hik & [<-|[]]). cbn [a_ch a_ix a_val at_ch2]. split; auto.
      unfold e_c2, el2. unfold c2. replace (ik - 1 + idl1 * (1 - 1))%nat with (ik - 1)%nat by lia.
      destruct (split_idl ido l1 (ik - 1) ltac:(lia)) as (t & k & Ht & Hk & E). rewrite E. split; [rewrite HB; nia|]. intros _.
      replace (t + ido * k)%nat with (t + ido * (k + l1 * 0))%nat by lia. rewrite at3_flat by auto.
      destruct (col t Ht) as [->|(q & Q1 & Q2 & [->| ->])].
      + pose proof (TR_0 d ip ido l1 x A Hip0 Hi0 Hl1 Hin (k + 1)%nat 0 ltac:(lia) ltac:(lia)) as T. rewrite Nat.add_sub in T. unfold Tv. cbn [Nat.eqb].
        rewrite T. unfold el3, c3. f_equal. lia.
      + rewrite Tv_im by auto. pose proof (TI_q0 d ip ido l1 x A Hip0 Hi0 Hl1 Hin (k + 1)%nat q ltac:(lia) Q1 Q2) as T. rewrite Nat.add_sub in T.
        rewrite T. unfold el3, c3. f_equal. lia.
      + rewrite Tv_re by auto. pose proof (TR_q0 d ip ido l1 x A Hip0 Hi0 Hl1 Hin (k + 1)%nat q ltac:(lia) Q1 Q2) as T. rewrite Nat.add_sub in T.
        rewrite T. unfold el3, c3. f_equal. lia.
    - apply in_app_iff in Hz. destruct Hz as [Hz|Hz].
      + apply in_loop in Hz. destruct Hz as (j & Hj & Hz). apply in_loop in Hz. destruct Hz as (k & Hk & [<-|[]]).
        cbn [a_ch a_ix a_val at_ch]. split; auto. destruct j as [|s]; [lia|].
        split; [rewrite HB, len_eq; apply c3_bound; lia|]. intros _.
        rewrite at3_c3 by lia. unfold e_c1. rewrite <- (TR_0 d ip ido l1 x A Hip0 Hi0 Hl1 Hin) by lia. unfold Tv. cbn [Nat.eqb Nat.sub].
        f_equal. lia.
      + destruct (l1 <? _)%nat; apply in_loop in Hz; destruct Hz as (j & Hj & Hz).
        * apply in_loop2 in Hz. destruct Hz as (q & Q1 & Q2 & Hz). apply in_loop in Hz. destruct Hz as (k & Hk & Hz).
          apply (tw _ _ _ _ Hj Hk) in Hz; eauto.
        * apply in_loop in Hz. destruct Hz as (k & Hk & Hz). apply in_loop2 in Hz. destruct Hz as (q & Q1 & Q2 & Hz).
          apply (tw _ _ _ _ Hj Hk) in Hz; eauto. }
  exists B'. split; auto. split; auto. intros t k s Ht Hk Hs. rewrite R3; [apply at3_flat; auto|].
  unfold fg1. destruct (Nat.eq_dec s 0) as [->|Hs0].
  - apply exists_app_l. apply (exists_loop _ _ _ _ (t + ido * k + 1)%nat); [nia|]. apply Exists_cons_hd. cbn [a_ix at_ch2]. unfold c2. nia.
  - apply exists_app_r. destruct (col t Ht) as [->|(q & Q1 & Q2 & Q3)].
    + apply exists_app_l. apply (exists_loop _ _ _ _ (s + 1)%nat); [lia|]. apply (exists_loop _ _ _ _ (k + 1)%nat); [lia|].
      apply Exists_cons_hd. cbn [a_ix at_ch]. unfold c3. rewrite !Nat.add_sub. lia.
    + apply exists_app_r. 
      assert (Exists (fun z => a_ix z = (t + ido * (k + l1 * s))%nat) (fg_twist d ido l1 wa (s + 1) (2 * q + 1) (k + 1))).
      { unfold fg_twist. destruct Q3 as [->| ->]; [apply Exists_cons_tl|]; apply Exists_cons_hd; cbn [a_ix at_ch]; unfold c3; rewrite !Nat.add_sub; lia. }
      destruct (l1 <? _)%nat; apply (exists_loop _ _ _ _ (s + 1)%nat); try lia.
      * apply (exists_loop2 _ _ _ q); auto. apply (exists_loop _ _ _ _ (k + 1)%nat); auto; lia.
      * apply (exists_loop _ _ _ _ (k + 1)%nat); [lia|]. apply (exists_loop2 _ _ _ q); auto.
Qed.

(** fg2 or fg3, then fg4: sums and differences of the rows s and ip - s *)
Definition Av (t k s : nat) : R :=
  if (s =? 0)%nat then Tv t k 0
  else if (s <=? h)%nat then Tv t k s + Tv t k (ip - s)
  else if (t =? 0)%nat then Tv t k s - Tv t k (ip - s)
  else if Nat.odd t then Tv (t + 1) k (ip - s) - Tv (t + 1) k s else Tv (t - 1) k s - Tv (t - 1) k (ip - s).
Lemma Av_0 t k : Av t k 0 = Tv t k 0.
Proof. reflexivity. Qed.
Lemma Av_lo t k s : (1 <= s <= h)%nat -> Av t k s = Tv t k s + Tv t k (ip - s).
Proof. intros. unfold Av. destruct (Nat.eqb_spec s 0); [lia|]. destruct (Nat.leb_spec s h); [reflexivity|lia]. Qed.
Lemma Av_hi t k s : (1 <= s <= h)%nat -> Av t k (ip - s) =
  if (t =? 0)%nat then Tv t k (ip - s) - Tv t k s
  else if Nat.odd t then Tv (t + 1) k s - Tv (t + 1) k (ip - s) else Tv (t - 1) k (ip - s) - Tv (t - 1) k s.
Proof.
  intros. unfold Av. destruct (Nat.eqb_spec (ip - s) 0); [lia|]. destruct (Nat.leb_spec (ip - s) h); [lia|].
  replace (ip - (ip - s))%nat with s by lia. reflexivity.
Qed.
Lemma odd_re q : (1 <= q)%nat -> (2 * q + 1 - 1 - 1 =? 0)%nat = false /\ Nat.odd (2 * q + 1 - 1 - 1) = true.
Proof.
  intros. split; [apply Nat.eqb_neq; lia|]. replace (2 * q + 1 - 1 - 1)%nat with (1 + 2 * (q - 1))%nat by lia.
  rewrite Nat.odd_add_mul_2. reflexivity.
Qed.
Lemma odd_im q : (1 <= q)%nat -> (2 * q + 1 - 1 =? 0)%nat = false /\ Nat.odd (2 * q + 1 - 1) = false.
Proof.
  intros. split; [apply Nat.eqb_neq; lia|]. replace (2 * q + 1 - 1)%nat with (0 + 2 * q)%nat by lia.
  rewrite Nat.odd_add_mul_2. reflexivity.
Qed.
Lemma Av_hi_0 k s : (1 <= s <= h)%nat -> Av 0 k (ip - s) = Tv 0 k (ip - s) - Tv 0 k s.
Proof. intros. rewrite Av_hi by auto. reflexivity. Qed.
Lemma Av_hi_re q k s : (1 <= s <= h)%nat -> (1 <= q)%nat ->
  Av (2 * q + 1 - 1 - 1) k (ip - s) = Tv (2 * q + 1 - 1) k s - Tv (2 * q + 1 - 1) k (ip - s).
Proof.
  intros. rewrite Av_hi by auto. destruct (odd_re q) as [-> ->]; auto.
  replace (2 * q + 1 - 1 - 1 + 1)%nat with (2 * q + 1 - 1)%nat by lia. reflexivity.
Qed.
Lemma Av_hi_im q k s : (1 <= s <= h)%nat -> (1 <= q)%nat ->
  Av (2 * q + 1 - 1) k (ip - s) = Tv (2 * q + 1 - 1 - 1) k (ip - s) - Tv (2 * q + 1 - 1 - 1) k s.
Proof. intros. rewrite Av_hi by auto. destruct (odd_im q) as [-> ->]; auto. Qed.

Lemma fg24_ok A B : grid Tv B -> length A = (ido * ip * l1)%nat ->
  ((ido <> 1)%nat -> forall t k, (t < ido)%nat -> (k < l1)%nat -> nth (t + ido * k) A d = Tv t k 0) ->
  exists A', run ((if (ido =? 1)%nat then fg3 d ido l1 else fg2 d ido ip l1) ++ fg4 d ido ip l1) (A, B) = Some (A', B) /\
    length A' = length A /\ grid Av A'.
Proof.
  intros HG HA H0. pose proof Hido as Hi0. pose proof ipph_h as Hph.
  assert (bd : forall i k s, (1 <= i <= ido)%nat -> (1 <= k <= l1)%nat -> (s < ip)%nat -> (c3 ido l1 i k (S s) < length A)%nat).
  { intros. rewrite HA, len_eq. apply c3_bound; lia. }
  assert (pr : forall j i k z, (2 <= j <= h + 1)%nat -> (1 <= k <= l1)%nat -> (exists q, 1 <= q /\ 2 * q + 1 <= ido /\ i = 2 * q + 1)%nat ->
    In z (fg_pair d ido ip l1 j i k) -> a_ch z = false /\ (a_ix z < length A)%nat /\ forall a, a_val z a B = at3 ido l1 Av (a_ix z)).
  { intros j i k z Hj Hk (q & Q1 & Q2 & ->) Hz. destruct j as [|s]; [lia|]. unfold fg_pair in Hz.
    replace (ip + 2 - S s)%nat with (S (ip - s)) in Hz by lia. cbn [In] in Hz.
    destruct Hz as [<-|[<-|[<-|[<-|[]]]]]; cbn [a_ch a_ix a_val at_c1]; (split; [reflexivity|]); (split; [apply bd; lia|]); intros _;
      unfold e_ch; rewrite at3_c3 by lia; rewrite !(grid_el _ _ _ _ _ HG) by lia; cbn [Nat.sub]; rewrite Nat.sub_0_r.
    - now rewrite Av_lo by lia.
    - now rewrite Av_hi_re by lia.
    - now rewrite Av_lo by lia.
    - now rewrite Av_hi_im by lia. }
  destruct (run_cc d (at3 ido l1 Av) ((if (ido =? 1)%nat then fg3 d ido l1 else fg2 d ido ip l1) ++ fg4 d ido ip l1) A B)
    as (A' & R1 & R2 & R3 & R4).
  { intros z Hz. apply in_app_iff in Hz. destruct Hz as [Hz|Hz].
    - destruct (ido =? 1)%nat eqn:E1.
      + apply Nat.eqb_eq in E1. unfold fg3 in Hz. apply in_loop in Hz. destruct Hz as (ik & Hik & [<-|[]]). cbn [a_ch a_ix a_val at_c2]. split; auto.
        unfold e_ch2, el2, c2. replace (ik - 1 + idl1 * (1 - 1))%nat with (ik - 1)%nat by lia.
        split; [rewrite HA; nia|]. intros _.
        replace (ik - 1)%nat with (0 + ido * ((ik - 1) + l1 * 0))%nat by nia. rewrite at3_flat by nia. rewrite (HG 0%nat) by nia. reflexivity.
      + unfold fg2 in Hz. rewrite Hph in Hz. destruct (l1 <=? _)%nat; apply in_loop in Hz; destruct Hz as (j & Hj & Hz).
        * apply in_loop in Hz. destruct Hz as (k & Hk & Hz). apply in_loop2 in Hz. destruct Hz as (q & Q1 & Q2 & Hz).
          apply (pr _ _ _ _ Hj Hk) in Hz; eauto.
        * apply in_loop2 in Hz. destruct Hz as (q & Q1 & Q2 & Hz). apply in_loop in Hz. destruct Hz as (k & Hk & Hz).
          apply (pr _ _ _ _ Hj Hk) in Hz; eauto.
    - unfold fg4 in Hz. rewrite Hph in Hz. apply in_loop in Hz. destruct Hz as (j & Hj & Hz).
      apply in_loop in Hz. destruct Hz as (k & Hk & Hz). destruct j as [|s]; [lia|].
      replace (ip + 2 - S s)%nat with (S (ip - s)) in Hz by lia. cbn [In] in Hz.
      destruct Hz as [<-|[<-|[]]]; cbn [a_ch a_ix a_val at_c1]; (split; [reflexivity|]); (split; [apply bd; lia|]); intros _;
        unfold e_ch; rewrite at3_c3 by lia; rewrite !(grid_el _ _ _ _ _ HG) by lia; cbn [Nat.sub]; rewrite Nat.sub_0_r.
      + now rewrite Av_lo by lia.
      + now rewrite Av_hi_0 by lia. }
  exists A'. split; auto. split; auto. intros t k s Ht Hk Hs.
  assert (sym : s = 0%nat \/ (1 <= s <= h)%nat \/ exists u, (1 <= u <= h)%nat /\ s = (ip - u)%nat).
  { destruct (Nat.eq_dec s 0); auto. destruct (le_lt_dec s h); [right; left; lia|]. right; right. exists (ip - s)%nat. lia. }
  assert (HE : s = 0%nat /\ (ido <> 1)%nat \/ Exists (fun z => a_ix z = (t + ido * (k + l1 * s))%nat)
    ((if (ido =? 1)%nat then fg3 d ido l1 else fg2 d ido ip l1) ++ fg4 d ido ip l1)).
  { destruct sym as [->|sym].
    - destruct (ido =? 1)%nat eqn:E1; [right|left; split; auto; apply Nat.eqb_neq; auto].
      apply Nat.eqb_eq in E1. apply exists_app_l. unfold fg3. apply (exists_loop _ _ _ _ (k + 1)%nat); [nia|].
      apply Exists_cons_hd. cbn [a_ix at_c2]. unfold c2. nia.
    - right. destruct (col t Ht) as [->|(q & Q1 & Q2 & Q3)].
      + apply exists_app_r. unfold fg4. rewrite Hph. destruct sym as [Hu|(u & Hu & ->)].
        * apply (exists_loop _ _ _ _ (s + 1)%nat); [lia|]. apply (exists_loop _ _ _ _ (k + 1)%nat); [lia|].
          apply Exists_cons_hd. cbn [a_ix at_c1]. unfold c3. rewrite !Nat.add_sub. lia.
        * apply (exists_loop _ _ _ _ (u + 1)%nat); [lia|]. apply (exists_loop _ _ _ _ (k + 1)%nat); [lia|].
          apply Exists_cons_tl, Exists_cons_hd. cbn [a_ix at_c1]. unfold c3. rewrite !Nat.add_sub.
          replace (ip + 2 - (u + 1) - 1)%nat with (ip - u)%nat by lia. lia.
      + apply exists_app_l. destruct (ido =? 1)%nat eqn:E1; [apply Nat.eqb_eq in E1; lia|].
        assert (EP : exists u, (1 <= u <= h)%nat /\ Exists (fun z => a_ix z = (t + ido * (k + l1 * s))%nat)
           (fg_pair d ido ip l1 (u + 1) (2 * q + 1) (k + 1))).
        { destruct sym as [Hu|(u & Hu & ->)].
          - exists s. split; auto. unfold fg_pair. destruct Q3 as [->| ->]; [do 2 apply Exists_cons_tl|]; apply Exists_cons_hd; cbn [a_ix at_c1]; unfold c3; rewrite !Nat.add_sub; lia.
          - exists u. split; auto. unfold fg_pair. destruct Q3 as [->| ->]; [do 3 apply Exists_cons_tl|apply Exists_cons_tl]; apply Exists_cons_hd; cbn [a_ix at_c1]; unfold c3; rewrite !Nat.add_sub;
              replace (ip + 2 - (u + 1) - 1)%nat with (ip - u)%nat by lia; lia. }
        destruct EP as (u & Hu & EP). unfold fg2. rewrite Hph.
        destruct (l1 <=? _)%nat; apply (exists_loop _ _ _ _ (u + 1)%nat); try lia.
        * apply (exists_loop _ _ _ _ (k + 1)%nat); [lia|]. apply (exists_loop2 _ _ _ q); auto.
        * apply (exists_loop2 _ _ _ q); auto. apply (exists_loop _ _ _ _ (k + 1)%nat); auto; lia. }
  destruct HE as [[-> Hne]|HE]; [|rewrite R3 by auto; apply at3_flat; auto].
  destruct (Exists_dec (fun z => a_ix z = (t + ido * (k + l1 * 0))%nat) ((if (ido =? 1)%nat then fg3 d ido l1 else fg2 d ido ip l1) ++ fg4 d ido ip l1))
    as [HE|HE]; [intros; apply Nat.eq_dec|rewrite R3 by auto; apply at3_flat; auto|].
  rewrite R4 by auto. rewrite Nat.mul_0_r, Nat.add_0_r. rewrite H0 by auto. symmetry. apply Av_0.
Qed.

(** fg5 and fg6 *)
Definition Bv (t k s : nat) : R :=
  if (s =? 0)%nat then Av t k 0 + sumR h (fun u => Av t k (S u))
  else if (s <=? h)%nat then Av t k 0 + sumR h (fun u => cos (th ip (s * S u)) * Av t k (S u))
  else sumR h (fun u => sin (th ip ((ip - s) * S u)) * Av t k (ip - S u)).

Lemma fg6_ok A B : length B = (ido * ip * l1)%nat ->
  exists B', run (fg6 d ido ip l1) (A, B) = Some (A, B') /\ length B' = length B /\
    (forall e, (e < idl1)%nat -> nth (e + idl1 * 0) B' d = nth (e + idl1 * 0) B d + sumR h (fun u => nth (e + idl1 * S u) A d)) /\
    (forall e s, (e < idl1)%nat -> (1 <= s)%nat -> nth (e + idl1 * s) B' d = nth (e + idl1 * s) B d).
Proof.
  intros HB. unfold fg6. rewrite ipph_h. unfold loop at 1. replace (h + 1 + 1 - 2)%nat with h by lia.
  destruct (run_steps true (fun j => loop 1 idl1 (fun ik => (at_ch2 ido l1 ik 1 (fun a b => e_ch2 d ido l1 b ik 1 + e_c2 d ido l1 a ik j) :: nil)))
    (fun m Y => length Y = length B /\
      (forall e, (e < idl1)%nat -> nth (e + idl1 * 0) Y d = nth (e + idl1 * 0) B d + sumR (m - 2) (fun u => nth (e + idl1 * S u) A d)) /\
      (forall e s, (e < idl1)%nat -> (1 <= s)%nat -> nth (e + idl1 * s) Y d = nth (e + idl1 * s) B d)) A h 2%nat B) as (B' & R1 & L1 & V1 & U1).
  - split; auto. split; auto. intros. cbn [Nat.sub sumR]. ring.
  - intros j Y Hj (L1 & V1 & U1).
    set (p := loop 1 idl1 _).
    destruct (run_once d (fun i old => old + nth (i + idl1 * (j - 1)) A d) p A Y) as (Y' & R2 & L2 & V2 & U2).
    + unfold p, loop. rewrite flat_map_concat_map, concat_map, map_map. rewrite <- flat_map_concat_map. cbn [map a_ix at_ch2].
      apply NoDup_flat_map; [apply seq_NoDup| |].
      * intros. constructor; auto. constructor.
      * intros ik ik' z Z1 Z2 [<-|[]] [Z4|[]]. apply in_seq in Z1, Z2. unfold c2 in Z4. lia.
    + intros z Hz. unfold p in Hz. apply in_loop in Hz. destruct Hz as (ik & Hik & [<-|[]]). cbn [a_ch a_ix a_val at_ch2].
      split; auto. unfold c2. split; [rewrite L1, HB; nia|]. intros b. unfold e_ch2, e_c2, el2, c2. f_equal. f_equal. nia.
    + exists Y'. split; auto. split; [lia|]. split.
      * intros e He. rewrite V2; [|unfold p; apply (exists_loop _ _ _ _ (e + 1)%nat); [lia|]; apply Exists_cons_hd; cbn [a_ix at_ch2]; unfold c2; lia].
        rewrite V1 by auto. replace (S j - 2)%nat with (S (j - 2)) by lia. cbn [sumR]. rewrite Rplus_assoc. f_equal. f_equal. f_equal. nia.
      * intros e s He Hs. rewrite U2; auto. intros E. apply Exists_exists in E. destruct E as (z & Hz & E).
        unfold p in Hz. apply in_loop in Hz. destruct Hz as (ik & Hik & [<-|[]]). cbn [a_ix at_ch2] in E. unfold c2 in E. nia.
  - exists B'. split; auto. split; auto. split; auto. intros. rewrite V1 by auto. replace (2 + h - 2)%nat with h by lia. reflexivity.
Qed.

Lemma fg56_ok A B : grid Av A -> length B = (ido * ip * l1)%nat ->
  (forall t k, (t < ido)%nat -> (k < l1)%nat -> nth (t + ido * k) B d = Tv t k 0) ->
  exists B', run (fg5 d ido ip l1 ++ fg6 d ido ip l1) (A, B) = Some (A, B') /\ length B' = length B /\ grid Bv B'.
Proof.
  intros HG HB H0. pose proof Hido as Hi0.
  destruct (rotate_ok d true idl1 ip h A B Hip Hh ltac:(rewrite HB; apply len_eq)) as (B1 & R1 & L1 & Z1 & V1).
  destruct (fg6_ok A B1 ltac:(congruence)) as (B2 & R2 & L2 & V2 & U2).
  exists B2. split.
  { rewrite run_app. change (fg5 d ido ip l1) with (rotate d true idl1 ip).
    change (A, B) with (both true A B). rewrite R1. cbn [bind both]. exact R2. }
  split; [congruence|]. apply row_grid. intros e s He Hs.
  assert (D : (e mod ido < ido)%nat /\ (e / ido < l1)%nat).
  { split; [apply Nat.mod_upper_bound; lia|apply Nat.div_lt_upper_bound; lia]. }
  destruct (Nat.eq_dec s 0) as [->|Hs0].
  - rewrite V2, Z1 by auto. unfold Bv. cbn [Nat.eqb]. rewrite Av_0. f_equal.
    + rewrite Nat.mul_0_r, Nat.add_0_r. rewrite (Nat.div_mod_eq e ido) at 1. rewrite Nat.add_comm. apply H0; apply D.
    + apply sumR_ext. intros u Hu. apply grid_row; auto; lia.
  - rewrite U2 by lia. unfold Bv. destruct (Nat.eqb_spec s 0); [lia|]. destruct (Nat.leb_spec s h).
    + destruct (V1 e s He ltac:(lia)) as [-> _]. unfold rowc. rewrite (grid_row Av) by (auto; lia). f_equal.
      apply sumR_ext. intros u Hu. f_equal. apply grid_row; auto; lia.
    + destruct (V1 e (ip - s)%nat He ltac:(lia)) as [_ V]. replace (ip - (ip - s))%nat with s in V by lia. rewrite V. unfold rows.
      apply sumR_ext. intros u Hu. f_equal. apply grid_row; auto; lia.
Qed.

(** The rows of Bv in terms of the twisted coefficients *)
Lemma Bv_0 t k : Bv t k 0 = sumR ip (fun s => Tv t k s).
Proof.
  rewrite Hip at 1. rewrite sumR_pair. unfold Bv. cbn [Nat.eqb]. rewrite Av_0. f_equal. apply sumR_ext. intros u Hu.
  rewrite Av_lo by lia. rewrite Hip. reflexivity.
Qed.
Lemma Bv_lo t k a : (1 <= a <= h)%nat -> Bv t k a = sumR ip (fun s => cos (th ip (s * a)) * Tv t k s).
Proof.
  intros Ha. rewrite Hip at 1. rewrite sumR_pair. unfold Bv. destruct (Nat.eqb_spec a 0); [lia|]. destruct (Nat.leb_spec a h); [|lia].
  rewrite Av_0. rewrite Nat.mul_0_l, th_0, cos_0. rewrite Rmult_1_l. f_equal. apply sumR_ext. intros u Hu.
  rewrite Av_lo by lia. rewrite <- Hip. rewrite cos_refl by lia. rewrite (Nat.mul_comm a). ring.
Qed.
(** the sine row, for a value (w s - w (ip - s)) in place of the difference *)
Lemma Bv_hi t k a w : (1 <= a <= h)%nat -> (forall s, (1 <= s <= h)%nat -> Av t k (ip - s) = w s - w (ip - s)%nat) ->
  Bv t k (ip - a) = sumR ip (fun s => sin (th ip (s * a)) * w s).
Proof.
  intros Ha Hv. rewrite Hip at 2. rewrite sumR_pair. unfold Bv. destruct (Nat.eqb_spec (ip - a) 0); [lia|]. destruct (Nat.leb_spec (ip - a) h); [lia|].
  rewrite Nat.mul_0_l, th_0, sin_0, Rmult_0_l, Rplus_0_l. apply sumR_ext. intros u Hu.
  replace (ip - (ip - a))%nat with a by lia. rewrite Hv by lia. rewrite <- Hip. rewrite sin_refl by lia. rewrite (Nat.mul_comm a). ring.
Qed.
Lemma Bv_hi_0 k a : (1 <= a <= h)%nat -> Bv 0 k (ip - a) = - sumR ip (fun s => sin (th ip (s * a)) * Tv 0 k s).
Proof.
  intros. rewrite (Bv_hi 0 k a (fun s => - Tv 0 k s)); auto.
  - rewrite <- sumR_opp. apply sumR_ext. intros; ring.
  - intros. rewrite Av_hi_0 by auto. ring.
Qed.
Lemma Bv_hi_re q k a : (1 <= a <= h)%nat -> (1 <= q)%nat ->
  Bv (2 * q + 1 - 1 - 1) k (ip - a) = sumR ip (fun s => sin (th ip (s * a)) * Tv (2 * q + 1 - 1) k s).
Proof. intros. apply Bv_hi; auto. intros. apply Av_hi_re; auto. Qed.
Lemma Bv_hi_im q k a : (1 <= a <= h)%nat -> (1 <= q)%nat ->
  Bv (2 * q + 1 - 1) k (ip - a) = - sumR ip (fun s => sin (th ip (s * a)) * Tv (2 * q + 1 - 1 - 1) k s).
Proof.
  intros. rewrite (Bv_hi _ k a (fun s => - Tv (2 * q + 1 - 1 - 1) k s)); auto.
  - rewrite <- sumR_opp. apply sumR_ext. intros; ring.
  - intros. rewrite Av_hi_im by auto. ring.
Qed.

Local Notation y k := (strided x l1 (k - 1)).
(** fg7 *)
Lemma fg7_ok A B : grid Bv B -> length A = (ido * ip * l1)%nat ->
  exists A', run (fg7 d ido ip l1) (A, B) = Some (A', B) /\ length A' = length A /\ stage_out d ip ido l1 x A'.
Proof.
  intros HG HA. pose proof Hido as Hi0. pose proof ipph_h as Hph. assert (Hip0 : (0 < ip)%nat) by lia.
  assert (bd : forall i j k, (1 <= i <= ido)%nat -> (1 <= j <= ip)%nat -> (1 <= k <= l1)%nat -> (c3 ido ip i j k < length A)%nat).
  { intros. rewrite HA. apply c3_bound; auto. }
  assert (T0 : forall k s, Tv 0 k s = TR ip ido (strided x l1 k) 0 s) by reflexivity.
  assert (TI0 : forall k s, TI ip ido (strided x l1 k) 0 s = 0).
  { intros. unfold TI. rewrite Nat.mul_0_r, th_0, cos_0, sin_0, Sn_0. ring. }
  assert (un : forall j i k z, (2 <= j <= h + 1)%nat -> (1 <= k <= l1)%nat -> (exists q, 1 <= q /\ 2 * q + 1 <= ido /\ i = 2 * q + 1)%nat ->
    In z (fg_unpair d ido ip l1 j i k) -> a_ch z = false /\ (a_ix z < length A)%nat /\ forall a, a_val z a B = target ip ido l1 x (a_ix z)).
  { intros j i k z Hj Hk (q & Q1 & Q2 & ->) Hz. destruct j as [|a]; [lia|]. unfold fg_unpair in Hz.
    replace (ip + 2 - S a)%nat with (S (ip - a)) in Hz by lia.
    replace (S a + S a - 1)%nat with (2 * a + 1)%nat in Hz by lia. replace (S a + S a - 2)%nat with (2 * a)%nat in Hz by lia. cbn [In] in Hz.
    destruct Hz as [<-|[<-|[<-|[<-|[]]]]]; cbn [a_ch a_ix a_val at_cc]; (split; [reflexivity|]); (split; [apply bd; lia|]); intros _;
      unfold e_ch; rewrite target_c3 by lia; rewrite !(grid_el _ _ _ _ _ HG) by lia.
    - rewrite Bv_lo, Bv_hi_re by lia. rewrite (out_re_plus ip ido l1 x Hip0 Hi0 Hl1) by lia. rewrite <- sumR_plus. apply sumR_ext. intros. rewrite Tv_re, Tv_im by auto. ring.
    - rewrite Bv_lo, Bv_hi_re by lia. rewrite (out_re_minus ip ido l1 x Hip0 Hi0 Hl1) by lia. rewrite <- sumR_minus. apply sumR_ext. intros. rewrite Tv_re, Tv_im by auto. ring.
    - rewrite Bv_lo, Bv_hi_im by lia. rewrite (out_im_plus ip ido l1 x Hip0 Hi0 Hl1) by lia. rewrite <- sumR_opp, <- sumR_plus. apply sumR_ext. intros. rewrite Tv_re, Tv_im by auto. ring.
    - rewrite Bv_hi_im, Bv_lo by lia. rewrite (out_im_minus ip ido l1 x Hip0 Hi0 Hl1) by lia. rewrite <- sumR_opp, <- sumR_minus. apply sumR_ext. intros. rewrite Tv_re, Tv_im by auto. ring. }
  assert (hd : forall i k, (1 <= i <= ido)%nat -> (1 <= k <= l1)%nat -> el3 d ido l1 B i k 1 = hc N (y k) (i - 1 + ido * (1 - 1))).
  { intros i k Hi Hk. rewrite (grid_el _ _ _ _ _ HG) by lia. rewrite Bv_0.
    destruct (col (i - 1) ltac:(lia)) as [E|(q & Q1 & Q2 & [E|E])]; rewrite E.
    - change (0 + ido * (1 - 1))%nat with (1 - 1 + ido * (1 - 1))%nat. rewrite (out_first ip ido l1 x Hip0 Hi0 Hl1). apply sumR_ext. intros. rewrite Nat.mul_0_r, th_0, cos_0, sin_0, T0. ring.
    - replace (ido * (1 - 1))%nat with (ido * (2 * 0 + 1 - 1))%nat by lia. rewrite (out_im_plus ip ido l1 x Hip0 Hi0 Hl1) by auto.
      apply sumR_ext. intros. rewrite Nat.mul_0_r, th_0, cos_0, sin_0, Tv_im by auto. ring.
    - replace (ido * (1 - 1))%nat with (ido * (2 * 0 + 1 - 1))%nat by lia. rewrite (out_re_plus ip ido l1 x Hip0 Hi0 Hl1) by auto.
      apply sumR_ext. intros. rewrite Nat.mul_0_r, th_0, cos_0, sin_0, Tv_re by auto. ring. }
  destruct (run_cc d (target ip ido l1 x) (fg7 d ido ip l1) A B) as (A' & R1 & R2 & R3 & _).
  { intros z Hz. unfold fg7 in Hz. apply in_app_iff in Hz. destruct Hz as [Hz|Hz].
    - assert (exists i k, (1 <= i <= ido)%nat /\ (1 <= k <= l1)%nat /\ z = at_cc ido ip i 1 k (fun b => e_ch d ido l1 b i k 1)) as (i & k & Hi & Hk & ->).
      { destruct (ido <? l1)%nat; apply in_loop in Hz; destruct Hz as (u & Hu & Hz); apply in_loop in Hz; destruct Hz as (v & Hv & [<-|[]]); eauto 6. }
      cbn [a_ch a_ix a_val at_cc]. split; auto. split; [apply bd; lia|]. intros _. rewrite target_c3 by lia. apply hd; auto.
    - apply in_app_iff in Hz. destruct Hz as [Hz|Hz].
      + rewrite Hph in Hz. apply in_loop in Hz. destruct Hz as (j & Hj & Hz). apply in_loop in Hz. destruct Hz as (k & Hk & Hz).
        destruct j as [|a]; [lia|]. replace (ip + 2 - S a)%nat with (S (ip - a)) in Hz by lia.
        replace (S a + S a - 1)%nat with (2 * a + 1)%nat in Hz by lia. replace (S a + S a - 2)%nat with (2 * a)%nat in Hz by lia. cbn [In] in Hz.
        destruct Hz as [<-|[<-|[]]]; cbn [a_ch a_ix a_val at_cc]; (split; [reflexivity|]); (split; [apply bd; lia|]); intros _;
          unfold e_ch; rewrite target_c3 by lia; rewrite !(grid_el _ _ _ _ _ HG) by lia; cbn [Nat.sub].
        * rewrite Bv_lo by lia. rewrite (out_head_even ip ido l1 x Hip0 Hi0 Hl1) by lia. apply sumR_ext. intros. rewrite TI0, T0. ring.
        * rewrite Bv_hi_0 by lia. change (0 + ido * (2 * a + 1 - 1))%nat with (1 - 1 + ido * (2 * a + 1 - 1))%nat. rewrite (out_head_odd ip ido l1 x Hip0 Hi0 Hl1) by lia. rewrite <- sumR_opp. apply sumR_ext. intros. rewrite TI0, T0. ring.
      + destruct (ido =? 1)%nat; [destruct Hz|]. rewrite Hph in Hz. destruct (_ <? l1)%nat; apply in_loop in Hz; destruct Hz as (j & Hj & Hz).
        * apply in_loop2 in Hz. destruct Hz as (q & Q1 & Q2 & Hz). apply in_loop in Hz. destruct Hz as (k & Hk & Hz).
          apply (un _ _ _ _ Hj Hk) in Hz; eauto.
        * apply in_loop in Hz. destruct Hz as (k & Hk & Hz). apply in_loop2 in Hz. destruct Hz as (q & Q1 & Q2 & Hz).
          apply (un _ _ _ _ Hj Hk) in Hz; eauto. }
  exists A'. split; auto. split; auto. intros k t Hk Ht.
  pose proof (Nat.div_mod_eq t ido). pose proof (Nat.mod_upper_bound t ido ltac:(lia)).
  assert (Htj : (t / ido < ip)%nat) by (apply Nat.div_lt_upper_bound; lia).
  remember (t mod ido + 1)%nat as i eqn:Ei. remember (t / ido + 1)%nat as j eqn:Ej.
  assert (Ec : (t + N * k)%nat = c3 ido ip i j (k + 1)) by (unfold c3; subst i j; rewrite !Nat.add_sub; nia).
  rewrite Ec, R3; [rewrite target_c3 by lia; rewrite Nat.add_sub; f_equal; subst i j; rewrite !Nat.add_sub; lia|].
  assert (Hi : (1 <= i <= ido)%nat) by lia. assert (Hj : (1 <= j <= ip)%nat) by lia. clear Ec Ei Ej.
  assert (hit : forall a q z, (1 <= a <= h)%nat -> (1 <= q)%nat -> (2 * q + 1 <= ido)%nat -> In z (fg_unpair d ido ip l1 (a + 1) (2 * q + 1) (k + 1)) ->
    a_ix z = c3 ido ip i j (k + 1) -> Exists (fun z => a_ix z = c3 ido ip i j (k + 1)) (fg7 d ido ip l1)).
  { intros a q z Ha Q1 Q2 Hz Ez. unfold fg7. apply exists_app_r, exists_app_r. destruct (ido =? 1)%nat eqn:E1; [apply Nat.eqb_eq in E1; lia|].
    assert (EX : Exists (fun z => a_ix z = c3 ido ip i j (k + 1)) (fg_unpair d ido ip l1 (a + 1) (2 * q + 1) (k + 1))) by (apply Exists_exists; eauto).
    rewrite Hph. destruct (_ <? l1)%nat; apply (exists_loop _ _ _ _ (a + 1)%nat); try lia.
    - apply (exists_loop2 _ _ _ q); auto. apply (exists_loop _ _ _ _ (k + 1)%nat); auto; lia.
    - apply (exists_loop _ _ _ _ (k + 1)%nat); [lia|]. apply (exists_loop2 _ _ _ q); auto. }
  destruct (Nat.eq_dec j 1) as [->|Hj1].
  { unfold fg7. apply exists_app_l. destruct (ido <? l1)%nat.
    - apply (exists_loop _ _ _ _ (k + 1)%nat); [lia|]. apply (exists_loop _ _ _ _ i); [lia|]. apply Exists_cons_hd. reflexivity.
    - apply (exists_loop _ _ _ _ i); [lia|]. apply (exists_loop _ _ _ _ (k + 1)%nat); [lia|]. apply Exists_cons_hd. reflexivity. }
  assert (Jp : exists a, (1 <= a <= h)%nat /\ (j = 2 * a + 1 \/ j = 2 * a)%nat).
  { exists (j / 2)%nat. pose proof (Nat.div_mod_eq j 2). pose proof (Nat.mod_upper_bound j 2 ltac:(lia)). lia. }
  destruct Jp as (a & Ha & Jp).
  assert (hit0 : forall z, In z [at_cc ido ip ido (a + 1 + (a + 1) - 2) (k + 1) (fun b => e_ch d ido l1 b 1 (k + 1) (a + 1));
      at_cc ido ip 1 (a + 1 + (a + 1) - 1) (k + 1) (fun b => e_ch d ido l1 b 1 (k + 1) (ip + 2 - (a + 1)))] ->
    a_ix z = c3 ido ip i j (k + 1) -> Exists (fun z => a_ix z = c3 ido ip i j (k + 1)) (fg7 d ido ip l1)).
  { intros z Hz Ez. unfold fg7. apply exists_app_r, exists_app_l. rewrite Hph. apply (exists_loop _ _ _ _ (a + 1)%nat); [lia|].
    apply (exists_loop _ _ _ _ (k + 1)%nat); [lia|]. apply Exists_exists. eauto. }
  destruct Jp as [->| ->].
  - destruct (col_odd ido i Hi) as [->|[(q & Q1 & Q2 & Q3)|[-> E]]]; [| |lia].
    + eapply hit0; [right; left; reflexivity|]. cbn [a_ix at_cc]. f_equal; lia.
    + destruct Q3 as [->| ->].
      * eapply (hit a q); auto; [right; right; left; reflexivity|]. cbn [a_ix at_cc]. f_equal; lia.
      * eapply (hit a q); auto; [left; reflexivity|]. cbn [a_ix at_cc]. f_equal; lia.
  - destruct (col_even ido i Hi) as [->|[(q & Q1 & Q2 & Q3)|(-> & E & E')]]; [| |lia].
    + eapply hit0; [left; reflexivity|]. cbn [a_ix at_cc]. f_equal; lia.
    + destruct Q3 as [->| ->].
      * eapply (hit a q); auto; [right; right; right; left; reflexivity|]. cbn [a_ix at_cc]. f_equal; lia.
      * eapply (hit a q); auto; [right; left; reflexivity|]. cbn [a_ix at_cc]. f_equal; lia.
Qed.

(** The whole pass: the blocks are in cc on entry, in ch if ido = 1; they are in cc on return *)
Lemma hradfg_ok A B : length A = (ido * ip * l1)%nat -> length B = (ido * ip * l1)%nat ->
  stage_in d ip ido l1 x (if (ido =? 1)%nat then B else A) ->
  exists A' B', run (hradfg d ido ip l1 wa) (A, B) = Some (A', B') /\ length A' = length A /\ length B' = length B /\
    stage_out d ip ido l1 x A'.
Proof.
  intros HA HB Hin. pose proof Hido as Hi0. assert (Hip0 : (0 < ip)%nat) by lia.
  assert (P1 : exists B1, run (if (ido =? 1)%nat then [] else fg1 d ido ip l1 wa) (A, B) = Some (A, B1) /\ length B1 = length B /\ grid Tv B1).
  { destruct (ido =? 1)%nat eqn:E1; [|apply fg1_ok; auto]. apply Nat.eqb_eq in E1. exists B. split; auto. split; auto.
    intros t k s Ht Hk Hs. assert (t = 0)%nat by lia. subst t. unfold Tv. cbn [Nat.eqb].
    pose proof (TR_0 d ip ido l1 x B Hip0 Hi0 Hl1 Hin (k + 1)%nat s ltac:(lia) ltac:(lia)) as T. rewrite Nat.add_sub in T. rewrite T.
    unfold el3, c3. rewrite Nat.add_sub. f_equal. lia. }
  destruct P1 as (B1 & R1 & L1 & G1).
  destruct (fg24_ok A B1 G1 HA) as (A2 & R2 & L2 & G2).
  { intros Hne t k Ht Hk. rewrite (proj2 (Nat.eqb_neq _ _) Hne) in Hin. rewrite <- (Nat.add_0_r k), <- (Nat.mul_0_r l1).
    rewrite (Hin k 0%nat t Hk ltac:(lia) Ht). rewrite (Nat.mul_0_r l1), (Nat.add_0_r k).
    destruct (col t Ht) as [->|(q & Q1 & Q2 & [->| ->])].
    - unfold Tv. cbn [Nat.eqb]. rewrite hc_0. unfold TR. rewrite Nat.mul_0_l, th_0, cos_0, sin_0. ring.
    - rewrite Tv_im by auto. replace (2 * q + 1 - 1)%nat with (2 * q)%nat by lia. rewrite hc_im by auto.
      unfold TI. rewrite Nat.mul_0_l, th_0, cos_0, sin_0. ring.
    - rewrite Tv_re by auto. replace (2 * q + 1 - 1 - 1)%nat with (2 * q - 1)%nat by lia. rewrite hc_re by auto.
      unfold TR. rewrite Nat.mul_0_l, th_0, cos_0, sin_0. ring. }
  destruct (fg56_ok A2 B1 G2 ltac:(congruence)) as (B3 & R3 & L3 & G3).
  { intros t k Ht Hk. rewrite <- (G1 t k 0%nat) by lia. f_equal. lia. }
  destruct (fg7_ok A2 B3 G3 ltac:(congruence)) as (A4 & R4 & L4 & O4).
  exists A4, B3. split; [|split; [congruence|split; [congruence|auto]]].
  unfold hradfg. rewrite run_app in R2, R3. rewrite run_app.
  destruct (ido =? 1)%nat eqn:E1.
  - injection R1 as <-. destruct (run (fg3 d ido l1) (A, B)) as [s|]; [|discriminate]. cbn [bind] in *.
    rewrite run_app, R2. cbn [bind]. rewrite run_app. destruct (run (fg5 d ido ip l1) (A2, B)) as [s'|]; [|discriminate]. cbn [bind] in *.
    rewrite run_app, R3. cbn [bind]. exact R4.
  - rewrite run_app, R1. cbn [bind]. destruct (run (fg2 d ido ip l1) (A, B1)) as [s|]; [|discriminate]. cbn [bind] in *.
    rewrite run_app, R2. cbn [bind]. rewrite run_app. destruct (run (fg5 d ido ip l1) (A2, B1)) as [s'|]; [|discriminate]. cbn [bind] in *.
    rewrite run_app, R3. cbn [bind]. exact R4.
Qed.
End Gen.
