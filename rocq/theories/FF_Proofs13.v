(** The backward pass of general odd radix. *)
From Coq Require Import Reals List Arith Lia Lra Bool.
From Verif Require Import Base Buffer VH_Model RS_Spec RS_Dft FF_Model FF_Model2 FF_Proofs FF_Proofs2 FF_Proofs3 FF_Proofs5 FF_Proofs6 FF_Proofs11.
Import ListNotations.
Local Open Scope R_scope.

(** Assignments to the first m elements of ch, each once, reading the element
    itself and the elements from m on *)
Lemma run_once_self (d : R) (m : nat) (F : nat -> R -> list R -> R) p A B0 B :
  (forall i o Y Y', (forall j, (m <= j)%nat -> nth j Y d = nth j Y' d) -> F i o Y = F i o Y') ->
  NoDup (map a_ix p) -> (m <= length B)%nat ->
  (forall j, (m <= j)%nat -> nth j B d = nth j B0 d) ->
  (forall z, In z p -> a_ch z = true /\ (a_ix z < m)%nat /\ (forall b, a_val z A b = F (a_ix z) (nth (a_ix z) b d) b)) ->
  exists B', run p (A, B) = Some (A, B') /\ length B' = length B /\
    (forall i, Exists (fun z => a_ix z = i) p -> nth i B' d = F i (nth i B d) B0) /\
    (forall i, ~ Exists (fun z => a_ix z = i) p -> nth i B' d = nth i B d).
Proof.
  intros HF. revert B. induction p as [|z p IH]; intros B ND L E H.
  - exists B. split; [reflexivity|]. split; auto. split; intros i X; auto. inversion X.
  - destruct (H z (or_introl eq_refl)) as (H1 & H2 & H3). cbn in ND. inversion ND as [|? ? N1 N2]; subst.
    destruct (IH (upd0 B (a_ix z) (F (a_ix z) (nth (a_ix z) B d) B))) as (B' & R1 & R2 & R3 & R4); auto.
    { rewrite upd0_length. auto. }
    { intros j Hj. rewrite nth_upd0_neq by lia. auto. }
    { intros y Hy. apply H; right; auto. }
    assert (NE : ~ Exists (fun y => a_ix y = a_ix z) p).
    { intros Y. apply Exists_exists in Y. destruct Y as (y & Y1 & Y2). apply N1. rewrite <- Y2. apply in_map; auto. }
    exists B'. unfold run in *. cbn [foldM]. unfold exec at 1. cbn [fst snd]. rewrite H1, H3.
    rewrite wrx_at by lia. cbn. split; [exact R1|]. rewrite upd0_length in R2. split; auto.
    split; intros i X.
    + apply Exists_cons in X. destruct X as [X|X].
      * subst i. rewrite R4 by auto. rewrite nth_upd0_eq by lia. apply HF. auto.
      * rewrite R3 by auto. f_equal. apply nth_upd0_neq. intros Y. subst i. contradiction.
    + rewrite R4 by (intros Y; apply X; right; auto). apply nth_upd0_neq. intros Y. apply X. left; auto.
Qed.

Section Gen.
Variable d : R.
Variables ido ip l1 h : nat.
Hypothesis Hip : ip = (2 * h + 1)%nat.
Hypothesis Hh : (1 <= h)%nat.
Hypothesis Hodd : (ido mod 2 = 1)%nat.
Hypothesis Hl1 : (0 < l1)%nat.
Variable x : nat -> R.
Variable wa : nat -> R.
Hypothesis Hw : twisted ip ido (fun s i => wa (s * ido + i)%nat).
Variable A : list R.
Hypothesis Hin : stage_out d ip ido l1 x A.
Hypothesis HA : length A = (ido * ip * l1)%nat.
Local Notation idl1 := (ido * l1)%nat.
Local Notation grid := (FF_Proofs6.grid d ido ip l1).
Local Notation Tv := (FF_Proofs6.Tv ido ip l1 x).
Let Hi0 : (0 < ido)%nat := FF_Proofs6.Hido ido ip l1 h Hip Hh Hodd Hl1 wa Hw.
Let Hip0 : (0 < ip)%nat.
Proof. lia. Qed.
Let Hph := FF_Proofs6.ipph_h ido ip l1 h Hip Hh Hodd Hl1.
Let leneq := FF_Proofs6.len_eq ido ip l1 h Hip Hh Hodd Hl1.
Let gel := FF_Proofs6.grid_el d ido ip l1 h Hip Hh Hodd Hl1.
Let grow := FF_Proofs6.grid_row d ido ip l1 h Hip Hh Hodd Hl1 wa Hw.
Let rowg := FF_Proofs6.row_grid d ido ip l1 h Hip Hh Hodd Hl1.
Let col := FF_Proofs6.col ido ip l1 h Hip Hh Hodd Hl1.
Let odd_re := FF_Proofs6.odd_re ido ip l1 h Hip Hh Hodd Hl1.
Let odd_im := FF_Proofs6.odd_im ido ip l1 h Hip Hh Hodd Hl1.
Let Tv_re := FF_Proofs6.Tv_re ido ip l1 h Hip Hh Hodd Hl1 x.
Let Tv_im := FF_Proofs6.Tv_im ido ip l1 h Hip Hh Hodd Hl1 x.
Local Notation a3 := (el3 d ido ip A).

Lemma bdl (Y : list R) i k s : length Y = (ido * ip * l1)%nat -> (1 <= i <= ido)%nat -> (1 <= k <= l1)%nat -> (s < ip)%nat -> (c3 ido l1 i k (S s) < length Y)%nat.
Proof. intros HY Hi Hk Hs. rewrite HY, leneq. apply c3_bound; lia. Qed.
Lemma symm s : (s < ip)%nat -> s = 0%nat \/ (1 <= s <= h)%nat \/ exists u, (1 <= u <= h)%nat /\ s = (ip - u)%nat.
Proof. intros. destruct (Nat.eq_dec s 0); auto. destruct (le_lt_dec s h); [right; left; lia|]. right; right. exists (ip - s)%nat. lia. Qed.

(** bg0: a copy, overwritten by bg1 *)
Lemma bg0_ok B : length B = (ido * ip * l1)%nat ->
  exists B', run (bg0 d ido ip l1) (A, B) = Some (A, B') /\ length B' = length B.
Proof.
  intros HB. destruct (run_ch d (fun i => nth i A d) (bg0 d ido ip l1) A B) as (B' & R1 & R2 & _); [|eauto].
  intros z Hz. unfold bg0 in Hz. cbv beta zeta in Hz. apply in_loop in Hz. destruct Hz as (j & Hj & Hz).
  apply in_loop in Hz. destruct Hz as (ik & Hik & [<-|[]]). cbn [a_ch a_ix a_val]. split; auto. split; [|reflexivity].
  rewrite HB, leneq. unfold c2. nia.
Qed.

(** bg1: sums and differences *)
Definition Pv (t k s : nat) : R :=
  if (s =? 0)%nat then a3 (t + 1) 1 (k + 1)
  else if (s <=? h)%nat then
    if (t =? 0)%nat then a3 ido (2 * s) (k + 1) + a3 ido (2 * s) (k + 1)
    else if Nat.odd t then a3 (t + 1) (2 * s + 1) (k + 1) + a3 (ido - 1 - t) (2 * s) (k + 1)
    else a3 (t + 1) (2 * s + 1) (k + 1) - a3 (ido + 1 - t) (2 * s) (k + 1)
  else
    if (t =? 0)%nat then a3 1 (2 * (ip - s) + 1) (k + 1) + a3 1 (2 * (ip - s) + 1) (k + 1)
    else if Nat.odd t then a3 (t + 1) (2 * (ip - s) + 1) (k + 1) - a3 (ido - 1 - t) (2 * (ip - s)) (k + 1)
    else a3 (t + 1) (2 * (ip - s) + 1) (k + 1) + a3 (ido + 1 - t) (2 * (ip - s)) (k + 1).
Lemma Pv_lo t k s : (1 <= s <= h)%nat -> Pv t k s =
    if (t =? 0)%nat then a3 ido (2 * s) (k + 1) + a3 ido (2 * s) (k + 1)
    else if Nat.odd t then a3 (t + 1) (2 * s + 1) (k + 1) + a3 (ido - 1 - t) (2 * s) (k + 1)
    else a3 (t + 1) (2 * s + 1) (k + 1) - a3 (ido + 1 - t) (2 * s) (k + 1).
Proof. intros. unfold Pv. destruct (Nat.eqb_spec s 0); [lia|]. destruct (Nat.leb_spec s h); [reflexivity|lia]. Qed.
Lemma Pv_hi t k s : (1 <= s <= h)%nat -> Pv t k (ip - s) =
    if (t =? 0)%nat then a3 1 (2 * s + 1) (k + 1) + a3 1 (2 * s + 1) (k + 1)
    else if Nat.odd t then a3 (t + 1) (2 * s + 1) (k + 1) - a3 (ido - 1 - t) (2 * s) (k + 1)
    else a3 (t + 1) (2 * s + 1) (k + 1) + a3 (ido + 1 - t) (2 * s) (k + 1).
Proof.
  intros. unfold Pv. destruct (Nat.eqb_spec (ip - s) 0); [lia|]. destruct (Nat.leb_spec (ip - s) h); [lia|].
  replace (ip - (ip - s))%nat with s by lia. reflexivity.
Qed.
Ltac cols q := replace (2 * q + 1 - 1 - 1 + 1)%nat with (2 * q + 1 - 1)%nat by lia; replace (2 * q + 1 - 1 + 1)%nat with (2 * q + 1)%nat by lia;
  replace (ido - 1 - (2 * q + 1 - 1 - 1))%nat with (ido + 2 - (2 * q + 1) - 1)%nat by lia;
  replace (ido + 1 - (2 * q + 1 - 1))%nat with (ido + 2 - (2 * q + 1))%nat by lia.
Lemma Pv_lo_re q k s : (1 <= s <= h)%nat -> (1 <= q)%nat -> (2 * q + 1 <= ido)%nat ->
  Pv (2 * q + 1 - 1 - 1) k s = a3 (2 * q + 1 - 1) (2 * s + 1) (k + 1) + a3 (ido + 2 - (2 * q + 1) - 1) (2 * s) (k + 1).
Proof. intros. rewrite Pv_lo by auto. destruct (odd_re q) as [-> ->]; auto. cols q. reflexivity. Qed.
Lemma Pv_lo_im q k s : (1 <= s <= h)%nat -> (1 <= q)%nat -> (2 * q + 1 <= ido)%nat ->
  Pv (2 * q + 1 - 1) k s = a3 (2 * q + 1) (2 * s + 1) (k + 1) - a3 (ido + 2 - (2 * q + 1)) (2 * s) (k + 1).
Proof. intros. rewrite Pv_lo by auto. destruct (odd_im q) as [-> ->]; auto. cols q. reflexivity. Qed.
Lemma Pv_hi_re q k s : (1 <= s <= h)%nat -> (1 <= q)%nat -> (2 * q + 1 <= ido)%nat ->
  Pv (2 * q + 1 - 1 - 1) k (ip - s) = a3 (2 * q + 1 - 1) (2 * s + 1) (k + 1) - a3 (ido + 2 - (2 * q + 1) - 1) (2 * s) (k + 1).
Proof. intros. rewrite Pv_hi by auto. destruct (odd_re q) as [-> ->]; auto. cols q. reflexivity. Qed.
Lemma Pv_hi_im q k s : (1 <= s <= h)%nat -> (1 <= q)%nat -> (2 * q + 1 <= ido)%nat ->
  Pv (2 * q + 1 - 1) k (ip - s) = a3 (2 * q + 1) (2 * s + 1) (k + 1) + a3 (ido + 2 - (2 * q + 1)) (2 * s) (k + 1).
Proof. intros. rewrite Pv_hi by auto. destruct (odd_im q) as [-> ->]; auto. cols q. reflexivity. Qed.

Lemma bg1_ok B : length B = (ido * ip * l1)%nat ->
  exists B', run (bg1 d ido ip l1) (A, B) = Some (A, B') /\ length B' = length B /\ grid Pv B'.
Proof.
  intros HB. 
  assert (k1 : forall k, (1 <= k)%nat -> (k - 1 + 1)%nat = k) by (intros; lia).
  assert (pr : forall j i k z, (2 <= j <= h + 1)%nat -> (1 <= k <= l1)%nat -> (exists q, 1 <= q /\ 2 * q + 1 <= ido /\ i = 2 * q + 1)%nat ->
    In z (bg_pair d ido ip l1 j i k) -> a_ch z = true /\ (a_ix z < length B)%nat /\ forall b, a_val z A b = at3 ido l1 Pv (a_ix z)).
  { intros j i k z Hj Hk (q & Q1 & Q2 & ->) Hz. destruct j as [|s]; [lia|]. unfold bg_pair in Hz. cbv beta zeta in Hz.
    replace (ip + 2 - S s)%nat with (S (ip - s)) in Hz by lia. replace (2 * S s - 1)%nat with (2 * s + 1)%nat in Hz by lia.
    replace (2 * S s - 2)%nat with (2 * s)%nat in Hz by lia. cbn [In] in Hz.
    destruct Hz as [<-|[<-|[<-|[<-|[]]]]]; cbn [a_ch a_ix a_val]; (split; [reflexivity|]); (split; [apply bdl; auto; lia|]); intros _;
      rewrite at3_c3 by lia; change (S s - 1)%nat with (s - 0)%nat; change (S (ip - s) - 1)%nat with (ip - s - 0)%nat; rewrite Nat.sub_0_r.
    - rewrite Pv_lo_re, k1 by lia. reflexivity.
    - rewrite Pv_hi_re, k1 by lia. reflexivity.
    - rewrite Pv_lo_im, k1 by lia. reflexivity.
    - rewrite Pv_hi_im, k1 by lia. reflexivity. }
  destruct (run_ch d (at3 ido l1 Pv) (bg1 d ido ip l1) A B) as (B' & R1 & R2 & R3 & _).
  { intros z Hz. unfold bg1 in Hz. cbv beta zeta in Hz. apply in_app_iff in Hz. destruct Hz as [Hz|Hz].
    - assert (exists i k, (1 <= i <= ido)%nat /\ (1 <= k <= l1)%nat /\ z = mkasg true (c3 ido l1 i k 1) (fun a _ => el3 d ido ip a i 1 k)) as (i & k & Hi & Hk & ->).
      { destruct (ido <? l1)%nat; apply in_loop in Hz; destruct Hz as (u & Hu & Hz); apply in_loop in Hz; destruct Hz as (v & Hv & [<-|[]]); eauto 6. }
      cbn [a_ch a_ix a_val]. split; auto. split; [apply bdl; auto; lia|]. intros _. rewrite at3_c3 by lia. unfold Pv. cbn [Nat.sub Nat.eqb].
      rewrite !k1 by lia. reflexivity.
    - apply in_app_iff in Hz. destruct Hz as [Hz|Hz].
      + rewrite Hph in Hz. apply in_loop in Hz. destruct Hz as (j & Hj & Hz). apply in_loop in Hz. destruct Hz as (k & Hk & Hz).
        destruct j as [|s]; [lia|]. replace (ip + 2 - S s)%nat with (S (ip - s)) in Hz by lia.
        replace (S s + S s - 1)%nat with (2 * s + 1)%nat in Hz by lia. replace (S s + S s - 2)%nat with (2 * s)%nat in Hz by lia. cbn [In] in Hz.
        destruct Hz as [<-|[<-|[]]]; cbn [a_ch a_ix a_val]; (split; [reflexivity|]); (split; [apply bdl; auto; lia|]); intros _;
          rewrite at3_c3 by lia; change (S s - 1)%nat with (s - 0)%nat; change (S (ip - s) - 1)%nat with (ip - s - 0)%nat; rewrite Nat.sub_0_r; cbn [Nat.sub].
        * rewrite Pv_lo by lia. cbn [Nat.eqb]. rewrite !k1 by lia. reflexivity.
        * rewrite Pv_hi by lia. cbn [Nat.eqb]. rewrite !k1 by lia. reflexivity.
      + destruct (ido =? 1)%nat; [destruct Hz|]. rewrite Hph in Hz. destruct (_ <? l1)%nat; apply in_loop in Hz; destruct Hz as (j & Hj & Hz).
        * apply in_loop2 in Hz. destruct Hz as (q & Q1 & Q2 & Hz). apply in_loop in Hz. destruct Hz as (k & Hk & Hz).
          apply (pr _ _ _ _ Hj Hk) in Hz; eauto.
        * apply in_loop in Hz. destruct Hz as (k & Hk & Hz). apply in_loop2 in Hz. destruct Hz as (q & Q1 & Q2 & Hz).
          apply (pr _ _ _ _ Hj Hk) in Hz; eauto. }
  exists B'. split; auto. split; auto. intros t k s Ht Hk Hs. rewrite R3; [apply at3_flat; auto|].
  unfold bg1. cbv beta zeta. rewrite Hph. destruct (symm s Hs) as [->|sym].
  - apply exists_app_l. destruct (ido <? l1)%nat.
    + apply (exists_loop _ _ _ _ (k + 1)%nat); [lia|]. apply (exists_loop _ _ _ _ (t + 1)%nat); [lia|]. apply Exists_cons_hd.
      cbn [a_ix]. unfold c3. rewrite !Nat.add_sub. reflexivity.
    + apply (exists_loop _ _ _ _ (t + 1)%nat); [lia|]. apply (exists_loop _ _ _ _ (k + 1)%nat); [lia|]. apply Exists_cons_hd.
      cbn [a_ix]. unfold c3. rewrite !Nat.add_sub. reflexivity.
  - apply exists_app_r. destruct (col t Ht) as [->|(q & Q1 & Q2 & Q3)].
    + apply exists_app_l. destruct sym as [Hu|(u & Hu & ->)].
      * apply (exists_loop _ _ _ _ (s + 1)%nat); [lia|]. apply (exists_loop _ _ _ _ (k + 1)%nat); [lia|].
        apply Exists_cons_hd. cbn [a_ix]. unfold c3. rewrite !Nat.add_sub. lia.
      * apply (exists_loop _ _ _ _ (u + 1)%nat); [lia|]. apply (exists_loop _ _ _ _ (k + 1)%nat); [lia|].
        apply Exists_cons_tl, Exists_cons_hd. cbn [a_ix]. unfold c3. rewrite !Nat.add_sub.
        replace (ip + 2 - (u + 1) - 1)%nat with (ip - u)%nat by lia. lia.
    + apply exists_app_r. destruct (ido =? 1)%nat eqn:E1; [apply Nat.eqb_eq in E1; lia|].
      assert (EP : exists u, (1 <= u <= h)%nat /\ Exists (fun z => a_ix z = (t + ido * (k + l1 * s))%nat)
         (bg_pair d ido ip l1 (u + 1) (2 * q + 1) (k + 1))).
      { destruct sym as [Hu|(u & Hu & ->)].
        - exists s. split; auto. unfold bg_pair. destruct Q3 as [->| ->]; [do 2 apply Exists_cons_tl|]; apply Exists_cons_hd; cbn [a_ix]; unfold c3; rewrite !Nat.add_sub; lia.
        - exists u. split; auto. unfold bg_pair. destruct Q3 as [->| ->]; [do 3 apply Exists_cons_tl|apply Exists_cons_tl]; apply Exists_cons_hd; cbn [a_ix]; unfold c3; rewrite !Nat.add_sub;
            replace (ip + 2 - (u + 1) - 1)%nat with (ip - u)%nat by lia; lia. }
      destruct EP as (u & Hu & EP).
      destruct (_ <? l1)%nat; apply (exists_loop _ _ _ _ (u + 1)%nat); try lia.
      * apply (exists_loop2 _ _ _ q); auto. apply (exists_loop _ _ _ _ (k + 1)%nat); auto; lia.
      * apply (exists_loop _ _ _ _ (k + 1)%nat); [lia|]. apply (exists_loop2 _ _ _ q); auto.
Qed.

(** bg3: the first row of ch becomes the sum of the first rows *)
Lemma bg3_ok A' B : length B = (ido * ip * l1)%nat ->
  exists B', run (bg3 d ido ip l1) (A', B) = Some (A', B') /\ length B' = length B /\
    (forall e, (e < idl1)%nat -> nth (e + idl1 * 0) B' d = nth (e + idl1 * 0) B d + sumR h (fun u => nth (e + idl1 * S u) B d)) /\
    (forall e s, (e < idl1)%nat -> (1 <= s)%nat -> nth (e + idl1 * s) B' d = nth (e + idl1 * s) B d).
Proof.
  intros HB. unfold bg3. cbv beta zeta. rewrite Hph. unfold loop at 1. replace (h + 1 + 1 - 2)%nat with h by lia.
  destruct (run_steps true (fun j => loop 1 idl1 (fun ik => (mkasg true (c2 idl1 ik 1) (fun _ b => el2 d idl1 b ik 1 + el2 d idl1 b ik j) :: nil)))
    (fun m Y => length Y = length B /\
      (forall e, (e < idl1)%nat -> nth (e + idl1 * 0) Y d = nth (e + idl1 * 0) B d + sumR (m - 2) (fun u => nth (e + idl1 * S u) B d)) /\
      (forall j, (idl1 <= j)%nat -> nth j Y d = nth j B d)) A' h 2%nat B) as (B' & R1 & L1 & V1 & U1).
  - split; auto. split; auto. intros. cbn [Nat.sub sumR]. ring.
  - intros j Y Hj (L1 & V1 & U1).
    set (p := loop 1 idl1 _).
    destruct (run_once_self d idl1 (fun i old b => old + nth (i + idl1 * (j - 1)) b d) p A' B Y) as (Y' & R2 & L2 & V2 & U2).
    + intros i o Y1 Y2 HY. f_equal. apply HY. nia.
    + unfold p, loop. rewrite flat_map_concat_map, concat_map, map_map. rewrite <- flat_map_concat_map. cbn [map a_ix].
      apply NoDup_flat_map; [apply seq_NoDup| |].
      * intros. constructor; auto. constructor.
      * intros ik ik' z Z1 Z2 [<-|[]] [Z4|[]]. apply in_seq in Z1, Z2. unfold c2 in Z4. lia.
    + rewrite L1, HB. nia.
    + auto.
    + intros z Hz. unfold p in Hz. apply in_loop in Hz. destruct Hz as (ik & Hik & [<-|[]]). cbn [a_ch a_ix a_val].
      split; auto. unfold c2. split; [nia|]. intros b. unfold el2, c2. f_equal. f_equal. nia.
    + exists Y'. split; auto. split; [lia|]. split.
      * intros e He. rewrite V2; [|unfold p; apply (exists_loop _ _ _ _ (e + 1)%nat); [lia|]; apply Exists_cons_hd; cbn [a_ix]; unfold c2; lia].
        rewrite V1 by auto. replace (S j - 2)%nat with (S (j - 2)) by lia. cbn [sumR]. rewrite Rplus_assoc. f_equal. f_equal. f_equal. nia.
      * intros u Hu. rewrite U2; auto. intros E. apply Exists_exists in E. destruct E as (z & Hz & E).
        unfold p in Hz. apply in_loop in Hz. destruct Hz as (ik & Hik & [<-|[]]). cbn [a_ix] in E. unfold c2 in E. nia.
  - exists B'. split; auto. split; auto. split.
    + intros. rewrite V1 by auto. replace (2 + h - 2)%nat with h by lia. reflexivity.
    + intros e s He Hs. apply U1. nia.
Qed.

(** The rows after bg2 and bg3, as multiples of the twisted coefficients *)
Definition Cc (t k s : nat) : R := Pv t k 0 + sumR h (fun u => cos (th ip (s * S u)) * Pv t k (S u)).
Definition Cs_ (t k s : nat) : R := sumR h (fun u => sin (th ip (s * S u)) * Pv t k (ip - S u)).
Lemma P0 t k : Pv t k 0 = a3 (t + 1) 1 (k + 1).
Proof. reflexivity. Qed.
Local Notation y k := (strided x l1 k).
Lemma back_0 k s : (k < l1)%nat -> (s < ip)%nat -> Cc 0 k s - Cs_ 0 k s = INR ip * TR ip ido (y k) 0 s.
Proof.
  intros Hk Hs. pose proof (inv_0 d ip ido l1 x A Hip0 Hi0 Hl1 Hin h Hip (k + 1) s ltac:(lia) Hs) as E. rewrite Nat.add_sub in E. rewrite E.
  unfold Cc, Cs_. rewrite P0. cbn [Nat.add]. unfold Rminus at 1. rewrite Rplus_assoc. f_equal. change (?a + - ?b) with (a - b). rewrite <- sumR_minus. apply sumR_ext. intros u Hu.
  rewrite Pv_lo, Pv_hi by lia. cbn [Nat.eqb]. ring.
Qed.
Lemma back_re q k s : (k < l1)%nat -> (s < ip)%nat -> (1 <= q)%nat -> (2 * q + 1 <= ido)%nat ->
  Cc (2 * q + 1 - 1 - 1) k s - Cs_ (2 * q + 1 - 1) k s = INR ip * TR ip ido (y k) q s.
Proof.
  intros Hk Hs Q1 Q2. pose proof (inv_re d ip ido l1 x A Hip0 Hi0 Hl1 Hin h Hip (k + 1) s q ltac:(lia) Hs Q1 Q2) as E. rewrite Nat.add_sub in E. rewrite E.
  unfold Cc, Cs_. rewrite P0. replace (2 * q + 1 - 1 - 1 + 1)%nat with (2 * q + 1 - 1)%nat by lia.
  unfold Rminus at 1. rewrite Rplus_assoc. f_equal. change (?a + - ?b) with (a - b). rewrite <- sumR_minus. apply sumR_ext. intros u Hu.
  rewrite Pv_lo_re, Pv_hi_im by lia. ring.
Qed.
Lemma back_im q k s : (k < l1)%nat -> (s < ip)%nat -> (1 <= q)%nat -> (2 * q + 1 <= ido)%nat ->
  Cc (2 * q + 1 - 1) k s + Cs_ (2 * q + 1 - 1 - 1) k s = INR ip * TI ip ido (y k) q s.
Proof.
  intros Hk Hs Q1 Q2. pose proof (inv_im d ip ido l1 x A Hip0 Hi0 Hl1 Hin h Hip (k + 1) s q ltac:(lia) Hs Q1 Q2) as E. rewrite Nat.add_sub in E. rewrite E.
  unfold Cc, Cs_. rewrite P0. replace (2 * q + 1 - 1 + 1)%nat with (2 * q + 1)%nat by lia.
  rewrite Rplus_assoc. f_equal. rewrite <- sumR_plus. apply sumR_ext. intros u Hu.
  rewrite Pv_lo_im, Pv_hi_re by lia. ring.
Qed.
Lemma Cc_refl t k s : (s <= ip)%nat -> Cc t k (ip - s) = Cc t k s.
Proof. intros. unfold Cc. f_equal. apply sumR_ext. intros u Hu. rewrite cos_refl by lia. reflexivity. Qed.
Lemma Cs_refl t k s : (s <= ip)%nat -> Cs_ t k (ip - s) = - Cs_ t k s.
Proof. intros. unfold Cs_. rewrite <- sumR_opp. apply sumR_ext. intros u Hu. rewrite sin_refl by lia. ring. Qed.
Lemma Cs_0 t k : Cs_ t k 0 = 0.
Proof. unfold Cs_. apply sumR_0. intros u Hu. rewrite Nat.mul_0_l, th_0, sin_0. ring. Qed.
Definition Wv (t k s : nat) : R := INR ip * Tv t k s.
Lemma Wv_0 t k : (t < ido)%nat -> (k < l1)%nat -> Pv t k 0 + sumR h (fun u => Pv t k (S u)) = Wv t k 0.
Proof.
  intros Ht Hk. transitivity (Cc t k 0).
  - unfold Cc. f_equal. apply sumR_ext. intros. rewrite Nat.mul_0_l, th_0, cos_0. ring.
  - unfold Wv. destruct (col t Ht) as [->|(q & Q1 & Q2 & [->| ->])].
    + unfold FF_Proofs6.Tv. cbn [Nat.eqb]. rewrite <- back_0 by lia. rewrite Cs_0. ring.
    + rewrite Tv_im by auto. rewrite <- back_im by lia. rewrite Cs_0. ring.
    + rewrite Tv_re by auto. rewrite <- back_re by lia. rewrite Cs_0. ring.
Qed.

(** bg2, bg3, bg4 *)
Lemma bg4_ok A' B : length B = (ido * ip * l1)%nat ->
  (forall i k s, (1 <= i <= ido)%nat -> (1 <= k <= l1)%nat -> (1 <= s <= h)%nat ->
     el3 d ido l1 A' i k (S s) = Cc (i - 1) (k - 1) s /\ el3 d ido l1 A' i k (S (ip - s)) = Cs_ (i - 1) (k - 1) s) ->
  (forall t k, (t < ido)%nat -> (k < l1)%nat -> nth (t + ido * k) B d = Wv t k 0) ->
  exists B', run (bg4 d ido ip l1) (A', B) = Some (A', B') /\ length B' = length B /\ grid Wv B'.
Proof.
  intros HB HC H0.
  assert (pr : forall j i k z, (2 <= j <= h + 1)%nat -> (1 <= k <= l1)%nat -> (exists q, 1 <= q /\ 2 * q + 1 <= ido /\ i = 2 * q + 1)%nat ->
    In z (bg_unpair d ido ip l1 j i k) -> a_ch z = true /\ (a_ix z < length B)%nat /\ forall b, a_val z A' b = at3 ido l1 Wv (a_ix z)).
  { intros j i k z Hj Hk (q & Q1 & Q2 & ->) Hz. destruct j as [|s]; [lia|]. unfold bg_unpair in Hz. cbv beta zeta in Hz.
    replace (ip + 2 - S s)%nat with (S (ip - s)) in Hz by lia. cbn [In] in Hz.
    destruct (HC (2 * q + 1)%nat k s ltac:(lia) Hk ltac:(lia)) as [C1 C2].
    destruct (HC (2 * q + 1 - 1)%nat k s ltac:(lia) Hk ltac:(lia)) as [C3 C4].
    destruct Hz as [<-|[<-|[<-|[<-|[]]]]]; cbn [a_ch a_ix a_val]; (split; [reflexivity|]); (split; [apply bdl; auto; lia|]); intros _;
      rewrite at3_c3 by lia; change (S s - 1)%nat with (s - 0)%nat; change (S (ip - s) - 1)%nat with (ip - s - 0)%nat; rewrite Nat.sub_0_r;
      rewrite ?C1, ?C2, ?C3, ?C4; unfold Wv.
    - rewrite Tv_re by auto. rewrite <- back_re by lia. reflexivity.
    - rewrite Tv_re by auto. rewrite <- back_re by lia. rewrite Cc_refl, Cs_refl by lia. ring.
    - rewrite Tv_im by auto. rewrite <- back_im by lia. reflexivity.
    - rewrite Tv_im by auto. rewrite <- back_im by lia. rewrite Cc_refl, Cs_refl by lia. ring. }
  destruct (run_ch d (at3 ido l1 Wv) (bg4 d ido ip l1) A' B) as (B' & R1 & R2 & R3 & R4).
  { intros z Hz. unfold bg4 in Hz. cbv beta zeta in Hz. apply in_app_iff in Hz. destruct Hz as [Hz|Hz].
    - rewrite Hph in Hz. apply in_loop in Hz. destruct Hz as (j & Hj & Hz). apply in_loop in Hz. destruct Hz as (k & Hk & Hz).
      destruct j as [|s]; [lia|]. replace (ip + 2 - S s)%nat with (S (ip - s)) in Hz by lia. cbn [In] in Hz.
      destruct (HC 1%nat k s ltac:(lia) Hk ltac:(lia)) as [C1 C2].
      destruct Hz as [<-|[<-|[]]]; cbn [a_ch a_ix a_val]; (split; [reflexivity|]); (split; [apply bdl; auto; lia|]); intros _;
        rewrite at3_c3 by lia; change (S s - 1)%nat with (s - 0)%nat; change (S (ip - s) - 1)%nat with (ip - s - 0)%nat; rewrite Nat.sub_0_r;
        rewrite ?C1, ?C2; unfold Wv; cbn [Nat.sub]; unfold FF_Proofs6.Tv; cbn [Nat.eqb]; rewrite <- back_0 by lia.
      + reflexivity.
      + rewrite Cc_refl, Cs_refl by lia. ring.
    - destruct (ido =? 1)%nat; [destruct Hz|]. rewrite Hph in Hz. destruct (_ <? l1)%nat; apply in_loop in Hz; destruct Hz as (j & Hj & Hz).
      + apply in_loop2 in Hz. destruct Hz as (q & Q1 & Q2 & Hz). apply in_loop in Hz. destruct Hz as (k & Hk & Hz).
        apply (pr _ _ _ _ Hj Hk) in Hz; eauto.
      + apply in_loop in Hz. destruct Hz as (k & Hk & Hz). apply in_loop2 in Hz. destruct Hz as (q & Q1 & Q2 & Hz).
        apply (pr _ _ _ _ Hj Hk) in Hz; eauto. }
  exists B'. split; auto. split; auto. intros t k s Ht Hk Hs.
  assert (HE : s = 0%nat \/ Exists (fun z => a_ix z = (t + ido * (k + l1 * s))%nat) (bg4 d ido ip l1)).
  { destruct (symm s Hs) as [->|sym]; [auto|right]. unfold bg4. cbv beta zeta. rewrite Hph. destruct (col t Ht) as [->|(q & Q1 & Q2 & Q3)].
    + apply exists_app_l. destruct sym as [Hu|(u & Hu & ->)].
      * apply (exists_loop _ _ _ _ (s + 1)%nat); [lia|]. apply (exists_loop _ _ _ _ (k + 1)%nat); [lia|].
        apply Exists_cons_hd. cbn [a_ix]. unfold c3. rewrite !Nat.add_sub. lia.
      * apply (exists_loop _ _ _ _ (u + 1)%nat); [lia|]. apply (exists_loop _ _ _ _ (k + 1)%nat); [lia|].
        apply Exists_cons_tl, Exists_cons_hd. cbn [a_ix]. unfold c3. rewrite !Nat.add_sub.
        replace (ip + 2 - (u + 1) - 1)%nat with (ip - u)%nat by lia. lia.
    + apply exists_app_r. destruct (ido =? 1)%nat eqn:E1; [apply Nat.eqb_eq in E1; lia|].
      assert (EP : exists u, (1 <= u <= h)%nat /\ Exists (fun z => a_ix z = (t + ido * (k + l1 * s))%nat)
         (bg_unpair d ido ip l1 (u + 1) (2 * q + 1) (k + 1))).
      { destruct sym as [Hu|(u & Hu & ->)].
        - exists s. split; auto. unfold bg_unpair. destruct Q3 as [->| ->]; [do 2 apply Exists_cons_tl|]; apply Exists_cons_hd; cbn [a_ix]; unfold c3; rewrite !Nat.add_sub; lia.
        - exists u. split; auto. unfold bg_unpair. destruct Q3 as [->| ->]; [do 3 apply Exists_cons_tl|apply Exists_cons_tl]; apply Exists_cons_hd; cbn [a_ix]; unfold c3; rewrite !Nat.add_sub;
            replace (ip + 2 - (u + 1) - 1)%nat with (ip - u)%nat by lia; lia. }
      destruct EP as (u & Hu & EP).
      destruct (_ <? l1)%nat; apply (exists_loop _ _ _ _ (u + 1)%nat); try lia.
      * apply (exists_loop2 _ _ _ q); auto. apply (exists_loop _ _ _ _ (k + 1)%nat); auto; lia.
      * apply (exists_loop _ _ _ _ (k + 1)%nat); [lia|]. apply (exists_loop2 _ _ _ q); auto. }
  destruct HE as [->|HE]; [|rewrite R3 by auto; apply at3_flat; auto].
  destruct (Exists_dec (fun z => a_ix z = (t + ido * (k + l1 * 0))%nat) (bg4 d ido ip l1)) as [HE|HE];
    [intros; apply Nat.eq_dec|rewrite R3 by auto; apply at3_flat; auto|].
  rewrite R4 by auto. rewrite Nat.mul_0_r, Nat.add_0_r. apply H0; auto.
Qed.

Lemma bg14_ok B : length B = (ido * ip * l1)%nat ->
  exists A' B', run (bg0 d ido ip l1 ++ bg1 d ido ip l1 ++ bg2 d ido ip l1 ++ bg3 d ido ip l1 ++ bg4 d ido ip l1) (A, B) = Some (A', B') /\
    length A' = length A /\ length B' = length B /\ grid Wv B'.
Proof.
  intros HB.
  destruct (bg0_ok B HB) as (B0 & R0 & L0). destruct (bg1_ok B0 ltac:(congruence)) as (B1 & R1 & L1 & G1).
  destruct (rotate_ok d false idl1 ip h B1 A Hip Hh ltac:(rewrite HA; apply leneq)) as (A2 & R2 & L2 & Z2 & V2).
  cbn [both] in R2.
  destruct (bg3_ok A2 B1 ltac:(congruence)) as (B3 & R3 & L3 & V3 & U3).
  assert (ND : forall e, (e < idl1)%nat -> (e mod ido < ido)%nat /\ (e / ido < l1)%nat /\ e = (e mod ido + ido * (e / ido))%nat).
  { intros e He. split; [apply Nat.mod_upper_bound; lia|]. split; [apply Nat.div_lt_upper_bound; lia|]. pose proof (Nat.div_mod_eq e ido). lia. }
  destruct (bg4_ok A2 B3 ltac:(congruence)) as (B4 & R4 & L4 & G4).
  - intros i k s Hi Hk Hs.
    assert (He : (i - 1 + ido * (k - 1) < idl1)%nat) by nia.
    destruct (V2 _ s He Hs) as [V V'].
    assert (GP : forall s, (s < ip)%nat -> nth (i - 1 + ido * (k - 1) + idl1 * s) B1 d = Pv (i - 1) (k - 1) s).
    { intros u Hu. rewrite <- G1 by lia. f_equal. nia. }
    assert (F1 : el3 d ido l1 A2 i k (S s) = nth (i - 1 + ido * (k - 1) + idl1 * s) A2 d).
    { unfold el3, c3. f_equal. replace (S s - 1)%nat with s by lia. nia. }
    assert (F2 : el3 d ido l1 A2 i k (S (ip - s)) = nth (i - 1 + ido * (k - 1) + idl1 * (ip - s)) A2 d).
    { unfold el3, c3. f_equal. replace (S (ip - s) - 1)%nat with (ip - s)%nat by lia. nia. }
    rewrite F1, F2, V, V'. unfold rowc, rows, Cc, Cs_. split.
    + f_equal; [apply GP; lia|]. apply sumR_ext. intros u Hu. f_equal. apply GP. lia.
    + apply sumR_ext. intros u Hu. f_equal. apply GP. lia.
  - intros t k Ht Hk. rewrite <- Wv_0 by auto.
    specialize (V3 (t + ido * k)%nat ltac:(nia)). rewrite Nat.mul_0_r, Nat.add_0_r in V3. rewrite V3. f_equal.
    + rewrite <- (G1 t k 0%nat) by lia. f_equal. lia.
    + apply sumR_ext. intros u Hu. rewrite <- (G1 t k (S u)) by lia. f_equal. nia.
  - exists A2, B4. split; [|split; [congruence|split; [congruence|auto]]].
    rewrite run_app, R0. cbn [bind]. rewrite run_app, R1. cbn [bind]. rewrite run_app.
    change (bg2 d ido ip l1) with (rotate d false idl1 ip). rewrite R2. cbn [bind]. rewrite run_app, R3. cbn [bind]. exact R4.
Qed.

(** bg5: the twist is undone *)
Definition Hv (t k s : nat) : R := hc ido (sub ip (strided (fun j => INR ip * x j) l1 k) s) t.
Lemma Hv_eq t k s : Hv t k s = INR ip * hc ido (sub ip (strided x l1 k) s) t.
Proof. unfold Hv. rewrite <- hc_scal. apply hc_ext. intros. reflexivity. Qed.
Lemma Hv_0 k s : Hv 0 k s = Wv 0 k s.
Proof. rewrite Hv_eq. unfold Wv, FF_Proofs6.Tv. cbn [Nat.eqb]. pose proof (un_0 ip ido l1 x (k + 1) s) as E. rewrite Nat.add_sub in E. cbn [Nat.sub] in E. rewrite E. reflexivity. Qed.
Lemma Hv_row0 t k : (t < ido)%nat -> Hv t k 0 = Wv t k 0.
Proof.
  intros Ht. destruct (col t Ht) as [->|(q & Q1 & Q2 & [->| ->])]; [apply Hv_0| |]; rewrite Hv_eq; unfold Wv; f_equal.
  - rewrite Tv_im by auto. pose proof (un_im0 ip ido l1 x Hip0 Hi0 Hl1 (k + 1)%nat q Q1) as E. rewrite (Nat.add_sub k) in E. exact E.
  - rewrite Tv_re by auto. pose proof (un_re0 ip ido l1 x Hip0 Hi0 Hl1 (k + 1)%nat q Q1) as E. rewrite (Nat.add_sub k) in E. exact E.
Qed.
Lemma bg5_ok A' B : length A' = (ido * ip * l1)%nat -> grid Wv B ->
  exists A'', run (bg5 d ido ip l1 wa) (A', B) = Some (A'', B) /\ length A'' = length A' /\ grid Hv A''.
Proof.
  intros HA' HG.
  assert (tw : forall j i k z, (2 <= j <= ip)%nat -> (1 <= k <= l1)%nat -> (exists q, 1 <= q /\ 2 * q + 1 <= ido /\ i = 2 * q + 1)%nat ->
    In z (bg_twist d ido l1 wa j i k) -> a_ch z = false /\ (a_ix z < length A')%nat /\ forall a, a_val z a B = at3 ido l1 Hv (a_ix z)).
  { intros j i k z Hj Hk (q & Q1 & Q2 & ->) Hz. destruct j as [|s]; [lia|].
    unfold bg_twist in Hz. cbv beta zeta in Hz. cbn [In] in Hz.
    assert (I1 : ((S s - 2) * ido + (2 * q + 1 - 1) - 1 = (s - 1) * ido + (2 * q + 1 - 2))%nat) by (replace (S s - 2)%nat with (s - 1)%nat by lia; generalize ((s - 1) * ido)%nat; intros; lia).
    assert (I2 : ((S s - 2) * ido + (2 * q + 1 - 1) = (s - 1) * ido + (2 * q + 1 - 1))%nat) by (replace (S s - 2)%nat with (s - 1)%nat by lia; generalize ((s - 1) * ido)%nat; intros; lia).
    destruct Hz as [<-|[<-|[]]]; cbn [a_ch a_ix a_val]; (split; [reflexivity|]); (split; [apply bdl; auto; lia|]); intros _;
      rewrite at3_c3 by lia; change (S s - 1)%nat with (s - 0)%nat; rewrite Nat.sub_0_r; rewrite !(gel Wv B) by (auto; lia); rewrite Hv_eq, I1, I2; unfold Wv; rewrite Tv_re, Tv_im by auto.
    - rewrite (un_re ip ido l1 x Hip0 Hi0 Hl1 _ Hw k s q) by lia. ring.
    - rewrite (un_im ip ido l1 x Hip0 Hi0 Hl1 _ Hw k s q) by lia. ring. }
  destruct (run_cc d (at3 ido l1 Hv) (bg5 d ido ip l1 wa) A' B) as (A'' & R1 & R2 & R3 & _).
  { intros z Hz. unfold bg5 in Hz. cbv beta zeta in Hz. apply in_app_iff in Hz. destruct Hz as [Hz|Hz].
    - apply in_loop in Hz. destruct Hz as (ik & Hik & [<-|[]]). cbn [a_ch a_ix a_val]. split; auto.
      unfold el2, c2. replace (ik - 1 + idl1 * (1 - 1))%nat with (ik - 1)%nat by lia.
      destruct (split_idl ido l1 (ik - 1) ltac:(lia)) as (t & k & Ht & Hk & E). rewrite E. split; [rewrite HA'; nia|]. intros _.
      replace (t + ido * k)%nat with (t + ido * (k + l1 * 0))%nat by lia. rewrite at3_flat by auto. rewrite (HG t k 0%nat) by lia.
      symmetry. apply Hv_row0; auto.
    - apply in_app_iff in Hz. destruct Hz as [Hz|Hz].
      + apply in_loop in Hz. destruct Hz as (j & Hj & Hz). apply in_loop in Hz. destruct Hz as (k & Hk & [<-|[]]).
        cbn [a_ch a_ix a_val]. split; auto. destruct j as [|s]; [lia|].
        split; [apply bdl; auto; lia|]. intros _.
        rewrite at3_c3 by lia. rewrite (gel Wv B) by (auto; lia). change (S s - 1)%nat with (s - 0)%nat. rewrite Nat.sub_0_r. cbn [Nat.sub].
        symmetry. apply Hv_0.
      + destruct (l1 <? _)%nat; apply in_loop in Hz; destruct Hz as (j & Hj & Hz).
        * apply in_loop2 in Hz. destruct Hz as (q & Q1 & Q2 & Hz). apply in_loop in Hz. destruct Hz as (k & Hk & Hz).
          apply (tw _ _ _ _ Hj Hk) in Hz; eauto.
        * apply in_loop in Hz. destruct Hz as (k & Hk & Hz). apply in_loop2 in Hz. destruct Hz as (q & Q1 & Q2 & Hz).
          apply (tw _ _ _ _ Hj Hk) in Hz; eauto. }
  exists A''. split; auto. split; auto. intros t k s Ht Hk Hs. rewrite R3; [apply at3_flat; auto|].
  unfold bg5. cbv beta zeta. destruct (Nat.eq_dec s 0) as [->|Hs0].
  - apply exists_app_l. apply (exists_loop _ _ _ _ (t + ido * k + 1)%nat); [nia|]. apply Exists_cons_hd. cbn [a_ix]. unfold c2. nia.
  - apply exists_app_r. destruct (col t Ht) as [->|(q & Q1 & Q2 & Q3)].
    + apply exists_app_l. apply (exists_loop _ _ _ _ (s + 1)%nat); [lia|]. apply (exists_loop _ _ _ _ (k + 1)%nat); [lia|].
      apply Exists_cons_hd. cbn [a_ix]. unfold c3. rewrite !Nat.add_sub. lia.
    + apply exists_app_r. 
      assert (Exists (fun z => a_ix z = (t + ido * (k + l1 * s))%nat) (bg_twist d ido l1 wa (s + 1) (2 * q + 1) (k + 1))).
      { unfold bg_twist. destruct Q3 as [->| ->]; [apply Exists_cons_tl|]; apply Exists_cons_hd; cbn [a_ix]; unfold c3; rewrite !Nat.add_sub; lia. }
      destruct (l1 <? _)%nat; apply (exists_loop _ _ _ _ (s + 1)%nat); try lia.
      * apply (exists_loop2 _ _ _ q); auto. apply (exists_loop _ _ _ _ (k + 1)%nat); auto; lia.
      * apply (exists_loop _ _ _ _ (k + 1)%nat); [lia|]. apply (exists_loop2 _ _ _ q); auto.
Qed.

Lemma hradbg_ok B : length B = (ido * ip * l1)%nat ->
  exists A' B', run (hradbg d ido ip l1 wa) (A, B) = Some (A', B') /\ length A' = length A /\ length B' = length B /\
    stage_in d ip ido l1 (fun j => INR ip * x j) (if (ido =? 1)%nat then B' else A').
Proof.
  intros HB. destruct (bg14_ok B HB) as (A1 & B1 & R1 & L1 & L1' & G1).
  assert (E : hradbg d ido ip l1 wa = (bg0 d ido ip l1 ++ bg1 d ido ip l1 ++ bg2 d ido ip l1 ++ bg3 d ido ip l1 ++ bg4 d ido ip l1)
    ++ if (ido =? 1)%nat then [] else bg5 d ido ip l1 wa) by (rewrite <- !app_assoc; reflexivity).
  rewrite E, run_app, R1. cbn [bind]. destruct (ido =? 1)%nat eqn:E1.
  - apply Nat.eqb_eq in E1. exists A1, B1. split; [reflexivity|]. split; auto. split; auto.
    intros k s t Hk Hs Ht. rewrite G1 by auto. assert (t = 0)%nat by lia. subst t. symmetry. apply Hv_0.
  - destruct (bg5_ok A1 B1 ltac:(congruence) G1) as (A2 & R2 & L2 & G2). exists A2, B1. split; [exact R2|].
    split; [congruence|]. split; auto. intros k s t Hk Hs Ht. apply G2; auto.
Qed.
End Gen.
