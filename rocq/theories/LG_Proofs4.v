(** Places of the recursion coefficients, and one call of legin1. *)
From Coq Require Import Reals List Arith ZArith Lia Bool Lra.
From Verif Require Import Base Buffer VH_Model RS_Spec GS_Spec GS_Model GS_Proofs1 GS_Proofs3 LG_Spec LG_Proofs1 LG_Model LG_Proofs3.
Import ListNotations.
Local Open Scope nat_scope.

(** ** Places *)
(** coefficients of degrees 2 .. n-1: min k l - 1 each *)
Definition before (l n : nat) : nat := list_sum (map (fun k => Nat.min k l - 1) (seq 2 (n - 2))).
Lemma before_S l n : 2 <= n -> before l (S n) = before l n + (Nat.min n l - 1).
Proof. intros H. unfold before. replace (S n - 2) with (S (n - 2)) by lia. rewrite seq_S, map_app, list_sum_app. replace (2 + (n - 2)) with n by lia. cbn [map]. f_equal. cbn. apply Nat.add_0_r. Qed.
Lemma before_small l n : 2 <= n <= l -> (2 * Z.of_nat (before l n) = (Z.of_nat n - 1) * (Z.of_nat n - 2))%Z.
Proof.
  intros [H1 H2]. induction H1; [cbn; lia|]. rewrite before_S by lia. specialize (IHle ltac:(lia)). rewrite Nat.min_l by lia.
  rewrite Nat2Z.inj_add, Nat2Z.inj_sub, Nat2Z.inj_succ by lia. cbn [Z.of_nat]. nia.
Qed.
Lemma before_large l n : 2 <= l <= n -> (2 * Z.of_nat (before l n) = (Z.of_nat l - 1) * (Z.of_nat l - 2) + 2 * ((Z.of_nat n - Z.of_nat l) * (Z.of_nat l - 1)))%Z.
Proof.
  intros [H1 H2]. induction H2; [rewrite before_small by lia; lia|]. rewrite before_S by lia. rewrite Nat.min_r by lia.
  rewrite Nat2Z.inj_add, Nat2Z.inj_sub, Nat2Z.inj_succ by lia. cbn [Z.of_nat]. nia.
Qed.
Lemma before_mono l n n' : 2 <= n <= n' -> before l n <= before l n'.
Proof. intros [H1 H2]. induction H2; auto. rewrite before_S by lia. lia. Qed.
Lemma imn_place l m n : 2 <= m <= Nat.min n l -> imn_store l m n = before l n + (m - 1).
Proof.
  intros H. unfold imn_store. cbv zeta. destruct (Z.leb_spec (Z.of_nat l) (Z.of_nat n)) as [E|E].
  - pose proof (before_large l n ltac:(lia)) as B.
    assert (F : (Z.of_nat l * (Z.of_nat l - 1) / 2 = (2 * Z.of_nat (before l n) - 2 * ((Z.of_nat n - Z.of_nat l) * (Z.of_nat l - 1))) / 2 + (Z.of_nat l - 1))%Z).
    { rewrite B. replace ((Z.of_nat l - 1) * (Z.of_nat l - 2) + 2 * ((Z.of_nat n - Z.of_nat l) * (Z.of_nat l - 1)) - 2 * ((Z.of_nat n - Z.of_nat l) * (Z.of_nat l - 1)))%Z with ((Z.of_nat l - 1) * (Z.of_nat l - 2))%Z by lia.
      replace (Z.of_nat l * (Z.of_nat l - 1))%Z with ((Z.of_nat l - 1) * (Z.of_nat l - 2) + (Z.of_nat l - 1) * 2)%Z by ring. rewrite Z.div_add by lia. auto. }
    rewrite F. replace (2 * Z.of_nat (before l n) - 2 * ((Z.of_nat n - Z.of_nat l) * (Z.of_nat l - 1)))%Z with ((Z.of_nat (before l n) - (Z.of_nat n - Z.of_nat l) * (Z.of_nat l - 1)) * 2)%Z by ring.
    rewrite Z.div_mul by lia.
    replace (Z.of_nat (before l n) - (Z.of_nat n - Z.of_nat l) * (Z.of_nat l - 1) + (Z.of_nat l - 1) + (Z.of_nat n - Z.of_nat l - 1) * (Z.of_nat l - 1) + Z.of_nat m - 1)%Z with (Z.of_nat (before l n) + Z.of_nat m - 1)%Z by ring. lia.
  - pose proof (before_small l n ltac:(lia)) as B. rewrite <- B. rewrite Z.mul_comm, Z.div_mul by lia. lia.
Qed.
Lemma imn_same l m n : imn_use l m n = imn_store l m n. Proof. reflexivity. Qed.
Lemma place_inj l m n m' n' : 2 <= m <= Nat.min n l -> 2 <= m' <= Nat.min n' l -> before l n + (m - 1) = before l n' + (m' - 1) -> m = m' /\ n = n'.
Proof.
  intros H H' E. destruct (Nat.lt_trichotomy n n') as [L|[->|L]]; [exfalso|lia|exfalso].
  - pose proof (before_mono l (S n) n' ltac:(lia)) as M. rewrite before_S in M by lia. lia.
  - pose proof (before_mono l (S n') n ltac:(lia)) as M. rewrite before_S in M by lia. lia.
Qed.
Lemma place_bound l m n nlat : 2 <= m <= Nat.min n l -> n <= nlat -> 1 <= before l n + (m - 1) <= before l (S nlat).
Proof. intros H Hn. pose proof (before_mono l (S n) (S nlat) ltac:(lia)) as M. rewrite before_S in M by lia. lia. Qed.

Lemma wrx_some (a : list R) p v : 1 <= p <= length a -> wrx a p v = Some (upd0 a (p - 1) v) /\ length (upd0 a (p - 1) v) = length a.
Proof.
  intros H. unfold wrx. destruct (Nat.leb_spec 1 p), (Nat.leb_spec p (length a)); try lia. cbn [andb]. destruct p; [lia|]. cbn [wr]. replace (S p - 1) with p by lia. split; auto.
  pose proof (wr_length a (S p) v) as W. cbn [wr] in W. auto.
Qed.

Lemma foldM_ext {A B} (f g : A -> B -> option A) l : (forall s x, f s x = g s x) -> forall s, foldM f l s = foldM g l s.
Proof. intros H. induction l; intros s; cbn; auto. rewrite H. destruct (g s a); cbn; auto. Qed.

Section Coeffs.
Variables nlat l : nat.
Hypothesis Hl : l <= nlat.
Variable f : Z -> Z -> R.
Definition good (K : nat) (a : list R) : Prop :=
  forall m n, 2 <= m <= Nat.min n l -> n <= nlat -> before l n + (m - 1) <= K -> nth (before l n + (m - 1) - 1) a 0%R = f (Z.of_nat m) (Z.of_nat n).
Lemma coefficients_ok a : before l (S nlat) <= length a ->
  exists a', coefficients nlat l f a = Some a' /\ length a' = length a /\
    forall m n, 2 <= m <= Nat.min n l -> n <= nlat -> rd a' (imn_use l m n) = Some (f (Z.of_nat m) (Z.of_nat n)).
Proof using Hl.
  intros La. unfold coefficients.
  destruct (fold_seq (fun a n => foldM (fun a m => wrx a (imn_store l m n) (f (Z.of_nat m) (Z.of_nat n))) (seq 2 (Nat.min n l - 1)) a)
    (fun q a' => length a' = length a /\ good (before l (2 + q)) a') (nlat - 1) 2 a) as (a' & E & L1 & G).
  - intros q a1 Hq [L1 G1]. set (n := 2 + q) in *.
    destruct (fold_seq (fun a m => wrx a (imn_store l m n) (f (Z.of_nat m) (Z.of_nat n))) (fun r a' => length a' = length a /\ good (before l n + r) a') (Nat.min n l - 1) 2 a1) as (a2 & E2 & L2 & G2).
    + intros r a2 Hr [L2 G2]. assert (HM : 2 <= 2 + r <= Nat.min n l) by lia. assert (Hn : n <= nlat) by (unfold n; lia).
      pose proof (place_bound l (2 + r) n nlat HM Hn) as PB. rewrite imn_place by auto.
      destruct (wrx_some a2 (before l n + (2 + r - 1)) (f (Z.of_nat (2 + r)) (Z.of_nat n)) ltac:(lia)) as [W WL]. rewrite W. eexists. split; [reflexivity|]. split; [lia|].
      intros m' n' Hm' Hn' HK. rewrite nth_upd0 by lia. pose proof (place_bound l m' n' nlat Hm' Hn') as PB'.
      destruct (Nat.eqb_spec (before l n' + (m' - 1) - 1) (before l n + (2 + r - 1) - 1)) as [Q|Q].
      * destruct (place_inj l m' n' (2 + r) n Hm' HM ltac:(lia)) as [-> ->]. auto.
      * apply G2; auto. lia.
    + split; auto. rewrite Nat.add_0_r. auto.
    + exists a2. split; auto. split; auto. replace (2 + S q) with (S n) by (unfold n; lia). rewrite before_S by (unfold n; lia). auto.
  - split; auto. intros m n Hm Hn HK. exfalso. unfold before at 2 in HK. cbn in HK. lia.
  - exists a'. split; auto. split; auto. intros m n Hm Hn. rewrite imn_same, imn_place by auto. pose proof (place_bound l m n nlat Hm Hn) as PB.
    rewrite rd_nth0 by lia. f_equal. apply G; auto. assert (1 <= nlat) by lia. replace (2 + (nlat - 1)) with (S nlat) by lia. lia.
Qed.
End Coeffs.

(** ** Three planes *)
Section Planes.
Variables nlat l : nat.
Notation late := (late_of nlat).
Definition view3 (a : list R) (G : nat -> nat -> nat -> R) : Prop :=
  length a = nlat * (late * 3) /\ forall np1 i k, 1 <= np1 <= nlat -> 1 <= i <= late -> 1 <= k <= 3 -> val2 nlat a np1 (pos late i k) = G np1 i k.
Lemma rd3_view a G np1 i k : view3 a G -> 1 <= np1 <= nlat -> 1 <= i <= late -> 1 <= k <= 3 -> rd3 nlat a np1 i k = Some (G np1 i k).
Proof.
  intros [L H] H1 H2 H3. unfold rd3. rewrite !inside_true by auto. cbn [andb]. rewrite (rd2_view nlat (late * 3) a (val2 nlat a)); [rewrite H; auto|split; auto|auto|]. apply pos_bound; auto.
Qed.
Lemma wr3_view a G np1 i k v : view3 a G -> 1 <= np1 <= nlat -> 1 <= i <= late -> 1 <= k <= 3 ->
  exists a', wr3 nlat a np1 i k v = Some a' /\ view3 a' (fun np1' i' k' => if andb (np1' =? np1) (andb (i' =? i) (k' =? k)) then v else G np1' i' k').
Proof.
  intros [L H] H1 H2 H3. unfold wr3. rewrite !inside_true by auto. cbn [andb].
  destruct (wr2_view nlat (late * 3) a (val2 nlat a) np1 (pos late i k) v (view_self _ _ _ L) H1 (pos_bound _ _ _ _ H2 H3)) as (a' & E & L' & V).
  exists a'. split; auto. split; auto. intros np1' i' k' Q1 Q2 Q3. rewrite V by (auto; apply pos_bound; auto).
  destruct (Nat.eqb_spec np1' np1) as [->|]; cbn [andb]; [|apply H; auto].
  destruct (Nat.eqb_spec (pos late i' k') (pos late i k)) as [E1|E1].
  - destruct (pos_inj late i' k' i k) as [-> ->]; auto; try lia. rewrite !Nat.eqb_refl. auto.
  - destruct (Nat.eqb_spec i' i) as [->|]; [|cbn [andb]; apply H; auto]. destruct (Nat.eqb_spec k' k) as [->|]; [lia|]. cbn [andb]. apply H; auto.
Qed.

(** a plane filled row after row; the value written may depend on what is there *)
Lemma fill_ok (V : nat -> nat -> R) (val : list R -> nat -> nat -> option R) lo k pmn G : 1 <= lo -> 1 <= k <= 3 -> view3 pmn G ->
  (forall p H np1 i, lo <= np1 <= nlat -> 1 <= i <= late -> view3 p H ->
     (forall np1' i' k', 1 <= np1' <= nlat -> 1 <= i' <= late -> 1 <= k' <= 3 -> k' <> k -> H np1' i' k' = G np1' i' k') ->
     (forall np1' i', lo <= np1' < np1 -> 1 <= i' <= late -> H np1' i' k = V np1' i') -> val p np1 i = Some (V np1 i)) ->
  exists pmn', foldM (fun pmn np1 => foldM (fun pmn i => let* v := val pmn np1 i in wr3 nlat pmn np1 i k v) (seq 1 late) pmn) (seq lo (nlat + 1 - lo)) pmn = Some pmn' /\
    view3 pmn' (fun np1 i k' => if andb (k' =? k) (lo <=? np1) then V np1 i else G np1 i k').
Proof.
  intros Hlo Hk HG HV.
  destruct (fold_seq (fun pmn np1 => foldM (fun pmn i => let* v := val pmn np1 i in wr3 nlat pmn np1 i k v) (seq 1 late) pmn)
    (fun q p => view3 p (fun np1 i k' => if andb (k' =? k) (andb (lo <=? np1) (np1 <? lo + q)) then V np1 i else G np1 i k')) (nlat + 1 - lo) lo pmn) as (p' & E & V').
  - intros q p Hq Hp. set (np1 := lo + q) in *.
    destruct (fold_seq (fun pmn i => let* v := val pmn np1 i in wr3 nlat pmn np1 i k v)
      (fun r p => view3 p (fun np1' i k' => if andb (k' =? k) (andb (lo <=? np1') (orb (np1' <? np1) (andb (np1' =? np1) (i <=? r)))) then V np1' i else G np1' i k')) late 1 p) as (p2 & E2 & V2).
    + intros r p1 Hr V1.
      assert (EV : val p1 np1 (1 + r) = Some (V np1 (1 + r))).
      { apply (HV p1 _ np1 (1 + r) ltac:(unfold np1; lia) ltac:(lia) V1).
        - intros np1' i' k' _ _ _ N. destruct (Nat.eqb_spec k' k); [lia|]. auto.
        - intros np1' i' N _. rewrite Nat.eqb_refl. destruct (Nat.leb_spec lo np1'), (Nat.ltb_spec np1' np1); try lia. auto. }
      cbv beta. rewrite EV. cbn [bind]. destruct (wr3_view p1 _ np1 (1 + r) k (V np1 (1 + r)) V1 ltac:(unfold np1; lia) ltac:(lia) Hk) as (p3 & E3 & L3 & V3).
      exists p3. split; [exact E3|]. split; [exact L3|]. intros a b c Ha Hb Hc. rewrite V3 by auto.
      destruct (Nat.eqb_spec a np1) as [->|]; cbn [andb orb].
      * destruct (Nat.eqb_spec b (1 + r)) as [->|]; cbn [andb].
        -- destruct (Nat.eqb_spec c k) as [->|]; cbn [andb]; auto. destruct (Nat.leb_spec lo np1); [|unfold np1 in *; lia]. destruct (Nat.leb_spec (1 + r) (S r)); [|lia]. rewrite orb_true_r. auto.
        -- destruct (c =? k); cbn [andb]; auto. destruct (lo <=? np1); cbn [andb]; auto. destruct (np1 <? np1); cbn [orb]; auto. destruct (Nat.leb_spec b r), (Nat.leb_spec b (S r)); auto; lia.
      * auto.
    + destruct Hp as [LP VP]. split; [exact LP|]. intros a b c Ha Hb Hc. rewrite VP by auto. destruct (c =? k); cbn [andb]; auto. destruct (lo <=? a); cbn [andb]; auto. fold np1. destruct (a <? np1); cbn [orb]; auto. destruct (a =? np1); cbn [andb]; auto. destruct (Nat.leb_spec b 0); auto; lia.
    + exists p2. split; [exact E2|]. destruct V2 as [L2 V2]. split; [exact L2|]. intros a b c Ha Hb Hc. rewrite V2 by auto. destruct (c =? k); cbn [andb]; auto. destruct (lo <=? a); cbn [andb]; auto.
      destruct (Nat.ltb_spec a (lo + S q)), (Nat.ltb_spec a np1), (Nat.eqb_spec a np1); cbn [andb orb]; auto; try (unfold np1 in *; lia). destruct (Nat.leb_spec b late); auto; lia.
  - destruct HG as [LG VG]. split; [exact LG|]. intros a b c Ha Hb Hc. rewrite VG by auto. destruct (c =? k); cbn [andb]; auto. destruct (Nat.leb_spec lo a), (Nat.ltb_spec a (lo + 0)); cbn [andb]; auto; lia.
  - exists p'. split; [exact E|]. destruct V' as [L' V']. split; [exact L'|]. intros a b c Ha Hb Hc. rewrite V' by auto. destruct (c =? k); cbn [andb]; auto. destruct (Nat.leb_spec lo a); cbn [andb]; auto. destruct (Nat.ltb_spec a (lo + (nlat + 1 - lo))); auto; lia.
Qed.

(** ** One call of legin1 with mode 0 *)
Variable th : nat -> R.
Variables p0n p1n abel bbel cbel : list R.
Variable F1 : nat -> nat -> R.
Hypothesis H0 : view nlat late p0n (fun np1 i => Pbar 0 (np1 - 1) (th i)).
Hypothesis H1 : view nlat late p1n F1.
Hypothesis HF1 : forall np1 i, 2 <= np1 <= nlat -> 1 <= i <= late -> F1 np1 i = Pbar 1 (np1 - 1) (th i).
Hypothesis Ha : forall m n, 2 <= m <= Nat.min n l -> n <= nlat -> rd abel (imn_use l m n) = Some (abel_of (Z.of_nat m) (Z.of_nat n)).
Hypothesis Hb : forall m n, 2 <= m <= Nat.min n l -> n <= nlat -> rd bbel (imn_use l m n) = Some (bbel_of (Z.of_nat m) (Z.of_nat n)).
Hypothesis Hc : forall m n, 2 <= m <= Nat.min n l -> n <= nlat -> rd cbel (imn_use l m n) = Some (cbel_of (Z.of_nat m) (Z.of_nat n)).

Definition distinct (km : nat * nat * nat) : Prop :=
  let '(a, b, c) := km in (1 <= a <= 3 /\ 1 <= b <= 3 /\ 1 <= c <= 3 /\ a <> b /\ a <> c /\ b <> c).
(** plane k holds the functions of order m *)
Definition holds (G : nat -> nat -> nat -> R) (k m : nat) : Prop :=
  forall np1 i, m + 1 <= np1 <= nlat -> 1 <= i <= late -> G np1 i k = Pbar m (np1 - 1) (th i).
Definition ready (km : nat * nat * nat) (G : nat -> nat -> nat -> R) (m : nat) : Prop :=
  let '(_, k1, k2) := km in (1 <= m -> holds G k1 (m - 1)) /\ (2 <= m -> holds G k2 (m - 2)).

Lemma legin1_ok m km pmn G : m < l -> l <= nlat -> distinct km -> view3 pmn G -> ready km G m ->
  let '(km0, km1, km2) := km in
  exists pmn' G', legin1 nlat l 0 m p0n p1n abel bbel cbel (km, pmn) = Some (((km2, km0, km1), pmn'), km0) /\ view3 pmn' G' /\
    holds G' km0 m /\ ready (km2, km0, km1) G' (m + 1).
Proof using All.
  intros Hm HL HD HV HR. destruct km as [[km0 km1] km2]. destruct HD as (D1 & D2 & D3 & N1 & N2 & N3). destruct HR as [R1 R2].
  set (V := fun np1 i => Pbar m (np1 - 1) (th i)).
  assert (SQ : seq (m + 1) (nlat - m) = seq (m + 1) (nlat + 1 - (m + 1))) by (f_equal; lia).
  assert (FIN : forall pmn', view3 pmn' (fun np1 i k' => if andb (k' =? km0) (m + 1 <=? np1) then V np1 i else G np1 i k') ->
    holds (fun np1 i k' => if andb (k' =? km0) (m + 1 <=? np1) then V np1 i else G np1 i k') km0 m /\ ready (km2, km0, km1) (fun np1 i k' => if andb (k' =? km0) (m + 1 <=? np1) then V np1 i else G np1 i k') (m + 1)).
  { intros pmn' _. assert (HH : holds (fun np1 i k' => if andb (k' =? km0) (m + 1 <=? np1) then V np1 i else G np1 i k') km0 m).
    { intros np1 i Hn Hi. rewrite Nat.eqb_refl. destruct (Nat.leb_spec (m + 1) np1); [|lia]. auto. }
    split; auto. split; [intros _; replace (m + 1 - 1) with m by lia; auto|]. intros Hm2. replace (m + 1 - 2) with (m - 1) by lia.
    intros np1 i Hn Hi. destruct (Nat.eqb_spec km1 km0); [lia|]. cbn [andb]. apply R1; auto; lia. }
  unfold legin1. cbn [Nat.eqb]. rewrite SQ. destruct (Nat.ltb_spec 1 m) as [M|M].
  - destruct (fill_ok V (fun pmn np1 i => let n := np1 - 1 in let imn := imn_use l m n in
        let* a := rd abel imn in let* x := rd3 nlat pmn (n - 1) i km2 in let* b := rd bbel imn in let* y := rd3 nlat pmn (n - 1) i km0 in
        let* c := rd cbel imn in let* z := rd3 nlat pmn np1 i km2 in Some (a * x + b * y - c * z)%R) (m + 1) km0 pmn G) as (p' & E & V'); auto; try lia.
    + intros p H np1 i Hn Hi VH OFF PREV. cbv zeta. destruct m as [|[|m]]; try lia. destruct np1 as [|[|[|n]]]; try lia.
      replace (S (S (S n)) - 1) with (S (S n)) by lia. replace (S (S n) - 1) with (S n) by lia.
      rewrite Ha, Hb, Hc by lia. cbn [bind].
      rewrite (rd3_view p H (S n) i km2), (rd3_view p H (S n) i km0), (rd3_view p H (S (S (S n))) i km2) by (auto; lia). cbn [bind]. f_equal.
      rewrite (OFF (S n)), (OFF (S (S (S n)))) by (auto; lia).
      rewrite (R2 ltac:(lia) (S n) i), (R2 ltac:(lia) (S (S (S n))) i) by lia. replace (S (S m) - 2) with m by lia. replace (S n - 1) with n by lia. replace (S (S (S n)) - 1) with (S (S n)) by lia.
      unfold V. replace (S (S (S n)) - 1) with (S (S n)) by lia. apply Pbar_rec; [lia|]. intros Hmn. rewrite PREV by lia. unfold V. f_equal. lia.
    + exists p'. eexists. split; [|split; [exact V'|apply (FIN p' V')]].
      replace (foldM _ (seq (m + 1) (nlat + 1 - (m + 1))) pmn) with (Some p'); [reflexivity|]. rewrite <- E. apply foldM_ext. intros p np1. apply foldM_ext. intros p1 i. cbv zeta.
      repeat (match goal with |- bind (bind ?x _) _ = bind ?x _ => destruct x; cbn [bind]; [|reflexivity] end). reflexivity.
  - destruct (Nat.eqb_spec m 0) as [M0|M0].
    + destruct (fill_ok V (fun pmn np1 i => rd2 nlat late p0n np1 i) (m + 1) km0 pmn G) as (p' & E & V'); auto; try lia.
      * intros p H np1 i Hn Hi _ _ _. rewrite (rd2_view _ _ _ _ _ _ H0) by (auto; lia). unfold V. rewrite M0. auto.
      * exists p'. eexists. split; [|split; [exact V'|apply (FIN p' V')]]. rewrite E. reflexivity.
    + assert (M1 : m = 1) by lia. destruct (fill_ok V (fun pmn np1 i => rd2 nlat late p1n np1 i) (m + 1) km0 pmn G) as (p' & E & V'); auto; try lia.
      * intros p H np1 i Hn Hi _ _ _. rewrite (rd2_view _ _ _ _ _ _ H1) by (auto; lia). rewrite HF1 by (auto; lia). unfold V. rewrite M1. auto.
      * exists p'. eexists. split; [|split; [exact V'|apply (FIN p' V')]]. rewrite E. reflexivity.
Qed.
End Planes.
