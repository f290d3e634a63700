(** The tables filled by shagsi are the normalised functions, at every order. *)
From Coq Require Import Reals List Arith ZArith Lia Bool Lra.
From Verif Require Import Base Buffer VH_Model RS_Spec RS_Dft GS_Spec GS_Model GS_Proofs1 GS_Proofs3 LG_Spec LG_Proofs1 LG_Model LG_Proofs2 LG_Proofs3 LG_Proofs4 LG_Proofs5 LG_Proofs6.
Import ListNotations.
Local Open Scope nat_scope.

(** ** Filling a row and a column *)
Lemma fill_row n1 n2 r step (V : nat -> R) p F : view n1 n2 p F -> 1 <= r <= n1 ->
  (forall p i, 1 <= i <= n2 -> step p i = wr2 n1 n2 p r i (V i)) ->
  exists p', foldM step (seq 1 n2) p = Some p' /\ view n1 n2 p' (fun a i => if a =? r then V i else F a i).
Proof.
  intros HV Hr HS. destruct (fold_seq step (fun q p => view n1 n2 p (fun a i => if andb (a =? r) (i <=? q) then V i else F a i)) n2 1 p) as (p' & E & V').
  - intros q p1 Hq V1. rewrite HS by lia. destruct (wr2_view n1 n2 p1 _ r (1 + q) (V (1 + q)) V1 Hr ltac:(lia)) as (p2 & E2 & V2). exists p2. split; auto.
    apply (view_ext _ _ _ _ _ V2). intros a i Ha Hi. destruct (Nat.eqb_spec a r); cbn [andb]; auto. destruct (Nat.eqb_spec i (1 + q)) as [->|]; [destruct (Nat.leb_spec (1 + q) (S q)); auto; lia|].
    destruct (Nat.leb_spec i q), (Nat.leb_spec i (S q)); auto; lia.
  - apply (view_ext _ _ _ _ _ HV). intros a i Ha Hi. destruct (a =? r); cbn [andb]; auto. destruct (Nat.leb_spec i 0); auto; lia.
  - exists p'. split; auto. apply (view_ext _ _ _ _ _ V'). intros a i Ha Hi. destruct (a =? r); cbn [andb]; auto. destruct (Nat.leb_spec i n2); auto; lia.
Qed.
Lemma fill_col n1 n2 c step (V : nat -> R) p F : view n1 n2 p F -> 1 <= c <= n2 ->
  (forall p i, 1 <= i <= n1 -> step p i = wr2 n1 n2 p i c (V i)) ->
  exists p', foldM step (seq 1 n1) p = Some p' /\ view n1 n2 p' (fun i a => if a =? c then V i else F i a).
Proof.
  intros HV Hr HS. destruct (fold_seq step (fun q p => view n1 n2 p (fun i a => if andb (i <=? q) (a =? c) then V i else F i a)) n1 1 p) as (p' & E & V').
  - intros q p1 Hq V1. rewrite HS by lia. destruct (wr2_view n1 n2 p1 _ (1 + q) c (V (1 + q)) V1 ltac:(lia) Hr) as (p2 & E2 & V2). exists p2. split; auto.
    apply (view_ext _ _ _ _ _ V2). intros i a Hi Ha. destruct (Nat.eqb_spec i (1 + q)) as [->|]; cbn [andb].
    + destruct (Nat.leb_spec (1 + q) (S q)); [|lia]. cbn [andb]. destruct (a =? c); auto. destruct (Nat.leb_spec (1 + q) q); auto; lia.
    + destruct (Nat.leb_spec i q), (Nat.leb_spec i (S q)); auto; lia.
  - apply (view_ext _ _ _ _ _ HV). intros i a Hi Ha. destruct (Nat.leb_spec i 0); auto; lia.
  - exists p'. split; auto. apply (view_ext _ _ _ _ _ V'). intros i a Hi Ha. destruct (Nat.leb_spec i n1); auto; lia.
Qed.

(** ** The tables of order 0 and 1 *)
Section Tables.
Variables nlat l : nat.
Hypothesis Hn : 1 <= nlat.
Notation late := (late_of nlat).
Variable theta : list R.
Hypothesis Ht : late <= length theta.
Notation th := (fun i => nth (i - 1) theta 0%R).
Lemma zero_ok p : length p = nlat * late -> exists p', foldM (fun p np1 => foldM (fun p i => wr2 nlat late p np1 i 0%R) (seq 1 late) p) (seq 1 nlat) p = Some p' /\ view nlat late p' (fun _ _ => 0%R).
Proof.
  intros HL. destruct (fold_seq (fun p np1 => foldM (fun p i => wr2 nlat late p np1 i 0%R) (seq 1 late) p) (fun q p' => view nlat late p' (fun a i => if a <=? q then 0%R else val2 nlat p a i)) nlat 1 p) as (p' & E & V').
  - intros q p1 Hq V1. destruct (fill_row nlat late (1 + q) (fun p i => wr2 nlat late p (1 + q) i 0%R) (fun _ => 0%R) p1 _ V1 ltac:(lia)) as (p2 & E2 & V2); [auto|]. exists p2. split; auto.
    apply (view_ext _ _ _ _ _ V2). intros a i Ha Hi. destruct (Nat.eqb_spec a (1 + q)) as [->|]; [destruct (Nat.leb_spec (1 + q) (S q)); auto; lia|]. destruct (Nat.leb_spec a q), (Nat.leb_spec a (S q)); auto; lia.
  - apply (view_ext _ _ _ _ _ (view_self _ _ _ HL)). intros a i Ha Hi. destruct (Nat.leb_spec a 0); auto; lia.
  - exists p'. split; auto. apply (view_ext _ _ _ _ _ V'). intros a i Ha Hi. destruct (Nat.leb_spec a nlat); auto; lia.
Qed.
Lemma half_mono a b : a <= b -> a / 2 <= b / 2. Proof. intros. apply Nat.div_le_mono; lia. Qed.
Lemma row_ok m np1 p work F : m <= 1 -> m + 1 <= np1 <= nlat -> view nlat late p F -> nlat / 2 + 1 <= length work ->
  exists p' work', degree_row nlat theta m np1 (p, work) = Some (p', work') /\ length work' = length work /\ view nlat late p' (fun a i => if a =? np1 then Pbar m (np1 - 1) (th i) else F a i).
Proof.
  intros Hm Hp HV HW. unfold degree_row. cbn [fst snd]. pose proof (half_mono (np1 - 1) nlat ltac:(lia)).
  destruct (value_ok m (np1 - 1) work Hm ltac:(lia) ltac:(lia)) as (w & EW & LW & VW). rewrite EW. cbn [bind].
  destruct (fill_row nlat late np1 (fun p i => let* t := rd theta i in let* pb := dnlft m (np1 - 1) t w in wr2 nlat late p np1 i pb) (fun i => Pbar m (np1 - 1) (th i)) p F HV ltac:(lia)) as (p' & E & V').
  - intros p1 i Hi. rewrite rd_nth0 by lia. cbn [bind]. rewrite VW. reflexivity.
  - rewrite E. cbn [bind]. exists p', w. auto.
Qed.
Lemma rows_ok m p work F : m <= 1 -> m + 1 <= nlat -> view nlat late p F -> nlat / 2 + 1 <= length work ->
  exists p' work', foldM (fun s np1 => degree_row nlat theta m np1 s) (seq (m + 1) (nlat - m)) (p, work) = Some (p', work') /\ length work' = length work /\
    view nlat late p' (fun a i => if m + 1 <=? a then Pbar m (a - 1) (th i) else F a i).
Proof.
  intros Hm Hmn HV HW.
  destruct (fold_seq (fun s np1 => degree_row nlat theta m np1 s) (fun q s => length (snd s) = length work /\ view nlat late (fst s) (fun a i => if andb (m + 1 <=? a) (a <? m + 1 + q) then Pbar m (a - 1) (th i) else F a i)) (nlat - m) (m + 1) (p, work)) as ([p' w'] & E & L' & V').
  - intros q [p1 w1] Hq [L1 V1]. cbn [fst snd] in *. destruct (row_ok m (m + 1 + q) p1 w1 _ Hm ltac:(lia) V1 ltac:(lia)) as (p2 & w2 & E2 & L2 & V2). exists (p2, w2). split; auto. cbn [fst snd]. split; [lia|].
    apply (view_ext _ _ _ _ _ V2). intros a i Ha Hi. destruct (Nat.eqb_spec a (m + 1 + q)) as [->|].
    + destruct (Nat.leb_spec (m + 1) (m + 1 + q)), (Nat.ltb_spec (m + 1 + q) (m + 1 + S q)); try lia. auto.
    + destruct (Nat.leb_spec (m + 1) a); cbn [andb]; auto. destruct (Nat.ltb_spec a (m + 1 + q)), (Nat.ltb_spec a (m + 1 + S q)); auto; lia.
  - cbn [fst snd]. split; auto. apply (view_ext _ _ _ _ _ HV). intros a i Ha Hi. destruct (Nat.leb_spec (m + 1) a), (Nat.ltb_spec a (m + 1 + 0)); cbn [andb]; auto; lia.
  - exists p', w'. split; auto. split; auto. apply (view_ext _ _ _ _ _ V'). intros a i Ha Hi. cbn [fst]. destruct (Nat.leb_spec (m + 1) a); cbn [andb]; auto. destruct (Nat.ltb_spec a (m + 1 + (nlat - m))); auto; lia.
Qed.
Lemma table0_ok junk work : length junk = nlat * late -> nlat / 2 + 1 <= length work ->
  exists p w, table0 nlat theta junk work = Some (p, w) /\ length w = length work /\ view nlat late p (fun np1 i => Pbar 0 (np1 - 1) (th i)).
Proof.
  intros HJ HW. unfold table0. destruct (zero_ok junk HJ) as (z & EZ & VZ). rewrite EZ. cbn [bind]. destruct (rows_ok 0 z work _ ltac:(lia) ltac:(lia) VZ HW) as (p & w & E & L & V).
  replace (nlat - 0) with nlat in E by lia. change (0 + 1) with 1 in E. exists p, w. split; auto. split; auto. apply (view_ext _ _ _ _ _ V). intros a i Ha Hi. destruct (Nat.leb_spec (0 + 1) a); auto; lia.
Qed.
Lemma table1_ok junk work : length junk = nlat * late -> nlat / 2 + 1 <= length work ->
  exists p w F, table1 nlat theta junk work = Some (p, w) /\ length w = length work /\ view nlat late p F /\ (forall np1 i, 2 <= np1 <= nlat -> F np1 i = Pbar 1 (np1 - 1) (th i)) /\ (forall i, F 1 i = 0%R).
Proof.
  intros HJ HW. unfold table1. destruct (zero_ok junk HJ) as (z & EZ & VZ). rewrite EZ. cbn [bind].
  assert (nlat = 1 \/ 1 + 1 <= nlat) as [N|N] by lia.
  - subst nlat. cbn [Nat.sub seq foldM]. exists z, work, (fun _ _ => 0%R). split; auto. split; auto. split; auto. split; auto. intros; lia.
  - destruct (rows_ok 1 z work _ ltac:(lia) N VZ HW) as (p & w & E & L & V). exists p, w. eexists. split; [exact E|]. split; auto. split; [exact V|]. split; [|auto]. intros np1 i Hp. destruct (Nat.leb_spec (1 + 1) np1); auto; lia.
Qed.
End Tables.

(** ** The store of all functions *)
Lemma slot_inj nlat m n m' n' : m <= n < nlat -> m' <= n' < nlat -> slot nlat m n = slot nlat m' n' -> m = m' /\ n = n'.
Proof.
  intros H H' E. unfold slot in E. fold (tri_sum nlat m) (tri_sum nlat m') in E.
  destruct (lt_eq_lt_dec m m') as [[L|L]|L].
  - pose proof (tri_sum_mono nlat (S m) m' ltac:(lia)) as M. rewrite tri_sum_S in M. lia.
  - subst. lia.
  - pose proof (tri_sum_mono nlat (S m') m ltac:(lia)) as M. rewrite tri_sum_S in M. lia.
Qed.
Section Store.
Variables nlat l : nat.
Hypothesis Hl : 1 <= l <= nlat.
Notation late := (late_of nlat).
Notation npm := (npm_of nlat l).
Variable th : nat -> R.
Variables p0n p1n abel bbel cbel : list R.
Variable F1 : nat -> nat -> R.
Hypothesis H0 : view nlat late p0n (fun np1 i => Pbar 0 (np1 - 1) (th i)).
Hypothesis H1 : view nlat late p1n F1.
Hypothesis HF1 : forall np1 i, 2 <= np1 <= nlat -> 1 <= i <= late -> F1 np1 i = Pbar 1 (np1 - 1) (th i).
Hypothesis Ha : forall m n, 2 <= m <= Nat.min n l -> n <= nlat -> rd abel (imn_use l m n) = Some (abel_of (Z.of_nat m) (Z.of_nat n)).
Hypothesis Hb : forall m n, 2 <= m <= Nat.min n l -> n <= nlat -> rd bbel (imn_use l m n) = Some (bbel_of (Z.of_nat m) (Z.of_nat n)).
Hypothesis Hc : forall m n, 2 <= m <= Nat.min n l -> n <= nlat -> rd cbel (imn_use l m n) = Some (cbel_of (Z.of_nat m) (Z.of_nat n)).

Lemma zero3_ok p : length p = nlat * (late * 3) ->
  exists p', foldM (fun p np1 => foldM (fun p i => foldM (fun p k => wr3 nlat p np1 i k 0%R) (seq 1 3) p) (seq 1 late) p) (seq 1 nlat) p = Some p' /\ length p' = nlat * (late * 3).
Proof using Hl.
  intros HP. apply (fold_seq _ (fun _ p => length p = nlat * (late * 3))); auto. intros q p1 Hq L1.
  apply (fold_seq _ (fun _ p => length p = nlat * (late * 3))); auto. intros r p2 Hr L2.
  apply (fold_seq _ (fun _ p => length p = nlat * (late * 3))); auto. intros t p3 Ht L3.
  destruct (wr3_view nlat p3 (fun a b c => val2 nlat p3 a (pos late b c)) (1 + q) (1 + r) (1 + t) 0%R) as (p4 & E4 & L4 & _); try lia; [split; auto|]. exists p4. auto.
Qed.
Definition stored (f : list R) (m r : nat) : Prop :=
  length f = late * npm /\ forall m' n i, m' < l -> m' <= n < nlat -> m' < m \/ (m' = m /\ n < m + r) -> 1 <= i <= late -> val2 late f i (slot nlat m' n) = Pbar m' n (th i).
Lemma shagss1_ok km pmn pmnf : distinct km -> length pmn = nlat * (late * 3) -> length pmnf = late * npm ->
  exists km' f, shagss1 nlat l p0n p1n abel bbel cbel km pmn pmnf = Some (km', f) /\ distinct km' /\ stored f l 0.
Proof using All.
  intros HD HP HF. unfold shagss1. destruct (zero3_ok pmn HP) as (z & EZ & LZ). rewrite EZ. cbn [bind].
  match goal with |- context [foldM ?fn (seq 1 l) ?s] => destruct (fold_seq fn (fun (q : nat) (st : (nat * nat * nat) * list R * list R) => distinct (fst (fst st)) /\ (exists G, view3 nlat (snd (fst st)) G /\ ready nlat th (fst (fst st)) G q) /\ stored (snd st) q 0) l 1 s) as ([[km' pm'] f'] & E & D' & _ & S'); cbn [fst snd] in * end.
  - intros q [[kk pm] f] Hq (DK & (G & VG & RG) & LF & SF). cbn [fst snd] in *. replace (1 + q - 1) with q by lia. destruct kk as [[k0 k1] k2].
    pose proof (legin1_ok nlat l th p0n p1n abel bbel cbel F1 H0 H1 HF1 Ha Hb Hc q (k0, k1, k2) pm G Hq ltac:(lia) DK VG RG) as LG. cbv beta iota in LG. destruct LG as (pm2 & G2 & E2 & V2 & HO & RD). rewrite E2. cbn [bind fst snd].
    destruct DK as (B0 & B1 & B2 & N01 & N02 & N12).
    match goal with |- context [foldM ?fn (seq (1 + q) (nlat - q)) f] => destruct (fold_seq fn (fun r f => stored f q r) (nlat - q) (1 + q) f) as (f2 & Ef & Sf) end.
    + intros r f1 Hr [L1 S1]. assert (MN : mml1 nlat q + (1 + q + r) = slot nlat q (q + r)) by (rewrite <- mml1_slot by lia; lia). rewrite MN.
      pose proof (slot_bound nlat l q (q + r) ltac:(lia) ltac:(lia)) as SB.
      match goal with |- context [foldM ?st (seq 1 _) f1] => destruct (fill_col late npm (slot nlat q (q + r)) st (fun i => Pbar q (q + r) (th i)) f1 _ (view_self _ _ _ L1) SB) as (f3 & E3 & L3 & V3) end.
      * intros p i Hi. rewrite (rd3_view nlat pm2 G2) by (auto; lia). cbn [bind]. rewrite HO by lia. do 2 f_equal. lia.
      * exists f3. split; auto. split; auto. intros m' n' i M1 M2 M3 M4. rewrite V3 by (auto; apply slot_bound; lia).
        destruct (Nat.eqb_spec (slot nlat m' n') (slot nlat q (q + r))) as [ES|ES]; [destruct (slot_inj nlat m' n' q (q + r)) as [-> ->]; auto; lia|]. apply S1; auto. destruct M3 as [|[-> M3]]; auto. right. split; auto. assert (n' <> q + r) by (intros ->; auto). lia.
    + split; auto.
    + cbn [fst snd] in Ef |- *. rewrite Ef. cbn [bind]. eexists. split; [reflexivity|]. cbn [fst snd]. split; [red; lia|]. split; [exists G2; split; auto; replace (S q) with (q + 1) by lia; auto|].
      destruct Sf as [L2 S2]. split; auto. intros m' n' i M1 M2 M3 M4. apply S2; auto. lia.
  - cbn [fst snd]. split; auto. split; [exists (fun a b c => val2 nlat z a (pos late b c)); split; [split; auto|]|].
    + destruct km as [[k0 k1] k2]. split; intros; lia.
    + split; auto. intros. lia.
  - rewrite E. cbn [bind fst snd]. exists km', f'. auto.
Qed.
End Store.

(** ** All the tables *)
Section All.
Variables nlat l : nat.
Hypothesis Hl : 1 <= l <= nlat.
Notation late := (late_of nlat).
Lemma before_places : 2 * before l (S nlat) = l * (l - 1) + 2 * ((nlat - l) * (l - 1)).
Proof using Hl.
  assert (l = 1 \/ 2 <= l) as [L|L] by lia.
  - assert (E : before l (S nlat) = 0); [|rewrite E; subst l; lia]. unfold before. rewrite L. generalize (S nlat - 2). intros k. generalize 2. induction k; intros a; auto. cbn [seq map]. change (list_sum (?x :: ?y)) with (x + list_sum y). rewrite IHk. lia.
  - pose proof (before_large l (S nlat) ltac:(lia)) as B. nia.
Qed.
Lemma sq_even : exists k, l * (l - 1) = 2 * k.
Proof using Hl. destruct l as [|p]; [lia|]. replace (S p - 1) with p by lia. clear. induction p as [|p [k IH]]; [exists 0; auto|]. exists (k + S p). lia. Qed.
Lemma before_len : before l (S nlat) = l * (l - 1) / 2 + (nlat - l) * (l - 1).
Proof using Hl. pose proof before_places as B. destruct sq_even as [k K]. rewrite K in *. rewrite half_e. lia. Qed.
Lemma shagsi_tables_ok theta len junk work km pmn pmnf : late <= length theta -> l * (l - 1) / 2 + (nlat - l) * (l - 1) <= len -> length junk = nlat * late ->
  nlat / 2 + 1 <= length work -> distinct km -> length pmn = nlat * (late * 3) -> length pmnf = late * npm_of nlat l ->
  exists f, shagsi_tables nlat l theta len junk work km pmn pmnf = Some f /\ stored nlat l (fun i => nth (i - 1) theta 0%R) f l 0.
Proof using Hl.
  intros HT HL HJ HW HD HP HF. rewrite <- before_len in HL. unfold shagsi_tables.
  destruct (table0_ok nlat ltac:(lia) theta HT junk work HJ HW) as (p0 & w0 & E0 & L0 & V0). rewrite E0. cbn [bind snd].
  destruct (table1_ok nlat ltac:(lia) theta HT junk w0 HJ ltac:(lia)) as (p1 & w1 & F1 & E1 & L1 & V1 & HF1 & _). rewrite E1. cbn [bind].
  assert (LZ : before l (S nlat) <= length (repeat 0%R len)) by (rewrite repeat_length; auto).
  destruct (coefficients_ok nlat l ltac:(lia) abel_of _ LZ) as (a & Ea & Va). rewrite Ea. cbn [bind].
  destruct (coefficients_ok nlat l ltac:(lia) bbel_of _ LZ) as (b & Eb & Vb). rewrite Eb. cbn [bind].
  destruct (coefficients_ok nlat l ltac:(lia) cbel_of _ LZ) as (c & Ec & Vc). rewrite Ec. cbn [bind].
  destruct (shagss1_ok nlat l Hl (fun i => nth (i - 1) theta 0%R) p0 p1 a b c F1 V0 V1 (fun x y H _ => HF1 x y H) (proj2 Va) (proj2 Vb) (proj2 Vc) km pmn pmnf HD HP HF) as (km' & f & E & _ & S).
  cbn [fst snd]. rewrite E. cbn [bind snd]. exists f. auto.
Qed.
End All.

(** ** The whole grid *)
Section Whole.
Variables nlat nlon : nat.
Hypothesis Hn : 1 <= nlat.
Variable th : nat -> R.
Hypothesis HS : symmetric_colatitudes nlat th.
Variable f : list R.
Hypothesis Hf : forall m n i, m < lmax nlat nlon -> m <= n < nlat -> 1 <= i <= north nlat -> legendre nlat f m n i = Pbar m n (th i).
Lemma odd_pow k : Nat.odd k = true -> ((-1) ^ k = -1)%R.
Proof. intros H. apply Nat.odd_spec in H. destruct H as [q ->]. replace (2 * q + 1) with (S (2 * q)) by lia. cbn [pow]. rewrite pow_1_even. ring. Qed.
Lemma equator : zero_at_equator nlat nlon f.
Proof using All.
  intros m n Hmn Hm HO HO2. pose proof (halves nlat) as [HH1 HH2]. apply Nat.odd_spec in HO. destruct HO as [q Q].
  assert (NQ : north nlat = q + 1) by (unfold north; replace (nlat + 1) with (2 * (q + 1)) by lia; apply half_e).
  rewrite Hf by (auto; lia). pose proof (HS (north nlat) ltac:(lia)) as E. replace (nlat + 1 - north nlat) with (north nlat) in E by lia.
  pose proof (Pbar_mirror m n (th (north nlat)) ltac:(lia)) as M. rewrite <- E, (odd_pow _ HO2) in M. lra.
Qed.
Lemma pfull_ok m n i : m < lmax nlat nlon -> m <= n < nlat -> 1 <= i <= nlat -> pfull nlat f m n i = Pbar m n (th i).
Proof using All.
  intros Hm Hmn Hi. unfold pfull. pose proof (halves nlat) as [HH1 HH2]. destruct (Nat.leb_spec i (north nlat)); [apply Hf; auto; lia|].
  rewrite Hf by (auto; lia). rewrite <- Pbar_mirror by lia. f_equal. rewrite <- HS by lia. f_equal. lia.
Qed.
Lemma orthonormal wts : gaussian nlat wts th -> orthonormal_functions nlat nlon wts f.
Proof using All.
  intros HG m n n' Hm Hmn Hmn'. unfold quadrature. rewrite <- (Pbar_orthonormal nlat wts th HG m n n') by lia. apply sumR_ext. intros q Hq. cbv zeta. rewrite !pfull_ok by lia. reflexivity.
Qed.
End Whole.
