(** Row transforms, the copy loops, and the synthesis. *)
From Coq Require Import Reals List Arith ZArith Lia Bool Lra.
From Verif Require Import Base Buffer VH_Model RS_Spec RS_Dft FF_Model FF_Model2 FF_Props FF_Props2 GS_Spec GS_Model GS_Proofs1 GS_Proofs2 GS_Proofs3.
Import ListNotations.
Local Open Scope nat_scope.

Lemma mapM_some {A B} (f : A -> option B) (h : A -> B) l : (forall x, In x l -> f x = Some (h x)) -> mapM f l = Some (map h l).
Proof.
  induction l; intros H; cbn; auto. rewrite H by (left; auto). cbn [bind]. rewrite IHl by (intros; apply H; right; auto). auto.
Qed.
Lemma nth_flat {A} (h : nat -> list A) L d : (forall j, length (h j) = L) ->
  forall n s j i, j < n -> i < L -> nth (j * L + i) (flat_map h (seq s n)) d = nth i (h (s + j)) d.
Proof.
  intros HL. induction n; intros s j i Hj Hi; [lia|]. cbn [seq flat_map]. destruct j.
  - rewrite app_nth1 by (rewrite HL; lia). cbn. f_equal. f_equal. lia.
  - rewrite app_nth2; rewrite HL; [|cbn; plia]. replace (S j * L + i - L) with (j * L + i) by (cbn; plia).
    rewrite IHn by lia. f_equal. f_equal. lia.
Qed.
Lemma length_flat {A} (h : nat -> list A) L : (forall j, length (h j) = L) -> forall n s, length (flat_map h (seq s n)) = L * n.
Proof. intros HL. induction n; intros s; cbn; [lia|]. rewrite app_length, HL, IHn. rewrite (Nat.mul_comm L (S n)), (Nat.mul_comm L n). cbn. auto. Qed.
Lemma nth_map0 {A B} (f : A -> B) d d' l i : i < length l -> nth i (map f l) d' = f (nth i l d).
Proof. intros. rewrite nth_indep with (d' := f d) by (rewrite map_length; auto). apply map_nth. Qed.
Lemma nth_map_seq {B} (f : nat -> B) d s n i : i < n -> nth i (map f (seq s n)) d = f (s + i).
Proof. intros. rewrite (nth_map0 f 0) by (rewrite seq_length; auto). rewrite seq_nth by auto. auto. Qed.

Lemma fft_rows_ok nlat nlon mode tr (T : list R -> list R) g F :
  (forall r, length r = nlon -> tr r = Some (T r)) -> view (lat_of nlat mode) nlon g F ->
  exists g', fft_rows nlat nlon mode tr g = Some g' /\
    view (lat_of nlat mode) nlon g' (fun i j => nth (j - 1) (T (map (F i) (seq 1 nlon))) 0%R).
Proof.
  intros HT V. unfold fft_rows.
  rewrite (mapM_some _ (fun i => T (map (F i) (seq 1 nlon)))).
  - cbn [bind]. eexists. split; [reflexivity|]. set (rows := map (fun i => T (map (F i) (seq 1 nlon))) (seq 1 (lat_of nlat mode))).
    assert (LR : length rows = lat_of nlat mode) by (unfold rows; rewrite map_length, seq_length; auto).
    assert (Lh : forall j, length (map (fun r : list R => nth j r 0%R) rows) = lat_of nlat mode) by (intros; rewrite map_length; auto).
    split; [apply (length_flat _ _ Lh)|]. intros i j Hi Hj. unfold val2. rewrite (nth_flat _ _ _ Lh) by lia.
    rewrite (nth_map0 _ nil) by lia. unfold rows. rewrite nth_map_seq by lia. replace (1 + (i - 1)) with i by lia. auto.
  - intros i Hi. apply in_seq in Hi. rewrite (mapM_some _ (F i)).
    + cbn [bind]. apply HT. rewrite map_length, seq_length. auto.
    + intros j Hj. apply in_seq in Hj. apply (rd2_view _ _ _ _ _ _ V); lia.
Qed.

Lemma store_ok n1 n2 ni nj f (v : nat -> nat -> R) o O1 : ni <= n1 -> nj <= n2 ->
  (forall i j, 1 <= i <= ni -> 1 <= j <= nj -> f i j = Some (v i j)) -> view n1 n2 o O1 ->
  exists o', store n1 n2 ni nj f o = Some o' /\ view n1 n2 o' (fun i j => if andb (i <=? ni) (j <=? nj) then v i j else O1 i j).
Proof.
  intros Hi Hj Hf HV. unfold store.
  apply (fold_seq _ (fun q o => view n1 n2 o (fun i j => if andb (i <=? ni) (j <=? q) then v i j else O1 i j))).
  - intros q o1 Hq V1.
    destruct (fold_seq (fun o i => let* x := f i (1 + q) in wr2 n1 n2 o i (1 + q) x)
      (fun p o => view n1 n2 o (fun i j => if andb (i <=? p) (j =? 1 + q) then v i j else if andb (i <=? ni) (j <=? q) then v i j else O1 i j)) ni 1 o1) as (o2 & E2 & V2).
    + intros p o3 Hp V3. rewrite Hf by lia. cbn [bind]. destruct (wr2_view _ _ _ _ (1 + p) (1 + q) (v (1 + p) (1 + q)) V3 ltac:(lia) ltac:(lia)) as (o4 & E4 & V4).
      exists o4. split; [exact E4|]. apply (view_ext _ _ _ _ _ V4). intros i j Hi' Hj'. cbn beta.
      destruct (Nat.eqb_spec j (1 + q)) as [->|]; rewrite ?andb_true_r, ?andb_false_r; auto.
      destruct (Nat.eqb_spec i (1 + p)) as [->|].
      * destruct (Nat.leb_spec (1 + p) (S p)); [auto|lia].
      * destruct (Nat.leb_spec i p), (Nat.leb_spec i (S p)); auto; lia.
    + apply (view_ext _ _ _ _ _ V1). intros i j Hi' Hj'. cbn beta. destruct (Nat.leb_spec i 0); [lia|]. auto.
    + exists o2. split; [exact E2|]. apply (view_ext _ _ _ _ _ V2). intros i j Hi' Hj'. cbn beta.
      destruct (Nat.leb_spec i ni); cbn [andb]; auto.
      destruct (Nat.eqb_spec j (1 + q)) as [->|].
      * destruct (Nat.leb_spec (1 + q) (S q)); [auto|lia].
      * destruct (Nat.leb_spec j q), (Nat.leb_spec j (S q)); auto; lia.
  - apply (view_ext _ _ _ _ _ HV). intros i j Hi' Hj'. cbn beta. destruct (Nat.leb_spec j 0); [lia|]. rewrite andb_false_r. auto.
Qed.

Lemma sin_half M j : 1 <= M -> sin (angle (2 * M) M j) = 0%R.
Proof.
  intros HM. apply sin_eq_0_1. exists (Z.of_nat j). unfold angle. rewrite mult_INR, <- INR_IZR_INZ. cbn [INR]. field. apply not_0_INR. lia.
Qed.

Lemma c_even m : 2 * m / 2 = m. Proof. rewrite Nat.mul_comm. apply Nat.div_mul. lia. Qed.
Lemma c_odd m : (2 * m + 1) / 2 = m. Proof. rewrite Nat.add_comm, Nat.mul_comm, Nat.div_add by lia. auto. Qed.

Section Synthesis.
Variables nlat nlon mode : nat.
Hypothesis Hmode : mode <= 2.
Hypothesis Hnlat : 1 <= nlat.
Hypothesis Hnlon : 1 <= nlon.
Notation l := (l_of nlat nlon).
Notation late := (late_of nlat).
Notation lat := (lat_of nlat mode).
Notation lm := (lm1 nlat nlon).
Variable pmn : list R.
Hypothesis HP : view late (npm_of nlat l) pmn (val2 late pmn).
Hypothesis HZ : zero_at_equator nlat nlon pmn.

Lemma l_facts : 1 <= l /\ l <= nlat /\ 2 * l <= nlon + 2.
Proof using Hnlat Hnlon. clear Hmode. unfold l_of. pose proof (Nat.div_mod (nlon + 2) 2 ltac:(lia)). assert (1 <= (nlon + 2) / 2) by (apply Nat.div_le_lower_bound; lia). lia. Qed.
(** the two cases of lm1 *)
Lemma lm_cases : (nlon = l + l - 2 /\ lm = l - 1 /\ 2 <= l) \/ (nlon <> l + l - 2 /\ lm = l /\ 2 * l <= nlon + 1).
Proof using Hnlat Hnlon. clear Hmode.
  pose proof l_facts. unfold lm1. destruct (Nat.eqb_spec nlon (l + l - 2)); [left|right]; split; auto; split; auto; lia.
Qed.

(** amplitudes in the packed order of the row transform *)
Definition packed (A B : nat -> nat -> R) (k i c : nat) : R :=
  if c =? 1 then ampv nlat mode pmn 0 (A 1) i
  else if c <=? 2 * k + 1 then ampv nlat mode pmn (c / 2) (if Nat.even c then A (c / 2 + 1) else B (c / 2 + 1)) i else 0%R.

Variables mdab ndab : nat.
Hypothesis Hmd : l <= mdab.
Hypothesis Hnd : nlat <= ndab.
Variables a b : list R.
Hypothesis Va : view mdab ndab a (val2 mdab a).
Hypothesis Vb : view mdab ndab b (val2 mdab b).
Notation A := (val2 mdab a).
Notation B := (val2 mdab b).
Notation ca mp1 := (fun np1 => rd2 mdab ndab a mp1 np1).
Notation cb mp1 := (fun np1 => rd2 mdab ndab b mp1 np1).

Lemma ampv_ext m v w i : (forall np1, m + 1 <= np1 <= nlat -> v np1 = w np1) -> ampv nlat mode pmn m v i = ampv nlat mode pmn m w i.
Proof. intros H. unfold ampv. apply sumR_ext. intros k Hk. destruct (used mode m (m + k)); auto. rewrite H by lia. auto. Qed.
Lemma ampv_scal m v c i : ampv nlat mode pmn m (fun np1 => c * v np1)%R i = (c * ampv nlat mode pmn m v i)%R.
Proof. unfold ampv. rewrite <- sumR_scal. apply sumR_ext. intros k Hk. destruct (used mode m (m + k)); ring. Qed.

Lemma even_double m : Nat.even (2 * m) = true. Proof. apply ev. Qed.
Lemma even_double1 m : Nat.even (2 * m + 1) = false. Proof. rewrite <- Nat.negb_odd, od. auto. Qed.

(** the columns before the row transform *)
Definition rowc (i c : nat) : R :=
  if andb (nlon =? l + l - 2) (c =? nlon) then (2 * ampv nlat mode pmn (l - 1) (A l) i)%R else packed A B (lm - 1) i c.

Lemma columns_ok : exists g,
  (let* g := Some (repeat 0%R (lat * nlon)) in
   let* g := column nlat nlon mode 0 [(1, ca 1)] pmn g in
   let* g := foldM (fun g mp1 => let m := mp1 - 1 in
              column nlat nlon mode m [(2 * m, ca mp1); (2 * m + 1, cb mp1)] pmn g) (seq 2 (lm - 1)) g in
   (if nlon =? l + l - 2
             then column nlat nlon mode (l - 1) [(nlon, fun np1 => let* v := rd2 mdab ndab a l np1 in Some (2 * v)%R)] pmn g
             else Some g)) = Some g /\ view lat nlon g rowc.
Proof.
  pose proof l_facts as (L1 & L2 & L3). cbn [bind].
  assert (V0 : view lat nlon (repeat 0%R (lat * nlon)) (fun _ _ => 0%R)).
  { split; [apply repeat_length|]. intros. unfold val2. apply nth_repeat. }
  destruct (column_ok nlat nlon mode Hmode pmn HP HZ 0 [(1, ca 1)] [(1, A 1)] _ _ ltac:(lia)
     ltac:(cbn; repeat constructor; intros []) ltac:(intros t [<-|[]]; cbn; lia)
     ltac:(intros np1 Hn; cbn; rewrite (rd2_view _ _ _ _ 1 np1 Va) by lia; reflexivity) eq_refl V0 ltac:(auto)) as (g1 & E1 & V1).
  rewrite E1. cbn [bind]. clear E1.
  destruct (fold_seq (fun g mp1 => let m := mp1 - 1 in column nlat nlon mode m [(2 * m, ca mp1); (2 * m + 1, cb mp1)] pmn g)
    (fun k g => view lat nlon g (packed A B k)) (lm - 1) 2 g1) as (g2 & E2 & V2).
  - intros k g2 Hk V2. cbv zeta. set (m := 2 + k - 1). assert (Em : m = S k) by (unfold m; lia). clearbody m. replace (2 + k) with (m + 1) by lia.
    assert (Hml : m < l /\ 2 * m + 1 <= nlon) by (pose proof lm_cases; lia). destruct Hml as [Hml Hmn].
    destruct (column_ok nlat nlon mode Hmode pmn HP HZ m [(2 * m, ca (m + 1)); (2 * m + 1, cb (m + 1))] [(2 * m, A (m + 1)); (2 * m + 1, B (m + 1))] g2 _ ltac:(lia)
      ltac:(cbn -[Nat.mul]; constructor; [intros [X|[]]; lia|constructor; [intros []|constructor]]) ltac:(intros t [<-|[<-|[]]]; cbn -[Nat.mul]; lia)
      ltac:(intros np1 Hn; cbn -[Nat.mul Nat.add]; rewrite (rd2_view _ _ _ _ (m + 1) np1 Va), (rd2_view _ _ _ _ (m + 1) np1 Vb) by lia; reflexivity) eq_refl V2
      ltac:(intros i c M; unfold packed; apply memb_in in M; destruct M as [<-|[<-|[]]]; cbn [fst]; destruct (Nat.eqb_spec (2 * m) 1), (Nat.eqb_spec (2 * m + 1) 1), (Nat.leb_spec (2 * m) (2 * k + 1)), (Nat.leb_spec (2 * m + 1) (2 * k + 1)); auto; lia)) as (g3 & E3 & V3).
    exists g3. split; [exact E3|]. apply (view_ext _ _ _ _ _ V3). intros i c Hi Hc. cbn beta. unfold packed.
    unfold memb. cbn [map fst existsb]. rewrite orb_false_r.
    destruct (Nat.eqb_spec c (2 * m)) as [->|N1]; [|destruct (Nat.eqb_spec c (2 * m + 1)) as [->|N2]]; cbn [orb].
    + destruct (Nat.eqb_spec (2 * m) 1); [lia|]. destruct (Nat.leb_spec (2 * m) (2 * S k + 1)); [|lia]. rewrite c_even, even_double.
      apply ampv_ext. intros. unfold coefs. cbn -[Nat.mul]. rewrite Nat.eqb_refl. destruct (Nat.eqb_spec (2 * m + 1) (2 * m)); [lia|]. ring.
    + destruct (Nat.eqb_spec (2 * m + 1) 1); [lia|]. destruct (Nat.leb_spec (2 * m + 1) (2 * S k + 1)); [|lia]. rewrite c_odd, even_double1.
      apply ampv_ext. intros. unfold coefs. cbn -[Nat.mul]. rewrite Nat.eqb_refl. destruct (Nat.eqb_spec (2 * m) (2 * m + 1)); [lia|]. ring.
    + destruct (Nat.eqb_spec c 1); auto. destruct (Nat.leb_spec c (2 * k + 1)), (Nat.leb_spec c (2 * S k + 1)); auto; lia.
  - apply (view_ext _ _ _ _ _ V1). intros i c Hi Hc. cbn beta. unfold memb, packed. cbn [map fst existsb]. rewrite orb_false_r.
    destruct (Nat.eqb_spec c 1) as [->|]; cbn [orb].
    + apply ampv_ext. intros. unfold coefs. cbn -[Nat.mul]. ring.
    + destruct (Nat.leb_spec c (2 * 0 + 1)); [lia|auto].
  - cbv zeta in E2 |- *. rewrite E2. cbn [bind]. clear E2. unfold rowc. destruct (Nat.eqb_spec nlon (l + l - 2)) as [EN|EN]; cbn [andb].
    + destruct lm_cases as [(_ & LM & LL)|(X & _)]; [|lia].
      destruct (column_ok nlat nlon mode Hmode pmn HP HZ (l - 1) [(nlon, fun np1 => let* v := rd2 mdab ndab a l np1 in Some (2 * v)%R)] [(nlon, fun np1 => 2 * A l np1)%R] g2 _ ltac:(lia)
        ltac:(cbn; repeat constructor; intros []) ltac:(intros t [<-|[]]; cbn; lia)
        ltac:(intros np1 Hn; cbn -[l_of]; rewrite (rd2_view _ _ _ _ l np1 Va) by lia; reflexivity) eq_refl V2
        ltac:(intros i c M; unfold packed; apply memb_in in M; destruct M as [<-|[]]; cbn [fst]; destruct (Nat.eqb_spec nlon 1), (Nat.leb_spec nlon (2 * (lm - 1) + 1)); auto; lia)) as (g3 & E3 & V3).
      exists g3. split; [exact E3|]. apply (view_ext _ _ _ _ _ V3). intros i c Hi Hc. cbn beta. unfold memb. cbn [map fst existsb]. rewrite orb_false_r.
      destruct (Nat.eqb_spec c nlon) as [->|]; auto. rewrite <- ampv_scal. apply ampv_ext. intros. unfold coefs. cbn -[l_of]. rewrite Nat.eqb_refl. ring.
    + exists g2. split; auto.
Qed.

Notation ha := (fun m n => A (m + 1)%nat (n + 1)%nat).
Notation hb := (fun m n => B (m + 1)%nat (n + 1)%nat).
Lemma amp_spec (C : nat -> nat -> R) m i : ampv nlat mode pmn m (C (m + 1)) i = amplitude nlat mode pmn (fun m n => C (m + 1) (n + 1)) m i.
Proof. reflexivity. Qed.

Lemma row_series i j : j < nlon ->
  (1 / 2 * nth j (backward nlon (map (rowc i) (seq 1 nlon))) 0)%R = harmonic nlat nlon mode pmn ha hb i j.
Proof.
  intros Hj. pose proof l_facts as (L1 & L2 & L3). unfold backward. rewrite nth_map_seq by auto. rewrite Nat.add_0_l.
  assert (NR : forall q, q < nlon -> nth q (map (rowc i) (seq 1 nlon)) 0%R = rowc i (q + 1)).
  { intros. rewrite nth_map_seq by auto. f_equal. lia. }
  pose proof (Nat.div_mod (nlon - 1) 2 ltac:(lia)) as DM. pose proof (Nat.mod_upper_bound (nlon - 1) 2 ltac:(lia)) as DB.
  unfold harmonic. rewrite <- l_lmax.
  rewrite (NR 0) by lia. cbn [Nat.add].
  assert (R1 : rowc i 1 = amplitude nlat mode pmn ha 0 i).
  { unfold rowc. destruct (Nat.eqb_spec nlon (l + l - 2)), (Nat.eqb_spec 1 nlon); cbn [andb]; try reflexivity. lia. }
  rewrite R1. clear R1.
  assert (RE : forall k, 1 <= k < lm -> rowc i (2 * k) = amplitude nlat mode pmn ha k i /\ rowc i (2 * k + 1) = amplitude nlat mode pmn hb k i).
  { intros k Hk. pose proof lm_cases. unfold rowc.
    replace (andb (nlon =? l + l - 2) (2 * k =? nlon)) with false by (destruct (Nat.eqb_spec nlon (l + l - 2)), (Nat.eqb_spec (2 * k) nlon); auto; lia).
    replace (andb (nlon =? l + l - 2) (2 * k + 1 =? nlon)) with false by (destruct (Nat.eqb_spec nlon (l + l - 2)), (Nat.eqb_spec (2 * k + 1) nlon); auto; lia).
    unfold packed. destruct (Nat.eqb_spec (2 * k) 1), (Nat.eqb_spec (2 * k + 1) 1); try lia.
    destruct (Nat.leb_spec (2 * k) (2 * (lm - 1) + 1)), (Nat.leb_spec (2 * k + 1) (2 * (lm - 1) + 1)); try lia.
    rewrite c_even, c_odd, even_double, even_double1, !amp_spec. auto. }
  assert (RZ : forall c, 2 * (lm - 1) + 1 < c -> c <= nlon -> (nlon = l + l - 2 -> c <> nlon) -> rowc i c = 0%R).
  { intros c Hc1 Hc2 Hc3. pose proof lm_cases. unfold rowc.
    replace (andb (nlon =? l + l - 2) (c =? nlon)) with false by (destruct (Nat.eqb_spec nlon (l + l - 2)), (Nat.eqb_spec c nlon); auto; exfalso; apply Hc3; auto).
    unfold packed. destruct (Nat.eqb_spec c 1); [lia|]. destruct (Nat.leb_spec c (2 * (lm - 1) + 1)); [lia|]. auto. }
  assert (SUM : forall n, n <= (nlon - 1) / 2 -> sumR n (fun k => let m := S k in 2 * (nth (2 * m - 1) (map (rowc i) (seq 1 nlon)) 0 * cos (angle nlon m j) - nth (2 * m) (map (rowc i) (seq 1 nlon)) 0 * sin (angle nlon m j)))%R
      = (2 * sumR n (fun k => rowc i (2 * S k) * cos (angle nlon (S k) j) - rowc i (2 * S k + 1) * sin (angle nlon (S k) j)))%R).
  { intros n Hn. rewrite <- sumR_scal. apply sumR_ext. intros k Hk. cbv zeta. rewrite !NR by lia. replace (2 * S k - 1 + 1) with (2 * S k) by lia. auto. }
  rewrite SUM by lia.
  destruct lm_cases as [(C1 & C2 & C3)|(C1 & C2 & C3)].
  - assert (EV : Nat.even nlon = true) by (replace nlon with (2 * (l - 1)) by lia; apply ev). rewrite EV.
    replace ((nlon - 1) / 2) with (l - 2) by lia. replace (l - 1) with (S (l - 2)) by lia. cbn [sumR]. cbv zeta. rewrite NR by lia.
    replace (nlon / 2) with (S (l - 2)) by (apply Nat.div_unique with 0; lia).
    replace (nlon - 1 + 1) with nlon by lia.
    assert (SL : sin (angle nlon (S (l - 2)) j) = 0%R).
    { assert (K : forall n M, n = 2 * M -> 1 <= M -> sin (angle n M j) = 0%R) by (intros n M -> HM; apply sin_half; auto). apply K; lia. }
    rewrite SL.
    assert (RN : rowc i nlon = (2 * amplitude nlat mode pmn ha (S (l - 2)) i)%R).
    { unfold rowc. rewrite <- C1 at 1. rewrite !Nat.eqb_refl. cbn [andb]. rewrite <- amp_spec. replace (S (l - 2)) with (l - 1) by lia. replace (l - 1 + 1) with l by lia. auto. }
    rewrite RN.
    rewrite (sumR_ext (l - 2) (fun k => rowc i (2 * S k) * cos (angle nlon (S k) j) - rowc i (2 * S k + 1) * sin (angle nlon (S k) j))%R
       (fun k => amplitude nlat mode pmn ha (S k) i * cos (angle nlon (S k) j) - amplitude nlat mode pmn hb (S k) i * sin (angle nlon (S k) j))%R).
    + cbv zeta. field.
    + intros k Hk. destruct (RE (S k) ltac:(lia)) as [-> ->]. auto.
  - replace ((nlon - 1) / 2) with ((l - 1) + ((nlon - 1) / 2 - (l - 1))) by lia. rewrite sumR_split.
    rewrite (sumR_0 ((nlon - 1) / 2 - (l - 1))).
    + assert (Z0 : (if Nat.even nlon then nth (nlon - 1) (map (rowc i) (seq 1 nlon)) 0 * cos (angle nlon (nlon / 2) j) else 0)%R = 0%R).
      { destruct (Nat.even nlon) eqn:EV; auto. apply Nat.even_spec in EV. destruct EV as [h Hh]. rewrite NR by lia. rewrite RZ by lia. ring. }
      rewrite Z0. rewrite (sumR_ext (l - 1) (fun k => rowc i (2 * S k) * cos (angle nlon (S k) j) - rowc i (2 * S k + 1) * sin (angle nlon (S k) j))%R
       (fun k => amplitude nlat mode pmn ha (S k) i * cos (angle nlon (S k) j) - amplitude nlat mode pmn hb (S k) i * sin (angle nlon (S k) j))%R).
      * cbv zeta. field.
      * intros k Hk. destruct (RE (S k) ltac:(lia)) as [-> ->]. auto.
    + intros k Hk. rewrite !RZ by lia. ring.
Qed.

Variables idg jdg : nat.
Hypothesis Hid : lat <= idg.
Hypothesis Hjd : nlon <= jdg.
Variables (d : R) (junk : list R) (ws : list R * list nat) (fuel : nat) (wa0 : list R).
Hypothesis Ljunk : length junk = nlon.
Hypothesis Lwa : nlon <= length wa0.
Hypothesis Hws : hrffti fuel nlon wa0 = Some ws.

Lemma back_ok r : length r = nlon -> back nlon d junk ws r = Some (backward nlon r).
Proof. intros Lr. unfold back. destruct (C89_backward d fuel nlon wa0 r junk ws Hnlon Lr Ljunk Lwa Hws) as (w & E & _). rewrite E. auto. Qed.

Lemma synthesis_ok gs G : view idg jdg gs G ->
  exists gs', shsgs1 nlat nlon mode d junk idg jdg mdab ndab a b pmn ws gs = Some gs' /\
    view idg jdg gs' (fun i j => if andb (i <=? lat) (j <=? nlon) then harmonic nlat nlon mode pmn ha hb i (j - 1) else G i j).
Proof.
  intros VG. destruct columns_ok as (g & E & V). unfold shsgs1. cbv zeta.
  assert (E' : forall (K : list R -> option (list R)),
   (let* g := Some (repeat 0%R (lat * nlon)) in
    let* g := column nlat nlon mode 0 [(1, ca 1)] pmn g in
    let* g := foldM (fun g mp1 => let m := mp1 - 1 in
              column nlat nlon mode m [(2 * m, ca mp1); (2 * m + 1, cb mp1)] pmn g) (seq 2 (lm - 1)) g in
    let* g := (if nlon =? l + l - 2
             then column nlat nlon mode (l - 1) [(nlon, fun np1 => let* v := rd2 mdab ndab a l np1 in Some (2 * v)%R)] pmn g
             else Some g) in K g) = K g).
  { intros K. cbn [bind] in E |- *. destruct (column nlat nlon mode 0 [(1, ca 1)] pmn (repeat 0%R (lat * nlon))) as [x|]; [|discriminate]. cbn [bind] in E |- *.
    destruct (foldM _ (seq 2 (lm - 1)) x) as [y|]; [|discriminate]. cbn [bind] in E |- *. rewrite E. auto. }
  match goal with |- exists _, ?t = _ /\ _ => assert (X : t = (let* g := fft_rows nlat nlon mode (back nlon d junk ws) g in
     store idg jdg lat nlon (fun i j => let* v := rd2 lat nlon g i j in Some (1 / 2 * v)%R) gs)) by exact (E' _) end.
  rewrite X. clear X E'.
  destruct (fft_rows_ok nlat nlon mode (back nlon d junk ws) (backward nlon) g rowc back_ok V) as (g2 & E2 & V2). rewrite E2. cbn [bind].
  destruct (store_ok idg jdg lat nlon (fun i j => let* v := rd2 lat nlon g2 i j in Some (1 / 2 * v)%R) (fun i j => harmonic nlat nlon mode pmn ha hb i (j - 1)) gs G Hid Hjd) as (gs' & E3 & V3); auto.
  - intros i j Hi Hj. rewrite (rd2_view _ _ _ _ i j V2 Hi Hj). cbn [bind]. rewrite row_series by lia. auto.
  - exists gs'. split; auto.
Qed.
End Synthesis.
