(** The analysis: weighting, sums over the rows, the coefficients. *)
From Coq Require Import Reals List Arith ZArith Lia Bool Lra.
From Verif Require Import Base Buffer VH_Model RS_Spec RS_Dft FF_Model FF_Model2 FF_Props FF_Props2 GS_Spec GS_Model GS_Proofs1 GS_Proofs2 GS_Proofs3 GS_Proofs4.
Import ListNotations.
Local Open Scope nat_scope.

Lemma sum_pairs n f : sumR n f = (sumR (n / 2) (fun q => f q + f (n - 1 - q)%nat) + (if (n / 2 <? north n)%nat then f (n / 2)%nat else 0))%R.
Proof.
  destruct (halves n) as [H1 H2]. set (h := n / 2) in *. rewrite sumR_plus.
  assert (E : sumR n f = (sumR h f + sumR (n - 2 * h) (fun k => f (h + k)%nat) + sumR h (fun k => f (h + (n - 2 * h) + k)%nat))%R).
  { replace n with (h + (n - 2 * h) + h) at 1 by lia. rewrite !sumR_split. auto. }
  rewrite E. clear E. rewrite (sumR_rev h (fun k => f (h + (n - 2 * h) + k)%nat)).
  rewrite (sumR_ext h (fun k => f (h + (n - 2 * h) + (h - 1 - k))%nat) (fun q => f (n - 1 - q)%nat)) by (intros; f_equal; lia).
  destruct (Nat.ltb_spec h (north n)).
  - replace (n - 2 * h) with 1 by lia. cbn [sumR]. rewrite Nat.add_0_r. ring.
  - replace (n - 2 * h) with 0 by lia. cbn [sumR]. ring.
Qed.
Lemma sum_late n (f : nat -> R) : sumR (north n) f = (sumR (n / 2) f + (if (n / 2 <? north n)%nat then f (n / 2)%nat else 0))%R.
Proof.
  destruct (halves n) as [H1 H2]. destruct (Nat.ltb_spec (n / 2) (north n)).
  - replace (north n) with (S (n / 2)) by lia. auto.
  - replace (north n) with (n / 2) by lia. ring.
Qed.

Lemma sgn_even k : Nat.even k = true -> ((-1) ^ k)%R = 1%R.
Proof. intros H. apply Nat.even_spec in H. destruct H as [h ->]. apply pow_1_even. Qed.
Lemma sgn_odd k : Nat.even k = false -> ((-1) ^ k)%R = (-1)%R.
Proof.
  intros H. assert (O1 : Nat.odd k = true) by (rewrite <- Nat.negb_even, H; auto). apply Nat.odd_spec in O1. destruct O1 as [h ->]. replace (2 * h + 1) with (S (2 * h)) by lia. apply pow_1_odd.
Qed.

Section Analysis.
Variables nlat nlon mode : nat.
Hypothesis Hmode : mode <= 2.
Hypothesis Hnlat : 1 <= nlat.
Hypothesis Hnlon : 1 <= nlon.
Notation l := (l_of nlat nlon).
Notation late := (late_of nlat).
Notation lat := (lat_of nlat mode).
Notation lm := (lm1 nlat nlon).
Notation nl2 := (nlat / 2).
Notation mir i := (nlat - i + 1)%nat.
Variable pmn : list R.
Hypothesis HP : view late (npm_of nlat l) pmn (val2 late pmn).
Hypothesis HZ : mode <> 0 -> zero_at_equator nlat nlon pmn.
Variable wts : list R.
Hypothesis HW : symmetric_weights nlat wts.
Notation w i := (nth (i - 1)%nat wts 0%R).
Notation P := (val2 late pmn).

Lemma rd_w i : 1 <= i <= nlat -> rd wts i = Some (w i).
Proof. destruct HW as [LW _]. intros. apply rd_nth0. lia. Qed.

(** after the weighting *)
Definition wfull (F : nat -> nat -> R) (i c : nat) : R :=
  if i <=? nl2 then (w i * (F i c + F (mir i) c))%R
  else if nlat + 1 - i <=? nl2 then (w (mir i) * (F (mir i) c - F i c))%R else (w i * F i c)%R.
Definition whalf (F : nat -> nat -> R) (i c : nat) : R :=
  if i <=? nl2 then (w i * (F i c + F i c))%R else (w i * F i c)%R.

Lemma weigh_full_ok g F : mode = 0 -> view lat nlon g F -> exists g', weigh_full nlat nlon mode wts g = Some g' /\ view lat nlon g' (wfull F).
Proof.
  intros M0 V. assert (HL : lat = nlat) by (unfold lat_of; rewrite M0; auto). destruct (halves nlat) as [H1 H2]. rewrite <- late_north in H1, H2.
  unfold weigh_full. cbv zeta.
  destruct (fold_seq (fun g j =>
    let* g := foldM (fun g i =>
      let* t1 := rd2 lat nlon g i j in
      let* t2 := rd2 lat nlon g (mir i) j in
      let* w := (if inside i nlat then rd wts i else None) in
      let* g := wr2 lat nlon g i j (w * (t1 + t2))%R in
      wr2 lat nlon g (mir i) j (w * (t1 - t2))%R) (seq 1 nl2) g in
    if nlat mod 2 =? 0 then Some g else
      let* w := rd wts late in
      let* x := rd2 lat nlon g late j in
      wr2 lat nlon g late j (w * x)%R)
    (fun q g => view lat nlon g (fun i c => if c <=? q then wfull F i c else F i c)) nlon 1 g) as (g' & E & V').
  - intros q g1 Hq V1.
    destruct (fold_seq (fun g i =>
      let* t1 := rd2 lat nlon g i (1 + q) in
      let* t2 := rd2 lat nlon g (mir i) (1 + q) in
      let* w := (if inside i nlat then rd wts i else None) in
      let* g := wr2 lat nlon g i (1 + q) (w * (t1 + t2))%R in
      wr2 lat nlon g (mir i) (1 + q) (w * (t1 - t2))%R)
      (fun p g => view lat nlon g (fun i c => if c <=? q then wfull F i c else if c =? 1 + q then
          (if i <=? p then (w i * (F i c + F (mir i) c))%R else if nlat + 1 - i <=? p then (w (mir i) * (F (mir i) c - F i c))%R else F i c) else F i c)) nl2 1 g1) as (g2 & E2 & V2).
    + intros p g2 Hp V2. rewrite (rd2_view _ _ _ _ (1 + p) (1 + q) V2) by lia. cbn [bind]. rewrite (rd2_view _ _ _ _ (mir (1 + p)) (1 + q) V2) by lia. cbn [bind].
      destruct (Nat.leb_spec (1 + q) q); [lia|]. rewrite Nat.eqb_refl.
      destruct (Nat.leb_spec (1 + p) p); [lia|]. destruct (Nat.leb_spec (nlat + 1 - (1 + p)) p); [lia|].
      destruct (Nat.leb_spec (mir (1 + p)) p); [lia|]. destruct (Nat.leb_spec (nlat + 1 - mir (1 + p)) p); [lia|].
      rewrite inside_true, rd_w by lia. cbn [bind].
      destruct (wr2_view _ _ _ _ (1 + p) (1 + q) (w (1 + p)%nat * (F (1 + p)%nat (1 + q)%nat + F (mir (1 + p)%nat) (1 + q)%nat))%R V2 ltac:(lia) ltac:(lia)) as (g3 & E3 & V3). rewrite E3. cbn [bind].
      destruct (wr2_view _ _ _ _ (mir (1 + p)) (1 + q) (w (1 + p)%nat * (F (1 + p)%nat (1 + q)%nat - F (mir (1 + p)%nat) (1 + q)%nat))%R V3 ltac:(lia) ltac:(lia)) as (g4 & E4 & V4). exists g4. split; [exact E4|].
      apply (view_ext _ _ _ _ _ V4). intros i c Hi Hc. cbn beta.
      destruct (Nat.eqb_spec c (1 + q)) as [->|N]; rewrite ?andb_true_r, ?andb_false_r; [|auto].
      destruct (Nat.leb_spec (1 + q) q); [lia|].
      destruct (Nat.eqb_spec i (mir (1 + p))) as [->|N1].
      { destruct (Nat.leb_spec (mir (1 + p)) (S p)); [lia|]. destruct (Nat.leb_spec (nlat + 1 - mir (1 + p)) (S p)); [|lia].
        replace (mir (mir (1 + p))) with (1 + p) by lia. auto. }
      destruct (Nat.eqb_spec i (1 + p)) as [->|N2].
      { destruct (Nat.leb_spec (1 + p) (S p)); [auto|lia]. }
      destruct (Nat.leb_spec i p), (Nat.leb_spec i (S p)), (Nat.leb_spec (nlat + 1 - i) p), (Nat.leb_spec (nlat + 1 - i) (S p)); auto; lia.
    + apply (view_ext _ _ _ _ _ V1). intros i c Hi Hc. cbn beta. destruct (Nat.leb_spec i 0); [lia|]. destruct (Nat.leb_spec (nlat + 1 - i) 0); [lia|].
      destruct (c =? 1 + q); auto.
    + rewrite E2. cbn [bind]. clear E2. assert (PAR : nlat mod 2 = late - nl2) by (pose proof (Nat.div_mod nlat 2 ltac:(lia)); lia). rewrite PAR.
      destruct (Nat.eqb_spec (late - nl2) 0) as [EQ|EQ].
      * exists g2. split; auto. apply (view_ext _ _ _ _ _ V2). intros i c Hi Hc. cbn beta. unfold wfull.
        destruct (Nat.leb_spec c q), (Nat.leb_spec c (S q)); auto; try lia.
        { replace c with (1 + q) by lia. rewrite Nat.eqb_refl. destruct (Nat.leb_spec i nl2), (Nat.leb_spec (nlat + 1 - i) nl2); auto; lia. }
        destruct (Nat.eqb_spec c (1 + q)); auto; lia.
      * rewrite rd_w by lia. cbn [bind]. rewrite (rd2_view _ _ _ _ late (1 + q) V2) by lia. cbn [bind].
        destruct (wr2_view _ _ _ _ late (1 + q) (w late * F late (1 + q)%nat)%R V2 ltac:(lia) ltac:(lia)) as (g3 & E3 & V3).
        exists g3. split.
        { rewrite <- E3. destruct (Nat.leb_spec (1 + q) q); [lia|]. rewrite Nat.eqb_refl. destruct (Nat.leb_spec late nl2); [lia|]. destruct (Nat.leb_spec (nlat + 1 - late) nl2); [lia|]. auto. }
        apply (view_ext _ _ _ _ _ V3). intros i c Hi Hc. cbn beta. unfold wfull.
        destruct (Nat.eqb_spec c (1 + q)) as [->|N]; rewrite ?andb_true_r, ?andb_false_r.
        -- destruct (Nat.leb_spec (1 + q) q); [lia|]. destruct (Nat.leb_spec (1 + q) (S q)); [|lia].
           destruct (Nat.eqb_spec i late) as [->|].
           ++ destruct (Nat.leb_spec late nl2); [lia|]. destruct (Nat.leb_spec (nlat + 1 - late) nl2); [lia|]. auto.
           ++ destruct (Nat.leb_spec i nl2), (Nat.leb_spec (nlat + 1 - i) nl2); try lia; auto.
        -- destruct (Nat.leb_spec c q), (Nat.leb_spec c (S q)); auto; lia.
  - apply (view_ext _ _ _ _ _ V). intros i c Hi Hc. cbn beta. destruct (Nat.leb_spec c 0); [lia|auto].
  - exists g'. split; [exact E|]. apply (view_ext _ _ _ _ _ V'). intros i c Hi Hc. cbn beta. destruct (Nat.leb_spec c nlon); [auto|lia].
Qed.

Lemma weigh_half_ok g F : mode <> 0 -> view lat nlon g F -> exists g', weigh_half nlat nlon mode wts g = Some g' /\ view lat nlon g' (whalf F).
Proof.
  intros M0 V. assert (HL : lat = late) by (unfold lat_of; destruct (Nat.eqb_spec mode 0); [lia|auto]). destruct (halves nlat) as [H1 H2]. rewrite <- late_north in H1, H2.
  unfold weigh_half. cbv zeta.
  destruct (fold_seq (fun g j =>
    let* g := foldM (fun g i =>
      let* x := rd2 lat nlon g i j in
      let* w := (if inside i nlat then rd wts i else None) in
      wr2 lat nlon g i j (w * (x + x))%R) (seq 1 nl2) g in
    if nl2 <? late then
      let* w := rd wts late in
      let* x := rd2 lat nlon g late j in
      wr2 lat nlon g late j (w * x)%R
    else Some g)
    (fun q g => view lat nlon g (fun i c => if c <=? q then whalf F i c else F i c)) nlon 1 g) as (g' & E & V').
  - intros q g1 Hq V1.
    destruct (fold_seq (fun g i =>
      let* x := rd2 lat nlon g i (1 + q) in
      let* w := (if inside i nlat then rd wts i else None) in
      wr2 lat nlon g i (1 + q) (w * (x + x))%R)
      (fun p g => view lat nlon g (fun i c => if c <=? q then whalf F i c else if c =? 1 + q then
          (if i <=? p then (w i * (F i c + F i c))%R else F i c) else F i c)) nl2 1 g1) as (g2 & E2 & V2).
    + intros p g2 Hp V2. rewrite (rd2_view _ _ _ _ (1 + p) (1 + q) V2) by lia. cbn [bind].
      destruct (Nat.leb_spec (1 + q) q); [lia|]. rewrite Nat.eqb_refl.
      destruct (Nat.leb_spec (1 + p) p); [lia|].
      rewrite inside_true, rd_w by lia. cbn [bind].
      destruct (wr2_view _ _ _ _ (1 + p) (1 + q) (w (1 + p)%nat * (F (1 + p)%nat (1 + q)%nat + F (1 + p)%nat (1 + q)%nat))%R V2 ltac:(lia) ltac:(lia)) as (g3 & E3 & V3).
      exists g3. split; [exact E3|].
      apply (view_ext _ _ _ _ _ V3). intros i c Hi Hc. cbn beta.
      destruct (Nat.eqb_spec c (1 + q)) as [->|N]; rewrite ?andb_true_r, ?andb_false_r; [|auto].
      destruct (Nat.leb_spec (1 + q) q); [lia|].
      destruct (Nat.eqb_spec i (1 + p)) as [->|N2].
      { destruct (Nat.leb_spec (1 + p) (S p)); [auto|lia]. }
      destruct (Nat.leb_spec i p), (Nat.leb_spec i (S p)); auto; lia.
    + apply (view_ext _ _ _ _ _ V1). intros i c Hi Hc. cbn beta. destruct (Nat.leb_spec i 0); [lia|].
      destruct (c =? 1 + q); auto.
    + rewrite E2. cbn [bind]. clear E2.
      destruct (Nat.ltb_spec nl2 late) as [EQ|EQ].
      2:{ exists g2. split; auto. apply (view_ext _ _ _ _ _ V2). intros i c Hi Hc. cbn beta. unfold whalf.
        destruct (Nat.leb_spec c q), (Nat.leb_spec c (S q)); auto; try lia.
        { replace c with (1 + q) by lia. rewrite Nat.eqb_refl. destruct (Nat.leb_spec i nl2); auto; lia. }
        destruct (Nat.eqb_spec c (1 + q)); auto; lia. }
      rewrite rd_w by lia. cbn [bind]. rewrite (rd2_view _ _ _ _ late (1 + q) V2) by lia. cbn [bind].
      destruct (wr2_view _ _ _ _ late (1 + q) (w late * F late (1 + q)%nat)%R V2 ltac:(lia) ltac:(lia)) as (g3 & E3 & V3).
      exists g3. split.
      { rewrite <- E3. destruct (Nat.leb_spec (1 + q) q); [lia|]. rewrite Nat.eqb_refl. destruct (Nat.leb_spec late nl2); [lia|]. auto. }
      apply (view_ext _ _ _ _ _ V3). intros i c Hi Hc. cbn beta. unfold whalf.
      destruct (Nat.eqb_spec c (1 + q)) as [->|N]; rewrite ?andb_true_r, ?andb_false_r.
      * destruct (Nat.leb_spec (1 + q) q); [lia|]. destruct (Nat.leb_spec (1 + q) (S q)); [|lia].
        destruct (Nat.eqb_spec i late) as [->|]; [destruct (Nat.leb_spec late nl2); [lia|auto]|]. destruct (Nat.leb_spec i nl2); auto; lia.
      * destruct (Nat.leb_spec c q), (Nat.leb_spec c (S q)); auto; lia.
  - apply (view_ext _ _ _ _ _ V). intros i c Hi Hc. cbn beta. destruct (Nat.leb_spec c 0); [lia|auto].
  - exists g'. split; [exact E|]. apply (view_ext _ _ _ _ _ V'). intros i c Hi Hc. cbn beta. destruct (Nat.leb_spec c nlon); [auto|lia].
Qed.

Variables mdab ndab : nat.
Hypothesis Hmd : l <= mdab.
Hypothesis Hnd : nlat <= ndab.

Definition by2b (lo np1 : nat) : bool := andb (lo <=? np1) (andb (np1 <=? nlat) (Nat.even (np1 - lo))).
Lemma gather_ok row m lo c scale g G o O1 : m < l -> m < lo -> 1 <= c <= nlon -> (forall i, 1 <= i <= late -> 1 <= row i <= lat) ->
  view lat nlon g G -> view mdab ndab o O1 ->
  exists o', gather nlat nlon mode mdab ndab row m lo c scale pmn g o = Some o' /\
    view mdab ndab o' (fun mp1 np1 => if andb (mp1 =? m + 1) (by2b lo np1)
      then (scale * sumR late (fun k => G (row (1 + k)%nat) c * P (1 + k)%nat (mml1 nlat m + np1)%nat))%R else O1 mp1 np1).
Proof.
  intros Hm Hlo Hc Hrow VG VO. assert (L2 : l <= nlat) by (unfold l_of; lia). unfold gather. cbv zeta.
  set (S1 := fun np1 => sumR late (fun k => G (row (1 + k)%nat) c * P (1 + k)%nat (mml1 nlat m + np1)%nat)%R).
  destruct (fold_by2 (fun o np1 =>
    let* s := foldM (fun s i =>
      let* x := rd2 lat nlon g (row i) c in
      let* p := rd2 late (npm_of nlat l) pmn i (mml1 nlat m + np1) in
      Some (s + x * p)%R) (seq 1 late) 0%R in
    wr2 mdab ndab o (m + 1) np1 (scale * s)%R)
    (fun q o => view mdab ndab o (fun mp1 np1 => if andb (mp1 =? m + 1) (andb (by2b lo np1) (np1 <? lo + 2 * q)) then (scale * S1 np1)%R else O1 mp1 np1)) lo nlat o) as (o' & E & V).
  - intros q o1 Hq V1. pose proof (by2_range _ _ _ Hq) as HR.
    destruct (fold_seq (fun s i => let* x := rd2 lat nlon g (row i) c in let* p := rd2 late (npm_of nlat l) pmn i (mml1 nlat m + (lo + 2 * q)) in Some (s + x * p)%R)
      (fun k s => s = sumR k (fun k => G (row (1 + k)%nat) c * P (1 + k)%nat (mml1 nlat m + (lo + 2 * q))%nat)%R) late 1 0%R) as (s & Es & Vs).
    + intros k s Hk ->. rewrite (rd2_view _ _ _ _ (row (1 + k)) c VG) by (auto; apply Hrow; lia). cbn [bind].
      rewrite (rd2_view _ _ _ _ (1 + k) (mml1 nlat m + (lo + 2 * q)) HP); [|lia|].
      * cbn [bind]. eexists. split; [reflexivity|]. reflexivity.
      * replace (lo + 2 * q) with (lo + 2 * q - 1 + 1) by lia. rewrite mml1_slot by lia. apply slot_bound; lia.
    + reflexivity.
    + rewrite Es. cbn [bind]. subst s. fold (S1 (lo + 2 * q)).
      destruct (wr2_view _ _ _ _ (m + 1) (lo + 2 * q) (scale * S1 (lo + 2 * q)%nat)%R V1 ltac:(lia) ltac:(lia)) as (o2 & E2 & V2). exists o2. split; [exact E2|].
      apply (view_ext _ _ _ _ _ V2). intros i j Hi Hj. cbn beta.
      destruct (Nat.eqb_spec i (m + 1)) as [->|]; cbn [andb]; auto.
      destruct (Nat.eqb_spec j (lo + 2 * q)) as [->|].
      * unfold by2b. destruct (Nat.leb_spec lo (lo + 2 * q)), (Nat.leb_spec (lo + 2 * q) nlat), (Nat.ltb_spec (lo + 2 * q) (lo + 2 * S q)); try lia.
        replace (lo + 2 * q - lo) with (2 * q) by lia. rewrite ev. auto.
      * destruct (by2b lo j) eqn:EB; cbn [andb]; auto. unfold by2b in EB. apply andb_true_iff in EB. destruct EB as [B1 B2]. apply andb_true_iff in B2. destruct B2 as [B2 B3].
        apply Nat.leb_le in B1, B2. apply Nat.even_spec in B3. destruct B3 as [h B3].
        destruct (Nat.ltb_spec j (lo + 2 * q)), (Nat.ltb_spec j (lo + 2 * S q)); auto; lia.
  - apply (view_ext _ _ _ _ _ VO). intros i j Hi Hj. cbn beta. unfold by2b. destruct (Nat.leb_spec lo j), (Nat.ltb_spec j (lo + 2 * 0)); try lia; cbn [andb]; rewrite ?andb_false_r; auto.
  - exists o'. split; [exact E|]. apply (view_ext _ _ _ _ _ V). intros i j Hi Hj. cbn beta. fold (S1 j).
    destruct (i =? m + 1); cbn [andb]; auto. destruct (by2b lo j) eqn:EB; cbn [andb]; auto.
    unfold by2b in EB. apply andb_true_iff in EB. destruct EB as [B1 B2]. apply andb_true_iff in B2. destruct B2 as [B2 B3].
    apply Nat.leb_le in B1, B2. apply Nat.even_spec in B3. destruct B3 as [h B3].
    pose proof (Nat.div_mod (nlat + 2 - lo) 2 ltac:(lia)). pose proof (Nat.mod_upper_bound (nlat + 2 - lo) 2 ltac:(lia)).
    destruct (Nat.ltb_spec j (lo + 2 * ((nlat + 2 - lo) / 2))); auto; lia.
Qed.

(** ** The sums are the quadrature over all rows *)
Lemma wmir i : 1 <= i <= nlat -> w (mir i) = w i.
Proof. destruct HW as [_ HS]. intros H. rewrite <- (HS (i - 1)) by lia. f_equal. lia. Qed.
Lemma pf_north m n i : i <= north nlat -> pfull nlat pmn m n i = legendre nlat pmn m n i.
Proof. intros. unfold pfull. destruct (Nat.leb_spec i (north nlat)); auto; lia. Qed.
Lemma pf_south m n i : 1 <= i <= nlat / 2 -> pfull nlat pmn m n (mir i) = ((-1) ^ (n - m) * legendre nlat pmn m n i)%R.
Proof.
  intros. destruct (halves nlat) as [H1 H2]. unfold pfull. destruct (Nat.leb_spec (mir i) (north nlat)); [lia|]. replace (nlat + 1 - mir i) with i by lia. auto.
Qed.
Lemma quad_pairs m n f : quadrature nlat wts pmn m n f =
  (sumR nl2 (fun q => w (S q) * legendre nlat pmn m n (S q) * (f (S q) + (-1) ^ (n - m) * f (mir (S q))))
   + (if nl2 <? north nlat then w (S nl2) * legendre nlat pmn m n (S nl2) * f (S nl2) else 0))%R.
Proof.
  destruct (halves nlat) as [H1 H2]. unfold quadrature. rewrite sum_pairs. cbv zeta. f_equal.
  - apply sumR_ext. intros q Hq. replace (S (nlat - 1 - q)) with (mir (S q)) by lia. rewrite pf_south, pf_north by lia.
    replace (nth (nlat - 1 - q) wts 0%R) with (w (S q)) by (rewrite <- (wmir (S q)) by lia; f_equal; lia).
    replace (S q - 1) with q by lia. ring.
  - destruct (Nat.ltb_spec nl2 (north nlat)); auto. rewrite pf_north by lia. replace (S nl2 - 1) with nl2 by lia. ring.
Qed.

Lemma gathered_even m n c F : mode = 0 -> m <= n < nlat -> Nat.even (n - m) = true ->
  sumR late (fun k => wfull F (1 + k) c * P (1 + k)%nat (mml1 nlat m + (n + 1)))%R = quadrature nlat wts pmn m n (fun i => F i c).
Proof.
  intros M0 Hn EV. destruct (halves nlat) as [H1 H2]. rewrite late_north, sum_late, quad_pairs, (sgn_even _ EV). rewrite <- late_north.
  f_equal.
  - apply sumR_ext. intros q Hq. rewrite leg_P by (auto; lia). cbn [Nat.add]. unfold wfull. destruct (Nat.leb_spec (S q) nl2); [|lia]. ring.
  - destruct (Nat.ltb_spec nl2 late); auto. rewrite leg_P by (auto; lia). cbn [Nat.add]. unfold wfull. rewrite late_north in *. destruct (Nat.leb_spec (S nl2) nl2); [lia|]. destruct (Nat.leb_spec (nlat + 1 - S nl2) nl2); [lia|]. ring.
Qed.
Lemma gathered_odd m n c F : mode = 0 -> m <= n < nlat -> Nat.even (n - m) = false ->
  sumR late (fun k => wfull F (mir (1 + k)) c * P (1 + k)%nat (mml1 nlat m + (n + 1)))%R = quadrature nlat wts pmn m n (fun i => F i c).
Proof.
  intros M0 Hn EV. destruct (halves nlat) as [H1 H2]. rewrite late_north, sum_late, quad_pairs, (sgn_odd _ EV). rewrite <- late_north.
  f_equal.
  - apply sumR_ext. intros q Hq. rewrite leg_P by (auto; lia). cbn [Nat.add]. unfold wfull. destruct (Nat.leb_spec (mir (S q)) nl2); [lia|]. destruct (Nat.leb_spec (nlat + 1 - mir (S q)) nl2); [|lia].
    replace (mir (mir (S q))) with (S q) by lia. ring.
  - destruct (Nat.ltb_spec nl2 late); auto. rewrite leg_P by (auto; lia). cbn [Nat.add]. unfold wfull. rewrite late_north in *. replace (mir (S nl2)) with (S nl2) by lia. destruct (Nat.leb_spec (S nl2) nl2); [lia|]. destruct (Nat.leb_spec (nlat + 1 - S nl2) nl2); [lia|]. ring.
Qed.
Lemma equator_odd m n : mode <> 0 -> m <= n < nlat -> m < l -> Nat.even (n - m) = false -> nl2 < north nlat -> legendre nlat pmn m n (S nl2) = 0%R.
Proof.
  intros M0 Hn Hm EV HH. destruct (halves nlat) as [H1 H2]. replace (S nl2) with (north nlat) by lia. apply (HZ M0); auto.
  - rewrite <- l_lmax. auto.
  - pose proof (Nat.div_mod nlat 2 ltac:(lia)). replace nlat with (2 * nl2 + 1) by lia. apply od.
  - rewrite <- Nat.negb_even, EV. auto.
Qed.
Lemma ext_north F i c : mode <> 0 -> 1 <= i <= nl2 -> extended nlat mode F i c = F i c.
Proof.
  intros M0 Hi. destruct (halves nlat) as [H1 H2]. unfold extended. destruct mode as [|[|?]]; [lia| |].
  - destruct (Nat.eqb_spec (2 * i) (nlat + 1)); [lia|]. destruct (Nat.leb_spec i (north nlat)); auto; lia.
  - destruct (Nat.leb_spec i (north nlat)); auto; lia.
Qed.
Lemma ext_south F i c : mode <> 0 -> 1 <= i <= nl2 -> extended nlat mode F (mir i) c = if mode =? 1 then (- F i c)%R else F i c.
Proof.
  intros M0 Hi. destruct (halves nlat) as [H1 H2]. unfold extended. destruct mode as [|[|?]]; [lia| |]; cbn [Nat.eqb].
  - destruct (Nat.eqb_spec (2 * mir i) (nlat + 1)); [lia|]. destruct (Nat.leb_spec (mir i) (north nlat)); [lia|]. replace (nlat + 1 - mir i) with i by lia. auto.
  - destruct (Nat.leb_spec (mir i) (north nlat)); [lia|]. replace (nlat + 1 - mir i) with i by lia. auto.
Qed.
Lemma gathered_half m n c F : mode <> 0 -> m <= n < nlat -> m < l -> Nat.even (n - m) = (if mode =? 1 then false else true) ->
  sumR late (fun k => whalf F (1 + k) c * P (1 + k)%nat (mml1 nlat m + (n + 1)))%R = quadrature nlat wts pmn m n (fun i => extended nlat mode F i c).
Proof.
  intros M0 Hn Hm EV. destruct (halves nlat) as [H1 H2]. rewrite late_north, sum_late, quad_pairs. rewrite <- late_north.
  f_equal.
  - apply sumR_ext. intros q Hq. rewrite leg_P by (auto; lia). cbn [Nat.add]. unfold whalf. destruct (Nat.leb_spec (S q) nl2); [|lia].
    rewrite ext_north, ext_south by (auto; lia). destruct (mode =? 1).
    + rewrite (sgn_odd _ EV). ring.
    + rewrite (sgn_even _ EV). ring.
  - destruct (Nat.ltb_spec nl2 late); auto. rewrite leg_P by (auto; lia). cbn [Nat.add]. rewrite late_north in *.
    destruct (Nat.eqb_spec mode 1) as [M1|M1].
    + rewrite equator_odd by auto. ring.
    + unfold whalf. destruct (Nat.leb_spec (S nl2) nl2); [lia|].
      replace (extended nlat mode F (S nl2) c) with (F (S nl2) c); [ring|].
      unfold extended. destruct mode as [|[|?]]; try lia. destruct (Nat.leb_spec (S nl2) (north nlat)); auto; lia.
Qed.
Lemma unused_zero m n c F : mode <> 0 -> m <= n < nlat -> m < l -> Nat.even (n - m) = (if mode =? 1 then true else false) ->
  quadrature nlat wts pmn m n (fun i => extended nlat mode F i c) = 0%R.
Proof.
  intros M0 Hn Hm EV. destruct (halves nlat) as [H1 H2]. rewrite quad_pairs.
  rewrite (sumR_0 nl2), Rplus_0_l.
  - destruct (Nat.ltb_spec nl2 (north nlat)); auto. destruct (Nat.eqb_spec mode 1) as [M1|M1].
    + replace (extended nlat mode F (S nl2) c) with 0%R; [ring|]. unfold extended. destruct mode as [|[|?]]; try lia. destruct (Nat.eqb_spec (2 * S nl2) (nlat + 1)); auto; lia.
    + rewrite equator_odd by auto. ring.
  - intros q Hq. rewrite ext_north, ext_south by (auto; lia). destruct (mode =? 1).
    + rewrite (sgn_even _ EV). ring.
    + rewrite (sgn_odd _ EV). ring.
Qed.

(** one column *)
Definition weighed (F : nat -> nat -> R) : nat -> nat -> R := if mode =? 0 then wfull F else whalf F.
Lemma collect_ok m c scale g F o O1 : m < l -> 1 <= c <= nlon ->
  view lat nlon g (weighed F) -> view mdab ndab o O1 -> (forall np1, m + 1 <= np1 <= nlat -> O1 (m + 1) np1 = 0%R) ->
  exists o', collect nlat nlon mode mdab ndab m c scale pmn g o = Some o' /\
    view mdab ndab o' (fun mp1 np1 => if andb (mp1 =? m + 1) (andb (m + 1 <=? np1) (np1 <=? nlat))
      then (scale * quadrature nlat wts pmn m (np1 - 1) (fun i => extended nlat mode F i c))%R else O1 mp1 np1).
Proof.
  intros Hm Hc VG VO Z. assert (L2 : l <= nlat) by (unfold l_of; lia). destruct (halves nlat) as [H1 H2]. rewrite <- late_north in H1, H2.
  unfold collect. unfold weighed in VG. destruct (Nat.eqb_spec mode 0) as [M0|M0].
  - assert (HL : lat = nlat) by (unfold lat_of; rewrite M0; auto).
    destruct (gather_ok (fun i => i) m (m + 1) c scale g _ o O1 Hm ltac:(lia) Hc ltac:(intros; lia) VG VO) as (o1 & E1 & V1). rewrite E1. cbn [bind].
    destruct (gather_ok (fun i => mir i) m (m + 2) c scale g _ o1 _ Hm ltac:(lia) Hc ltac:(intros; rewrite HL; lia) VG V1) as (o2 & E2 & V2). exists o2. split; [exact E2|].
    apply (view_ext _ _ _ _ _ V2). intros mp1 np1 Hi Hj. cbn beta. destruct (Nat.eqb_spec mp1 (m + 1)) as [->|]; cbn [andb]; auto.
    assert (EX : forall i, extended nlat mode F i c = F i c) by (intros; unfold extended; rewrite M0; auto).
    assert (QX : forall n, quadrature nlat wts pmn m n (fun i => extended nlat mode F i c) = quadrature nlat wts pmn m n (fun i => F i c)) by (intros; unfold quadrature; apply sumR_ext; intros; cbv zeta; rewrite EX; auto).
    unfold by2b. destruct (Nat.leb_spec (m + 1) np1); cbn [andb]; [|destruct (Nat.leb_spec (m + 2) np1); [lia|auto]].
    destruct (Nat.leb_spec np1 nlat); cbn [andb]; rewrite ?andb_false_r; auto. rewrite QX.
    destruct (Nat.even (np1 - 1 - m)) eqn:EV.
    + destruct (Nat.leb_spec (m + 2) np1); cbn [andb].
      * replace (np1 - (m + 2)) with (np1 - 1 - m - 1) by lia. replace (Nat.even (np1 - 1 - m - 1)) with false.
        2:{ apply Nat.even_spec in EV. destruct EV as [h EV]. replace (np1 - 1 - m - 1) with (2 * (h - 1) + 1) by lia. rewrite even_double1. auto. }
        replace (np1 - (m + 1)) with (np1 - 1 - m) by lia. rewrite EV. rewrite <- gathered_even by (auto; lia). replace (np1 - 1 + 1) with np1 by lia. auto.
      * replace (np1 - (m + 1)) with (np1 - 1 - m) by lia. rewrite EV. rewrite <- gathered_even by (auto; lia). replace (np1 - 1 + 1) with np1 by lia. auto.
    + assert (np1 <> m + 1) by (intros ->; replace (m + 1 - 1 - m) with 0 in EV by lia; discriminate).
      destruct (Nat.leb_spec (m + 2) np1); [|lia]. cbn [andb].
      replace (Nat.even (np1 - (m + 2))) with true.
      2:{ assert (O2 : Nat.odd (np1 - 1 - m) = true) by (rewrite <- Nat.negb_even, EV; auto). apply Nat.odd_spec in O2. destruct O2 as [h O2]. replace (np1 - (m + 2)) with (2 * h) by lia. rewrite ev. auto. }
      rewrite <- gathered_odd by (auto; lia). replace (np1 - 1 + 1) with np1 by lia. auto.
  - assert (HL : lat = late) by (unfold lat_of; destruct (Nat.eqb_spec mode 0); [lia|auto]).
    set (lo := if mode =? 1 then m + 2 else m + 1).
    destruct (gather_ok (fun i => i) m lo c scale g _ o O1 Hm ltac:(unfold lo; destruct (mode =? 1); lia) Hc ltac:(intros; lia) VG VO) as (o1 & E1 & V1). exists o1. split; [exact E1|].
    apply (view_ext _ _ _ _ _ V1). intros mp1 np1 Hi Hj. cbn beta. destruct (Nat.eqb_spec mp1 (m + 1)) as [->|]; cbn [andb]; auto.
    unfold by2b. destruct (Nat.leb_spec (m + 1) np1); cbn [andb].
    2:{ destruct (Nat.leb_spec lo np1); auto. unfold lo in *. destruct (mode =? 1); lia. }
    destruct (Nat.leb_spec np1 nlat); cbn [andb]; rewrite ?andb_false_r; auto.
    destruct (andb (lo <=? np1) (Nat.even (np1 - lo))) eqn:EB.
    + apply andb_true_iff in EB. destruct EB as [B1 B2]. apply Nat.leb_le in B1. apply Nat.even_spec in B2. destruct B2 as [h B2].
      rewrite <- gathered_half; auto; try lia.
      * replace (np1 - 1 + 1) with np1 by lia. auto.
      * unfold lo in *. destruct (mode =? 1).
        -- replace (np1 - 1 - m) with (2 * h + 1) by lia. apply even_double1.
        -- replace (np1 - 1 - m) with (2 * h) by lia. apply ev.
    + rewrite Z by lia. rewrite unused_zero; auto; try lia; [ring|].
      unfold lo in *. destruct (mode =? 1).
      * destruct (Nat.even (np1 - 1 - m)) eqn:EV; auto. assert (O2 : Nat.odd (np1 - 1 - m) = true) by (rewrite <- Nat.negb_even, EV; auto). apply Nat.odd_spec in O2. destruct O2 as [h O2].
        destruct (Nat.leb_spec (m + 2) np1); [|lia]. replace (np1 - (m + 2)) with (2 * h) in EB by lia. rewrite ev in EB. discriminate.
      * destruct (Nat.leb_spec (m + 1) np1); [|lia]. cbn [andb] in EB. rewrite <- EB. f_equal. lia.
Qed.
End Analysis.
