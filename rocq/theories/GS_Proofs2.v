(** The loops of the synthesis as transformations of the array's elements. *)
From Coq Require Import Reals List Arith Lia Bool Lra.
From Verif Require Import Base Buffer VH_Model RS_Spec RS_Dft GS_Spec GS_Model GS_Proofs1.
Import ListNotations.
Local Open Scope nat_scope.

(** total of the coefficients aimed at column c *)
Definition addto (vs : list (nat * R)) (c : nat) : R := fold_right (fun cv s => ((if fst cv =? c then snd cv else 0) + s)%R) 0%R vs.
Definition delta (i j : nat) : R := if i =? j then 1%R else 0%R.

Section Spread.
Variables nlat nlon mode : nat.
Notation l := (l_of nlat nlon).
Notation late := (late_of nlat).
Notation lat := (lat_of nlat mode).
Notation npm := (npm_of nlat (l_of nlat nlon)).
Variable pmn : list R.
Variable P : nat -> nat -> R.
Hypothesis HP : view late npm pmn P.

Lemma spread_row r i mn vs : 1 <= r <= lat -> 1 <= i <= late -> 1 <= mn <= npm -> (forall cv, In cv vs -> 1 <= fst cv <= nlon) ->
  forall g F, view lat nlon g F ->
  exists g', foldM (fun g cv => let* x := rd2 lat nlon g r (fst cv) in let* p := rd2 late npm pmn i mn in
                      wr2 lat nlon g r (fst cv) (x + snd cv * p)%R) vs g = Some g' /\
             view lat nlon g' (fun i' c' => F i' c' + delta i' r * (addto vs c' * P i mn))%R.
Proof.
  intros Hr Hi Hm. induction vs as [|[c v] vs IH]; intros Hc g F HF.
  - exists g. split; [reflexivity|]. apply (view_ext _ _ _ _ _ HF). intros. cbn. ring.
  - cbn [foldM fst snd]. assert (C : 1 <= c <= nlon) by (apply (Hc (c, v)); left; auto).
    destruct (wr2_view _ _ _ _ r c (F r c + v * P i mn)%R HF Hr C) as (g1 & E1 & V1).
    assert (E0 : (let* x := rd2 lat nlon g r c in let* p := rd2 late npm pmn i mn in wr2 lat nlon g r c (x + v * p)%R) = Some g1).
    { rewrite (rd2_view _ _ _ _ _ _ HF), (rd2_view _ _ _ _ _ _ HP) by auto. exact E1. }
    rewrite E0.
    destruct (IH (fun cv h => Hc cv (or_intror h)) g1 _ V1) as (g2 & E2 & V2). exists g2. split; [exact E2|].
    apply (view_ext _ _ _ _ _ V2). intros i' j' Hi' Hj'. change (addto ((c, v) :: vs) j') with ((if c =? j' then v else 0) + addto vs j')%R. unfold delta. rewrite (Nat.eqb_sym c j').
    destruct (Nat.eqb_spec i' r) as [->|]; cbn [andb]; [|ring]. destruct (Nat.eqb_spec j' c) as [->|]; ring.
Qed.

Lemma spread_ok row hi m lo ts tv g F : hi <= late -> (forall i, 1 <= i <= hi -> 1 <= row i <= lat) ->
  (forall t, In t tv -> 1 <= fst t <= nlon) ->
  (forall np1, lo <= np1 <= nlat -> mapM (fun t => let* v := snd t np1 in Some (fst t, v)) ts = Some (map (fun t => (fst t, snd t np1)) tv)) ->
  (forall np1, lo <= np1 <= nlat -> 1 <= mml1 nlat m + np1 <= npm) ->
  view lat nlon g F ->
  exists g', spread nlat nlon mode row hi m lo ts pmn g = Some g' /\
    view lat nlon g' (fun i' c' => F i' c' + sumR ((nlat + 2 - lo) / 2) (fun q => let np1 := (lo + 2 * q)%nat in
        addto (map (fun t => (fst t, snd t np1)) tv) c' * sumR hi (fun k => delta i' (row (1 + k)%nat) * P (1 + k)%nat (mml1 nlat m + np1)%nat)))%R.
Proof.
  intros Hhi Hrow Hc Hts Hmn HF. unfold spread.
  apply (fold_by2 _ (fun q g => view lat nlon g (fun i' c' => F i' c' + sumR q (fun q => let np1 := (lo + 2 * q)%nat in
        addto (map (fun t => (fst t, snd t np1)) tv) c' * sumR hi (fun k => delta i' (row (1 + k)%nat) * P (1 + k)%nat (mml1 nlat m + np1)%nat)))%R)).
  2:{ apply (view_ext _ _ _ _ _ HF). intros. cbn. ring. }
  intros q g1 Hq V1. pose proof (by2_range _ _ _ Hq) as HR. cbv zeta. rewrite Hts by lia. cbn [bind].
  set (vs := map (fun t => (fst t, snd t (lo + 2 * q))) tv).
  assert (Hvs : forall cv, In cv vs -> 1 <= fst cv <= nlon).
  { intros cv I. apply in_map_iff in I. destruct I as (t & <- & I). apply Hc; auto. }
  set (F1 := fun i' c' => _) in V1.
  destruct (fold_seq (fun g i => foldM (fun g cv => let* x := rd2 lat nlon g (row i) (fst cv) in let* p := rd2 late npm pmn i (mml1 nlat m + (lo + 2 * q)) in
                      wr2 lat nlon g (row i) (fst cv) (x + snd cv * p)%R) vs g)
     (fun k g => view lat nlon g (fun i' c' => F1 i' c' + addto vs c' * sumR k (fun k => delta i' (row (1 + k)%nat) * P (1 + k)%nat (mml1 nlat m + (lo + 2 * q))%nat))%R) hi 1 g1) as (g2 & E2 & V2).
  - intros k g2 Hk V2. destruct (spread_row (row (1 + k)) (1 + k) (mml1 nlat m + (lo + 2 * q)) vs ltac:(apply Hrow; lia) ltac:(lia) ltac:(apply Hmn; lia) Hvs g2 _ V2) as (g3 & E3 & V3).
    exists g3. split; [exact E3|]. apply (view_ext _ _ _ _ _ V3). intros. cbn [sumR]. ring.
  - apply (view_ext _ _ _ _ _ V1). intros. cbn. ring.
  - exists g2. split; [exact E2|]. apply (view_ext _ _ _ _ _ V2). intros. unfold F1. cbn [sumR]. fold vs. ring.
Qed.

Lemma sum_delta_id hi i' (X : nat -> R) : sumR hi (fun k => delta i' (1 + k) * X (1 + k)%nat)%R = if inside i' hi then X i' else 0%R.
Proof.
  unfold inside. destruct (Nat.leb_spec 1 i'), (Nat.leb_spec i' hi); cbn [andb].
  - rewrite (sumR_one hi _ (i' - 1)) by (first [lia|intros; unfold delta; destruct (Nat.eqb_spec i' (1 + i)); [lia|ring]]).
    replace (1 + (i' - 1)) with i' by lia. unfold delta. rewrite Nat.eqb_refl. ring.
  - apply sumR_0. intros. unfold delta. destruct (Nat.eqb_spec i' (1 + k)); [lia|ring].
  - apply sumR_0. intros. unfold delta. destruct (Nat.eqb_spec i' (1 + k)); [lia|ring].
  - lia.
Qed.
Lemma sum_delta_mirror hi i' (X : nat -> R) : hi <= nlat -> 1 <= i' <= nlat ->
  sumR hi (fun k => delta i' (nlat - (1 + k) + 1) * X (1 + k)%nat)%R = if nlat + 1 - i' <=? hi then X (nlat + 1 - i') else 0%R.
Proof.
  intros Hh Hi. destruct (Nat.leb_spec (nlat + 1 - i') hi).
  - rewrite (sumR_one hi _ (nlat - i')) by (first [lia|intros; unfold delta; destruct (Nat.eqb_spec i' (nlat - (1 + i) + 1)); [lia|ring]]).
    replace (1 + (nlat - i')) with (nlat + 1 - i') by lia. unfold delta. destruct (Nat.eqb_spec i' (nlat - (nlat + 1 - i') + 1)); [ring|lia].
  - apply sumR_0. intros. unfold delta. destruct (Nat.eqb_spec i' (nlat - (1 + k) + 1)); [lia|ring].
Qed.

(** the even-odd reduction *)
Definition memb (c : nat) (cs : list nat) : bool := existsb (Nat.eqb c) cs.
Lemma memb_in c cs : memb c cs = true <-> In c cs.
Proof. unfold memb. rewrite existsb_exists. split; [intros (x & I & E); apply Nat.eqb_eq in E; subst; auto|intros I; exists c; split; [auto|apply Nat.eqb_refl]]. Qed.
Notation mir i := (nlat - i + 1).
Lemma combine_row i cs : lat = nlat -> NoDup cs -> (forall c, In c cs -> 1 <= c <= nlon) -> 1 <= i <= nlat / 2 -> forall g F, view lat nlon g F ->
  exists g', foldM (fun g c => let* t1 := rd2 lat nlon g i c in let* t3 := rd2 lat nlon g (mir i) c in
      let* g := wr2 lat nlon g i c (t1 + t3)%R in wr2 lat nlon g (mir i) c (t1 - t3)%R) cs g = Some g' /\
    view lat nlon g' (fun i' c' => if memb c' cs then (if i' =? i then F i c' + F (mir i) c' else if i' =? mir i then F i c' - F (mir i) c' else F i' c')%R else F i' c').
Proof.
  intros HL ND Hc Hi. assert (M : nlat / 2 * 2 <= nlat) by (pose proof (Nat.div_mod nlat 2 ltac:(lia)); lia).
  induction cs as [|c cs IH]; intros g F HF.
  - exists g. split; [reflexivity|]. exact HF.
  - cbn [foldM]. inversion ND as [|? ? NI ND']; subst. assert (C : 1 <= c <= nlon) by (apply Hc; left; auto).
    rewrite (rd2_view _ _ _ _ i c HF), (rd2_view _ _ _ _ (mir i) c HF) by lia. cbn [bind].
    destruct (wr2_view _ _ _ _ i c (F i c + F (mir i) c)%R HF ltac:(lia) C) as (g1 & E1 & V1). rewrite E1. cbn [bind].
    destruct (wr2_view _ _ _ _ (mir i) c (F i c - F (mir i) c)%R V1 ltac:(lia) C) as (g2 & E2 & V2). rewrite E2. cbn [bind].
    destruct (IH ND' (fun c h => Hc c (or_intror h)) g2 _ V2) as (g3 & E3 & V3). exists g3. split; [exact E3|].
    apply (view_ext _ _ _ _ _ V3). intros i' c' Hi' Hc'. cbn beta. unfold memb in *. cbn [existsb].
    destruct (Nat.eqb_spec c' c) as [->|N]; cbn [orb].
    + destruct (existsb (Nat.eqb c) cs) eqn:EX; [exfalso; apply NI; apply memb_in; auto|].
      rewrite !andb_true_r. destruct (Nat.eqb_spec i' (mir i)), (Nat.eqb_spec i' i); auto; lia.
    + rewrite !andb_false_r. auto.
Qed.
Lemma combine_ok cs g F : lat = nlat -> NoDup cs -> (forall c, In c cs -> 1 <= c <= nlon) -> view lat nlon g F ->
  exists g', combine_rows nlat nlon mode cs g = Some g' /\
    view lat nlon g' (fun i' c' => if memb c' cs then (if i' <=? nlat / 2 then F i' c' + F (mir i') c' else if nlat + 1 - i' <=? nlat / 2 then F (mir i') c' - F i' c' else F i' c')%R else F i' c').
Proof.
  intros HL ND Hc HF. assert (M : nlat / 2 * 2 <= nlat) by (pose proof (Nat.div_mod nlat 2 ltac:(lia)); lia). unfold combine_rows. cbv zeta.
  apply (fold_seq _ (fun q g => view lat nlon g (fun i' c' => if memb c' cs then (if i' <=? q then F i' c' + F (mir i') c' else if nlat + 1 - i' <=? q then F (mir i') c' - F i' c' else F i' c')%R else F i' c'))).
  - intros q g1 Hq V1. destruct (combine_row (1 + q) cs HL ND Hc ltac:(lia) g1 _ V1) as (g2 & E2 & V2). exists g2. split; [exact E2|].
    apply (view_ext _ _ _ _ _ V2). intros i' c' Hi' Hc'. cbn beta. destruct (memb c' cs); [|auto].
    destruct (Nat.leb_spec (1 + q) q); [lia|]. destruct (Nat.leb_spec (nlat + 1 - (1 + q)) q); [lia|].
    destruct (Nat.leb_spec (mir (1 + q)) q); [lia|]. destruct (Nat.leb_spec (nlat + 1 - mir (1 + q)) q); [lia|].
    destruct (Nat.eqb_spec i' (1 + q)) as [->|].
    { destruct (Nat.leb_spec (1 + q) (S q)); [auto|lia]. }
    destruct (Nat.eqb_spec i' (mir (1 + q))) as [->|].
    { destruct (Nat.leb_spec (mir (1 + q)) (S q)); [lia|]. destruct (Nat.leb_spec (nlat + 1 - mir (1 + q)) (S q)); [|lia].
      replace (mir (mir (1 + q))) with (1 + q) by lia. auto. }
    destruct (Nat.leb_spec i' q), (Nat.leb_spec i' (S q)), (Nat.leb_spec (nlat + 1 - i') q), (Nat.leb_spec (nlat + 1 - i') (S q)); auto; lia.
  - apply (view_ext _ _ _ _ _ HF). intros i' c' Hi' Hc'. cbn beta. destruct (memb c' cs); auto. destruct (Nat.leb_spec i' 0); [lia|]. destruct (Nat.leb_spec (nlat + 1 - i') 0); [lia|auto].
Qed.
End Spread.
