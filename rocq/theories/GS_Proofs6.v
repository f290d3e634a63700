(** The analysis as a whole, and the round trip. *)
From Coq Require Import Reals List Arith ZArith Lia Bool Lra.
From Verif Require Import Base Buffer VH_Model RS_Spec RS_Dft FF_Model FF_Model2 FF_Props FF_Props2 GS_Spec GS_Model GS_Proofs1 GS_Proofs2 GS_Proofs3 GS_Proofs4 GS_Proofs5.
Import ListNotations.
Local Open Scope nat_scope.

Lemma load_ok n1 n2 N1 N2 gs G : n1 <= N1 -> n2 <= N2 -> 1 <= n1 -> view N1 N2 gs G ->
  exists g, mapM (fun p => rd2 N1 N2 gs (1 + p mod n1) (1 + p / n1)) (seq 0 (n1 * n2)) = Some g /\ view n1 n2 g G.
Proof.
  intros H1 H2 H3 V. rewrite (mapM_some _ (fun p => G (1 + p mod n1) (1 + p / n1))).
  - eexists. split; [reflexivity|]. split; [rewrite map_length, seq_length; auto|]. intros i j Hi Hj. unfold val2.
    assert (B : (j - 1) * n1 + (i - 1) < n1 * n2). { pose proof (pos_bound n1 n2 i j Hi Hj) as PB. unfold pos in PB. revert PB. plia. }
    rewrite nth_map_seq by auto. rewrite Nat.add_0_l. f_equal.
    + rewrite Nat.add_comm with (n := (j - 1) * n1), Nat.mod_add, Nat.mod_small by lia. lia.
    + rewrite Nat.add_comm with (n := (j - 1) * n1), Nat.div_add, Nat.div_small by lia. lia.
  - intros p Hp. apply in_seq in Hp. apply (rd2_view _ _ _ _ _ _ V).
    + pose proof (Nat.mod_upper_bound p n1 ltac:(lia)). lia.
    + assert (p / n1 < n2) by (apply Nat.div_lt_upper_bound; lia). lia.
Qed.
Lemma scale_ok n1 n2 c g G : view n1 n2 g G -> view n1 n2 (map (fun x => c * x)%R g) (fun i j => c * G i j)%R.
Proof.
  intros [L H]. split; [rewrite map_length; auto|]. intros i j Hi Hj. rewrite <- H by auto. unfold val2.
  replace 0%R with (c * 0)%R at 1 by ring. rewrite (map_nth (fun x => c * x)%R). auto.
Qed.

Lemma quad_scal nlat wts pmn c m n f : (c * quadrature nlat wts pmn m n f)%R = quadrature nlat wts pmn m n (fun i => c * f i)%R.
Proof. unfold quadrature. rewrite <- sumR_scal. apply sumR_ext. intros. cbv zeta. ring. Qed.
Lemma quad_ext nlat wts pmn m n f g : (forall i, 1 <= i <= nlat -> f i = g i) -> quadrature nlat wts pmn m n f = quadrature nlat wts pmn m n g.
Proof. intros H. unfold quadrature. apply sumR_ext. intros q Hq. cbv zeta. rewrite H by lia. auto. Qed.

Section Whole.
Variables nlat nlon mode : nat.
Hypothesis Hmode : mode <= 2.
Hypothesis Hnlat : 1 <= nlat.
Hypothesis Hnlon : 1 <= nlon.
Notation l := (l_of nlat nlon).
Notation late := (late_of nlat).
Notation lat := (lat_of nlat mode).
Notation lm := (lm1 nlat nlon).
Variable pmn : list R.
Hypothesis HP : view late (npm_of nlat l) pmn (val2 late pmn).
Hypothesis HZ : mode <> 0 -> zero_at_equator nlat nlon pmn.
Variable wts : list R.
Hypothesis HW : symmetric_weights nlat wts.
Variables mdab ndab : nat.
Hypothesis Hmd : l <= mdab.
Hypothesis Hnd : nlat <= ndab.
Variables idg jdg : nat.
Hypothesis Hid : lat <= idg.
Hypothesis Hjd : nlon <= jdg.
Variables (d : R) (junk : list R) (ws : list R * list nat) (fuel : nat) (wa0 : list R).
Hypothesis Ljunk : length junk = nlon.
Hypothesis Lwa : nlon <= length wa0.
Hypothesis Hws : hrffti fuel nlon wa0 = Some ws.

Lemma forw_ok r : length r = nlon -> forw nlon d junk ws r = Some (forward nlon r).
Proof. intros Lr. unfold forw. destruct (C88_forward d fuel nlon wa0 r junk ws Hnlon Lr Ljunk Lwa Hws) as (x & E & _). rewrite E. auto. Qed.

Variable G : nat -> nat -> R.
(** the field with longitudes from 0 *)
Notation field := (fun i j => G i (j + 1)%nat).
Definition fcol (i c : nat) : R := (2 / INR nlon * nth (c - 1) (forward nlon (map (G i) (seq 1 nlon))) 0)%R.

Lemma forward_cos i m c : (c = 1 /\ m = 0) \/ (c = 2 * m /\ 1 <= m /\ 2 * m <= nlon) ->
  fcol i c = (2 / INR nlon * sumR nlon (fun j => G i (j + 1)%nat * cos (angle nlon m j)))%R.
Proof.
  intros H. unfold fcol. f_equal. unfold forward. rewrite nth_map_seq by lia. rewrite Nat.add_0_l. cbv zeta.
  assert (S1 : S (c - 1) / 2 = m). { destruct H as [[-> ->]|[-> [Hm Hn]]]; [reflexivity|]. replace (S (2 * m - 1)) with (m * 2) by lia. apply Nat.div_mul. lia. }
  assert (B : andb (Nat.even (c - 1)) (negb (c - 1 =? 0)) = false).
  { destruct H as [[-> ->]|[-> [Hm Hn]]]; [reflexivity|]. replace (2 * m - 1) with (2 * (m - 1) + 1) by lia. rewrite even_double1. auto. }
  rewrite B, S1. apply sumR_ext. intros j Hj. rewrite nth_map_seq by auto. rewrite (Nat.add_comm 1 j). auto.
Qed.
Lemma forward_sin i m : 1 <= m -> 2 * m + 1 <= nlon ->
  fcol i (2 * m + 1) = (- (2 / INR nlon) * sumR nlon (fun j => G i (j + 1)%nat * sin (angle nlon m j)))%R.
Proof.
  intros Hm Hn. unfold fcol, forward. rewrite nth_map_seq by lia. rewrite Nat.add_0_l. cbv zeta. replace (2 * m + 1 - 1) with (2 * m) by lia.
  rewrite ev. destruct (Nat.eqb_spec (2 * m) 0); [lia|]. cbn [negb andb].
  replace (S (2 * m) / 2) with m by (apply Nat.div_unique with 1; lia).
  rewrite (sumR_ext nlon (fun i0 => nth i0 (map (G i) (seq 1 nlon)) 0 * sin (angle nlon m i0))%R (fun j => G i (j + 1)%nat * sin (angle nlon m j))%R); [ring|].
  intros j Hj. rewrite nth_map_seq by auto. rewrite (Nat.add_comm 1 j). auto.
Qed.
(** the continuation commutes with sums along a row *)
Lemma ext_sum (k : R) (t : nat -> R) i c (F : nat -> nat -> R) : (forall i, F i c = (k * sumR nlon (fun j => G i (j + 1)%nat * t j))%R) ->
  extended nlat mode F i c = (k * sumR nlon (fun j => extended nlat mode field i j * t j))%R.
Proof.
  intros H. unfold extended. destruct mode as [|[|?]].
  - apply H.
  - destruct (2 * i =? nlat + 1). { rewrite sumR_0; [ring|]. intros; ring. }
    destruct (i <=? north nlat); [apply H|]. rewrite H, Ropp_mult_distr_r, <- sumR_opp. f_equal. apply sumR_ext. intros; ring.
  - destruct (i <=? north nlat); apply H.
Qed.
Notation qcos m n := (quadrature nlat wts pmn m n (fun i => cosine nlon (fun j => extended nlat mode field i j) m)).
Notation qsin m n := (quadrature nlat wts pmn m n (fun i => sine nlon (fun j => extended nlat mode field i j) m)).
Lemma col_cos m n c scale : (c = 1 /\ m = 0) \/ (c = 2 * m /\ 1 <= m /\ 2 * m <= nlon) -> scale = (if 2 * m =? nlon then 1 / 2 else 1)%R ->
  (scale * quadrature nlat wts pmn m n (fun i => extended nlat mode fcol i c))%R = qcos m n.
Proof.
  intros H ->. rewrite quad_scal. apply quad_ext. intros i Hi. unfold cosine.
  rewrite (ext_sum (2 / INR nlon) (fun j => cos (angle nlon m j)) i c fcol) by (intros; apply forward_cos; auto). ring.
Qed.
Lemma col_sin m n : 1 <= m -> 2 * m + 1 <= nlon ->
  (1 * quadrature nlat wts pmn m n (fun i => extended nlat mode fcol i (2 * m + 1)))%R = qsin m n.
Proof.
  intros H1 H2. rewrite Rmult_1_l. apply quad_ext. intros i Hi. unfold sine.
  rewrite (ext_sum (- (2 / INR nlon)) (fun j => sin (angle nlon m j)) i (2 * m + 1) fcol) by (intros; apply forward_sin; auto). ring.
Qed.
Lemma sine_0 m n : m = 0 \/ 2 * m = nlon -> qsin m n = 0%R.
Proof.
  intros H. unfold quadrature. apply sumR_0. intros q Hq. cbv zeta. unfold sine. rewrite sumR_0; [ring|]. intros j Hj.
  replace (sin (angle nlon m j)) with 0%R; [ring|]. symmetry. destruct H as [->|H].
  - unfold angle. rewrite <- sin_0. f_equal. cbn [INR]. unfold Rdiv. ring.
  - rewrite <- H. apply sin_half. lia.
Qed.

(** a(mp1, np1) once the orders below k are done *)
Definition state (Q : nat -> nat -> R) (A : nat -> nat -> R) (k mp1 np1 : nat) : R :=
  if andb (mp1 <=? l) (np1 <=? nlat) then (if andb (mp1 <=? np1) (mp1 <=? k) then Q (mp1 - 1) (np1 - 1) else 0%R) else A mp1 np1.
Lemma state_step Q A m mp1 np1 : 1 <= mp1 -> 1 <= np1 -> m + 1 <= l ->
  (if andb (mp1 =? m + 1) (andb (m + 1 <=? np1) (np1 <=? nlat)) then Q m (np1 - 1) else state Q A m mp1 np1) = state Q A (m + 1) mp1 np1.
Proof.
  intros Hi Hj Hm. unfold state. destruct (Nat.eqb_spec mp1 (m + 1)) as [->|].
  - destruct (Nat.leb_spec (m + 1) l); [|lia]. destruct (Nat.leb_spec (m + 1) (m + 1)); [|lia]. replace (m + 1 - 1) with m by lia.
    destruct (Nat.leb_spec (m + 1) np1), (Nat.leb_spec np1 nlat), (Nat.leb_spec (m + 1) m); cbn [andb]; auto; lia.
  - cbn [andb]. destruct (andb (mp1 <=? l) (np1 <=? nlat)); auto. destruct (Nat.leb_spec mp1 np1), (Nat.leb_spec mp1 m), (Nat.leb_spec mp1 (m + 1)); cbn [andb]; auto; lia.
Qed.
Lemma state_free Q A m np1 : m + 1 <= l -> m + 1 <= np1 <= nlat -> state Q A m (m + 1) np1 = 0%R.
Proof.
  intros. unfold state. destruct (Nat.leb_spec (m + 1) l), (Nat.leb_spec np1 nlat); try lia. cbn [andb]. destruct (Nat.leb_spec (m + 1) np1), (Nat.leb_spec (m + 1) m); auto; lia.
Qed.

Lemma analysis_ok gs a b A B : view idg jdg gs G -> view mdab ndab a A -> view mdab ndab b B ->
  exists a' b', shags1 nlat nlon mode d junk idg jdg mdab ndab gs wts pmn ws a b = Some (a', b') /\
    view mdab ndab a' (state (fun m n => qcos m n) A l) /\ view mdab ndab b' (state (fun m n => qsin m n) B l).
Proof.
  intros VG VA VB. pose proof (l_facts nlat nlon Hnlat Hnlon) as (L1 & L2 & L3). destruct (halves nlat) as [H1 H2]. rewrite <- late_north in H1, H2.
  assert (Hlat : 1 <= lat) by (unfold lat_of; destruct (mode =? 0); lia).
  unfold shags1. destruct (load_ok lat nlon idg jdg gs G Hid Hjd Hlat VG) as (g0 & E0 & V0). rewrite E0. cbn [bind].
  destruct (fft_rows_ok nlat nlon mode (forw nlon d junk ws) (forward nlon) g0 G forw_ok V0) as (g1 & E1 & V1). rewrite E1. cbn [bind]. cbv zeta.
  pose proof (scale_ok _ _ (2 / INR nlon) _ _ V1) as V2. cbn beta in V2. change (fun i j => (2 / INR nlon * nth (j - 1) (forward nlon (map (G i) (seq 1 nlon))) 0)%R) with fcol in V2.
  set (g2 := map (fun x => (2 / INR nlon * x)%R) g1) in *. clearbody g2. clear E0 E1 V0 V1.
  destruct (store_ok mdab ndab l nlat (fun _ _ => Some 0%R) (fun _ _ => 0%R) a A Hmd Hnd ltac:(auto) VA) as (a0 & Ea & Va). rewrite Ea. cbn [bind].
  destruct (store_ok mdab ndab l nlat (fun _ _ => Some 0%R) (fun _ _ => 0%R) b B Hmd Hnd ltac:(auto) VB) as (b0 & Eb & Vb). rewrite Eb. cbn [bind]. clear Ea Eb.
  assert (WE : exists g3, (if mode =? 0 then weigh_full nlat nlon mode wts g2 else weigh_half nlat nlon mode wts g2) = Some g3 /\ view lat nlon g3 (weighed nlat mode wts fcol)).
  { unfold weighed. destruct (Nat.eqb_spec mode 0) as [M0|M0].
    - apply (weigh_full_ok nlat nlon mode) with (pmn := pmn); auto.
    - apply (weigh_half_ok nlat nlon mode) with (pmn := pmn); auto. }
  destruct WE as (g3 & E3 & V3). rewrite E3. cbn [bind]. clear E3 V2 g2.
  set (QA := fun m n => qcos m n). set (QB := fun m n => qsin m n).
  assert (SA0 : view mdab ndab a0 (state QA A 0)).
  { apply (view_ext _ _ _ _ _ Va). intros i j Hi Hj. cbn beta. unfold state. destruct (Nat.leb_spec i 0); [lia|]. rewrite andb_false_r. auto. }
  assert (SB0 : view mdab ndab b0 (state QB B 0)).
  { apply (view_ext _ _ _ _ _ Vb). intros i j Hi Hj. cbn beta. unfold state. destruct (Nat.leb_spec i 0); [lia|]. rewrite andb_false_r. auto. }
  assert (SB1 : view mdab ndab b0 (state QB B 1)).
  { apply (view_ext _ _ _ _ _ SB0). intros i j Hi Hj. cbn beta. rewrite <- (state_step QB B 0) by lia. destruct (Nat.eqb_spec i (0 + 1)) as [->|]; auto. rewrite Nat.add_0_l in *.
    destruct (Nat.leb_spec 1 j), (Nat.leb_spec j nlat); cbn [andb]; auto. unfold QB. rewrite sine_0 by auto. rewrite (state_free _ _ 0) by lia. auto. }
  destruct (collect_ok nlat nlon mode Hmode Hnlat Hnlon pmn HP HZ wts HW mdab ndab Hmd Hnd 0 1 1 g3 fcol a0 _ ltac:(lia) ltac:(lia) V3 SA0 ltac:(intros; apply state_free; lia)) as (a1 & E4 & V4). rewrite E4. cbn [bind].
  assert (SA1 : view mdab ndab a1 (state QA A 1)).
  { apply (view_ext _ _ _ _ _ V4). intros i j Hi Hj. cbn beta. rewrite (col_cos 0 (j - 1) 1 1) by first [solve [auto] | destruct (Nat.eqb_spec (2 * 0) nlon); [lia|auto]]. exact (state_step QA A 0 i j ltac:(lia) ltac:(lia) ltac:(lia)). }
  clear E4 V4 Va Vb SA0 SB0.
  destruct (fold_seq (fun ab mp1 => let m := mp1 - 1 in
               let* a := collect nlat nlon mode mdab ndab m (2 * m) 1 pmn g3 (fst ab) in
               let* b := collect nlat nlon mode mdab ndab m (2 * m + 1) 1 pmn g3 (snd ab) in
               Some (a, b)) (fun k ab => view mdab ndab (fst ab) (state QA A (k + 1)) /\ view mdab ndab (snd ab) (state QB B (k + 1))) (lm - 1) 2 (a1, b0)) as (ab & E5 & SA & SB).
  - intros k [a2 b2] Hk [SA SB]. cbn [fst snd] in SA, SB. cbv zeta. cbn [fst snd]. replace (2 + k - 1) with (k + 1) by lia. set (m := k + 1) in *. assert (Em : 1 <= m) by (unfold m; lia).
    assert (Hml : m < l /\ 2 * m + 1 <= nlon) by (pose proof (lm_cases nlat nlon Hnlat Hnlon); unfold m; lia). destruct Hml as [Hml Hmn].
    destruct (collect_ok nlat nlon mode Hmode Hnlat Hnlon pmn HP HZ wts HW mdab ndab Hmd Hnd m (2 * m) 1 g3 fcol a2 _ ltac:(lia) ltac:(lia) V3 SA ltac:(intros; apply state_free; lia)) as (a3 & E4 & V4). rewrite E4. cbn [bind].
    destruct (collect_ok nlat nlon mode Hmode Hnlat Hnlon pmn HP HZ wts HW mdab ndab Hmd Hnd m (2 * m + 1) 1 g3 fcol b2 _ ltac:(lia) ltac:(lia) V3 SB ltac:(intros; apply state_free; lia)) as (b3 & E5 & V5). rewrite E5. cbn [bind].
    eexists. split; [reflexivity|]. cbn [fst snd]. replace (S k + 1) with (m + 1) by (unfold m; lia). split.
    + apply (view_ext _ _ _ _ _ V4). intros i j Hi Hj. cbn beta. rewrite (col_cos m (j - 1) (2 * m) 1) by first [right; lia | destruct (Nat.eqb_spec (2 * m) nlon); [lia|auto]]. exact (state_step QA A m i j ltac:(lia) ltac:(lia) ltac:(lia)).
    + apply (view_ext _ _ _ _ _ V5). intros i j Hi Hj. cbn beta. rewrite (col_sin m (j - 1)) by lia. exact (state_step QB B m i j ltac:(lia) ltac:(lia) ltac:(lia)).
  - cbn [fst snd]. auto.
  - cbv zeta in E5 |- *. rewrite E5. cbn [bind]. destruct ab as [a2 b2]. cbn [fst snd] in *.
    destruct (lm_cases nlat nlon Hnlat Hnlon) as [(C1 & C2 & C3)|(C1 & C2 & C3)].
    + destruct (Nat.eqb_spec nlon (l + l - 2)); [|lia]. replace (lm - 1 + 1) with (l - 1) in SA, SB by lia.
      destruct (collect_ok nlat nlon mode Hmode Hnlat Hnlon pmn HP HZ wts HW mdab ndab Hmd Hnd (l - 1) nlon (1 / 2) g3 fcol a2 _ ltac:(lia) ltac:(lia) V3 SA ltac:(intros; apply state_free; lia)) as (a3 & E4 & V4). rewrite E4. cbn [bind].
      exists a3, b2. split; [auto|]. split.
      * apply (view_ext _ _ _ _ _ V4). intros i j Hi Hj. cbn beta. rewrite (col_cos (l - 1) (j - 1) nlon (1 / 2)) by first [right; lia | destruct (Nat.eqb_spec (2 * (l - 1)) nlon); [auto|lia]].
        fold QA. pose proof (state_step QA A (l - 1) i j ltac:(lia) ltac:(lia) ltac:(lia)) as SS. replace (l - 1 + 1) with l in SS |- * by lia. exact SS.
      * apply (view_ext _ _ _ _ _ SB). intros i j Hi Hj. pose proof (state_step QB B (l - 1) i j ltac:(lia) ltac:(lia) ltac:(lia)) as SS. replace (l - 1 + 1) with l in SS by lia. fold QB. rewrite <- SS.
        destruct (Nat.eqb_spec i l) as [->|]; auto. destruct (Nat.leb_spec l j), (Nat.leb_spec j nlat); cbn [andb]; auto.
        unfold QB. rewrite sine_0 by lia. pose proof (state_free QB B (l - 1) j ltac:(lia) ltac:(lia)) as SF. replace (l - 1 + 1) with l in SF by lia. exact SF.
    + destruct (Nat.eqb_spec nlon (l + l - 2)); [lia|]. replace (lm - 1 + 1) with l in SA, SB by lia. exists a2, b2. auto.
Qed.
End Whole.
