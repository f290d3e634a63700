(** Proofs about the tropopause search. *)
From Coq Require Import Reals.
From Verif Require Import Base Buffer VH_Model VH_Proofs IS_Proofs TP_Model TP_Spec.
Local Close Scope Qc_scope.
Local Open Scope nat_scope.

Section P.
Variable A : fl.
Variables (p t : list A).
Hypothesis LT : length t = length p.

Lemma layer_at k : k + 1 < length p -> exists r h, layer A p t k r h.
Proof.
  intros H.
  destruct (nth_error p k) as [p0|] eqn:P0; [|apply nth_error_None in P0; lia].
  destruct (nth_error p (k + 1)) as [p1|] eqn:P1; [|apply nth_error_None in P1; lia].
  destruct (nth_error t k) as [t0|] eqn:T0; [|apply nth_error_None in T0; lia].
  destruct (nth_error t (k + 1)) as [t1|] eqn:T1; [|apply nth_error_None in T1; lia].
  do 2 eexists. exists p0, p1, t0, t1. repeat split; eauto.
Qed.
Lemma layer_fun k r h r' h' : layer A p t k r h -> layer A p t k r' h' -> r = r' /\ h = h'.
Proof.
  intros (p0 & p1 & t0 & t1 & H1 & H2 & H3 & H4 & -> & ->) (p0' & p1' & t0' & t1' & H1' & H2' & H3' & H4' & -> & ->).
  rewrite H1 in H1'. rewrite H2 in H2'. rewrite H3 in H3'. rewrite H4 in H4'.
  injection H1' as <-. injection H2' as <-. injection H3' as <-. injection H4' as <-. auto.
Qed.
Lemma layer_bound k r h : layer A p t k r h -> k + 1 < length p.
Proof. intros (p0 & p1 & t0 & t1 & H1 & H2 & _). apply nth_error_Some. congruence. Qed.

(** the first loop fills the work arrays *)
Definition filled (w : list A * list A) (n : nat) : Prop :=
  forall k, k < n -> exists r h, layer A p t k r h /\ rd (fst w) (k + 1) = Some r /\ rd (snd w) (k + 1) = Some h.

Lemma layer_step_ok w n : n + 1 < length p -> n < length (fst w) -> n < length (snd w) -> filled w n ->
  exists w', layer_step A p t w (n + 1) = Some w' /\ length (fst w') = length (fst w) /\ length (snd w') = length (snd w) /\ filled w' (n + 1).
Proof.
  intros H LF LS FI. unfold layer_step.
  destruct (layer_at n H) as (r & h & Y). destruct (Y) as (p0 & p1 & t0 & t1 & H1 & H2 & H3 & H4 & Er & Eh).
  replace (rd t (n + 1)) with (Some t0) by (rewrite Nat.add_1_r; symmetry; exact H3).
  replace (rd t (n + 1 + 1)) with (Some t1) by (rewrite (Nat.add_1_r (n + 1)); symmetry; exact H4).
  replace (rd p (n + 1)) with (Some p0) by (rewrite Nat.add_1_r; symmetry; exact H1).
  replace (rd p (n + 1 + 1)) with (Some p1) by (rewrite (Nat.add_1_r (n + 1)); symmetry; exact H2).
  cbn [bind].
  rewrite (wrx_ok _ (fst w)) by lia. cbn [bind]. rewrite rd_wr_eq by lia. cbn [bind].
  rewrite wrx_ok by (rewrite wr_length; lia). cbn [bind]. rewrite rd_wr_eq by (rewrite wr_length; lia). cbn [bind].
  rewrite wrx_ok by (rewrite !wr_length; lia). cbn [bind]. rewrite wrx_ok by lia. cbn [bind].
  eexists. split; [reflexivity|]. cbn [fst snd]. rewrite !wr_length. split; [auto|split; [auto|]].
  intros k Hk. cbn [fst snd]. destruct (Nat.eq_dec k n) as [->|N].
  - exists r, h. split; [auto|]. rewrite !rd_wr_eq by (rewrite ?wr_length; lia). subst. auto.
  - destruct (FI k ltac:(lia)) as (r' & h' & Y' & R1 & R2). exists r', h'. split; [auto|].
    rewrite !rd_wr_neq by lia. auto.
Qed.
Lemma layers_ok n : forall w, n < length p -> n <= length (fst w) -> n <= length (snd w) ->
  exists w', foldM (layer_step A p t) (seq 1 n) w = Some w' /\ filled w' n /\ length (fst w') = length (fst w) /\ length (snd w') = length (snd w).
Proof.
  assert (G : forall n m w, filled w m -> m + n < length p -> m + n <= length (fst w) -> m + n <= length (snd w) ->
    exists w', foldM (layer_step A p t) (seq (m + 1) n) w = Some w' /\ filled w' (m + n) /\ length (fst w') = length (fst w) /\ length (snd w') = length (snd w)).
  { clear n. induction n as [|n IH]; intros m w FI H1 H2 H3; cbn [seq foldM].
    - exists w. rewrite Nat.add_0_r. auto.
    - destruct (layer_step_ok w m ltac:(lia) ltac:(lia) ltac:(lia) FI) as (w' & E & L1 & L2 & FI'). rewrite E. cbn [bind].
      destruct (IH (m + 1) w' FI' ltac:(lia) ltac:(lia) ltac:(lia)) as (w'' & E' & FI'' & L1' & L2').
      exists w''. replace (S (m + 1)) with (m + 1 + 1) by lia. rewrite E'. split; [auto|].
      replace (m + S n) with (m + 1 + n) by lia. split; [auto|]. split; congruence. }
  intros w H1 H2 H3. apply (G n 0 w); auto. intros k Hk. lia.
Qed.

(** the mean over the layers in the next 2 km *)
Lemma mean_above_ok w n z : filled w n -> forall l sum avg kount, l <= n ->
  exists m rs, m <= l /\
    Forall2 (fun j r => exists h, layer A p t j r h) (rev (seq m (l - m))) rs /\
    (forall j r h, m <= j < l -> layer A p t j r h -> fltb A h z = false) /\
    (m = 0 \/ exists r h, layer A p t (m - 1) r h /\ fltb A h z = true) /\
    mean_above A (fst w) (snd w) z sum avg kount l =
      Some (if m =? l then avg else fdiv A (fold_left (fadd A) rs sum) (fc A (Z.of_nat (kount + length rs)) 1)).
Proof.
  intros FI. induction l as [|l IH]; intros sum avg kount Hl; cbn [mean_above].
  - exists 0, nil. split; [lia|]. split; [constructor|]. split; [intros; lia|]. auto.
  - destruct (FI l ltac:(lia)) as (r & h & Y & R1 & R2). rewrite Nat.add_1_r in R1, R2. rewrite R2. cbn [bind].
    destruct (fltb A h z) eqn:C.
    + exists (S l), nil. rewrite Nat.sub_diag, Nat.eqb_refl. split; [lia|]. split; [constructor|]. split; [intros; lia|].
      split; [|reflexivity]. right. exists r, h. rewrite Nat.sub_1_r. auto.
    + rewrite R1. cbn [bind].
      destruct (IH (fadd A sum r) (fdiv A (fadd A sum r) (fc A (Z.of_nat (kount + 1)) 1)) (kount + 1) ltac:(lia)) as (m & rs & M & FR & NB & TOP & E).
      exists m, (r :: rs). split; [lia|]. split.
      { replace (S l - m) with (l - m + 1) by lia. rewrite seq_app, rev_app_distr.
        replace (m + (l - m)) with l by lia. cbn [seq rev app]. constructor; [exists h; auto|auto]. }
      split.
      { intros j r' h' J Y'. destruct (Nat.eq_dec j l) as [->|N].
        - destruct (layer_fun _ _ _ _ _ Y Y') as [_ <-]. auto.
        - apply (NB j r' h'); [lia|auto]. }
      split; [auto|]. rewrite E. f_equal.
      destruct (Nat.eqb_spec m (S l)); [lia|]. cbn [fold_left length].
      destruct (Nat.eqb_spec m l) as [->|N].
      * rewrite Nat.sub_diag in FR. inversion FR; subst. cbn [fold_left length]. reflexivity.
      * replace (kount + S (length rs)) with (kount + 1 + length rs) by lia. reflexivity.
Qed.

Variables (tmsg crit : A).
Hypothesis CRIT : fltb A (fc A 1000000000 1) crit = false.

Lemma crossing_fun k q q' : crossing A p t crit k q -> crossing A p t crit k q' -> q = q'.
Proof.
  intros (r & h & r1 & h1 & Y & Y1 & D) (r' & h' & r1' & h1' & Y' & Y1' & D').
  destruct (layer_fun _ _ _ _ _ Y Y') as [<- <-]. destruct (layer_fun _ _ _ _ _ Y1 Y1') as [<- <-].
  destruct D as [[D1 ->]|[D1 ->]], D' as [[D1' ->]|[D1' ->]]; congruence.
Qed.
Lemma rates_fun m k rs rs' : rates A p t m k rs -> rates A p t m k rs' -> rs = rs'.
Proof.
  unfold rates. generalize (rev (seq m (k + 1 - m))). intros l H. revert rs'. induction H as [|j r l rs (h & Y) _ IH]; intros rs' H'.
  - inversion H'. auto.
  - inversion H' as [|? r' ? rs1 (h' & Y') H1]; subst. destruct (layer_fun _ _ _ _ _ Y Y') as [<- _]. f_equal. auto.
Qed.
Lemma reaches_fun z m m' k : k + 1 < length p -> reaches A p t z m k -> reaches A p t z m' k -> m = m'.
Proof.
  assert (X : forall m m', k + 1 < length p -> reaches A p t z m k -> reaches A p t z m' k -> ~ m < m').
  { clear m m'. intros m m' Hk (L & N & _) (L' & _ & [->|(r & h & Y & C)]) LM; [lia|].
    rewrite (N (m' - 1) r h ltac:(lia) Y) in C. discriminate. }
  intros Hk H H'. pose proof (X m m' Hk H H'). pose proof (X m' m Hk H' H). lia.
Qed.

Lemma pressure_ok w n k : filled w n -> k + 1 < n ->
  exists q, interpolated_pressure A (fst w) (snd w) crit (k + 1) = Some q /\ crossing A p t crit k q.
Proof.
  intros FI H. unfold interpolated_pressure.
  destruct (FI k ltac:(lia)) as (r & h & Y & R1 & R2). destruct (FI (k + 1) ltac:(lia)) as (r' & h' & Y' & R1' & R2').
  rewrite R1, R2, R1', R2'. cbn [bind].
  destruct (feqb A r r') eqn:E; cbn [negb]; eexists; (split; [reflexivity|]); exists r, h, r', h'; auto.
Qed.

(** one level of the search, before anything was found *)
Lemma step_ok w n k itrop : filled w n -> k + 1 < n -> n < length p ->
  exists s, search_step A p t (fst w) (snd w) tmsg crit (tmsg, itrop, false) (k + 1) = Some s /\
    ((exists q, tropopause A p t crit k q /\ s = (fmax A q (fc A 85 1), Z.of_nat (k + 1), true)) \/
     ((forall q, ~ tropopause A p t crit k q) /\ s = (tmsg, itrop, false))).
Proof.
  intros FI H HN. unfold search_step.
  destruct (FI k ltac:(lia)) as (r & h & Y & R1 & R2). rewrite R1. cbn [bind].
  destruct (nth_error p k) as [p0|] eqn:P0; [|apply nth_error_None in P0; lia].
  destruct (nth_error t k) as [t0|] eqn:T0; [|apply nth_error_None in T0; lia].
  replace (rd p (k + 1)) with (Some p0) by (rewrite Nat.add_1_r; auto).
  replace (rd t (k + 1)) with (Some t0) by (rewrite Nat.add_1_r; auto). cbn [bind].
  destruct (fltb A r crit && fltb A p0 (fc A 450 1)) eqn:C.
  2: { eexists. split; [reflexivity|]. right. split; [|reflexivity].
       intros q ((r' & h' & p0' & Y' & P0' & C1 & C2) & _). destruct (layer_fun _ _ _ _ _ Y Y') as [<- <-].
       rewrite P0 in P0'. injection P0' as <-. rewrite C1, C2 in C. discriminate. }
  apply andb_true_iff in C as [C1 C2]. cbn [negb].
  destruct (pressure_ok w n k FI H) as (q & -> & CR). cbn [bind].
  set (z := fexp A (fsub A (fln A q) (fdiv A (fmul A (fc A 2 1) (grav_const A)) t0))).
  destruct (mean_above_ok w n z FI (k + 1) (fc A 0 1) (fc A 1000000000 1) 0 ltac:(lia)) as (m & rs & M & FR & NB & TOP & E).
  rewrite E. cbn [bind].
  assert (UN : forall q', tropopause A p t crit k q' -> q' = q /\ m < k + 1 /\ fltb A (mean A rs) crit = true).
  { intros q' (_ & CR' & z' & m' & rs' & (t0' & T0' & Z) & RE & RA & ME).
    pose proof (crossing_fun _ _ _ CR CR') as <-. rewrite T0 in T0'. injection T0' as <-.
    assert (EZ : z' = z) by (rewrite Z; reflexivity). clear Z. subst z'. split; [auto|].
    destruct (Nat.eq_dec m (k + 1)) as [->|NM].
    - exfalso. destruct RE as (L & N & _). destruct TOP as [TOP|(r1 & h1 & Y1 & B)]; [lia|].
      rewrite Nat.add_sub in Y1. rewrite (N k r1 h1 ltac:(lia) Y1) in B. discriminate.
    - assert (m = m') as <-. { apply (reaches_fun z m m' k); [lia| |auto]. split; [lia|]. split; [|auto]. intros j r1 h1 J. apply NB. lia. }
      split; [lia|]. replace rs with rs'; [auto|]. apply (rates_fun m k rs' rs RA FR). }
  destruct (Nat.eqb_spec m (k + 1)) as [->|NM].
  - rewrite CRIT. cbn [negb]. eexists. split; [reflexivity|]. right. split; [|reflexivity].
    intros q' TQ. apply UN in TQ. lia.
  - cbn [plus]. fold (mean A rs). destruct (fltb A (mean A rs) crit) eqn:ME; cbn [negb]; (eexists; split; [reflexivity|]).
    + left. exists q. split; [|reflexivity]. split; [exists r, h, p0; auto|]. split; [auto|].
      exists z, m, rs. split; [exists t0; auto|]. split; [|split; auto].
      split; [lia|]. split; [|auto]. intros j r1 h1 J. apply NB. lia.
    + right. split; [|reflexivity]. intros q' TQ. apply UN in TQ. destruct TQ as (_ & _ & B). congruence.
Qed.

Lemma step_found w k s q i : rd (fst w) (k + 1) = Some s -> k < length p ->
  search_step A p t (fst w) (snd w) tmsg crit (q, i, true) (k + 1) = Some (q, i, true).
Proof.
  intros R H. unfold search_step. rewrite R. cbn [bind].
  destruct (nth_error p k) as [p0|] eqn:P0; [|apply nth_error_None in P0; lia].
  replace (rd p (k + 1)) with (Some p0) by (rewrite Nat.add_1_r; auto). cbn [bind negb].
  destruct (fltb A s crit && fltb A p0 (fc A 450 1)); reflexivity.
Qed.
Lemma rev_seq_S n : rev (seq 1 (S n)) = (n + 1) :: rev (seq 1 n).
Proof. rewrite <- (Nat.add_1_r n) at 1. rewrite seq_app, rev_app_distr. cbn [seq rev app]. f_equal. lia. Qed.
Lemma search_found w n q i : filled w n -> n < length p -> forall l, l <= n ->
  foldM (search_step A p t (fst w) (snd w) tmsg crit) (rev (seq 1 l)) (q, i, true) = Some (q, i, true).
Proof.
  intros FI HN. induction l as [|l IH]; intros Hl; [reflexivity|].
  rewrite rev_seq_S. cbn [foldM]. destruct (FI l ltac:(lia)) as (r & h & _ & R & _).
  rewrite (step_found _ _ _ _ _ R) by lia. cbn [bind]. apply IH. lia.
Qed.
Lemma search_ok w n itrop : filled w n -> n < length p -> forall l, l < n \/ l = 0 ->
  exists s, foldM (search_step A p t (fst w) (snd w) tmsg crit) (rev (seq 1 l)) (tmsg, itrop, false) = Some s /\
    ((exists k q, k < l /\ tropopause A p t crit k q /\ (forall j q', k < j < l -> ~ tropopause A p t crit j q') /\
        s = (fmax A q (fc A 85 1), Z.of_nat (k + 1), true)) \/
     ((forall j q, j < l -> ~ tropopause A p t crit j q) /\ s = (tmsg, itrop, false))).
Proof.
  intros FI HN. induction l as [|l IH]; intros Hl.
  - eexists. split; [reflexivity|]. right. split; [intros; lia|reflexivity].
  - rewrite rev_seq_S. cbn [foldM].
    destruct (step_ok w n l itrop FI ltac:(lia) HN) as (s & -> & D). cbn [bind].
    destruct D as [(q & T & ->)|(N & ->)].
    + rewrite (search_found w n) by (auto; lia). eexists. split; [reflexivity|]. left. exists l, q.
      split; [lia|]. split; [auto|]. split; [intros; lia|reflexivity].
    + destruct (IH ltac:(lia)) as (s & -> & D). eexists. split; [reflexivity|].
      destruct D as [(k & q & Hk & T & U & ->)|(U & ->)].
      * left. exists k, q. split; [lia|]. split; [auto|]. split; [|reflexivity].
        intros j q' J. destruct (Nat.eq_dec j l) as [->|NJ]; [apply N|apply U; lia].
      * right. split; [|reflexivity]. intros j q J. destruct (Nat.eq_dec j l) as [->|NJ]; [apply N|apply U; lia].
Qed.

Lemma tropopause_bound k q : tropopause A p t crit k q -> k + 2 < length p.
Proof. intros (_ & (r & h & r' & h' & _ & Y & _) & _). apply layer_bound in Y. lia. Qed.

Lemma dstattrop_ok lapse phalf : length p - 1 <= length lapse -> length p - 1 <= length phalf ->
  exists ptrop itrop work, dstattrop A p t tmsg crit lapse phalf = Some (ptrop, itrop, work) /\
    (forall k r h, layer A p t k r h -> nth_error work k = Some r) /\
    ((exists k q, first_tropopause A p t crit k q /\ ptrop = fmax A q (fc A 85 1) /\ itrop = Z.of_nat (k + 1)) \/
     ((forall k q, ~ tropopause A p t crit k q) /\ ptrop = tmsg /\ itrop = (-999)%Z)).
Proof.
  intros L1 L2. unfold dstattrop.
  destruct (Nat.eq_dec (length p) 0) as [Z|NZ].
  { rewrite Z. cbn. do 3 eexists. split; [reflexivity|]. split.
    - intros k r h Y. apply layer_bound in Y. lia.
    - right. split; [|auto]. intros k q T. apply tropopause_bound in T. lia. }
  destruct (layers_ok (length p - 1) (lapse, phalf) ltac:(lia) L1 L2) as (w & -> & FI & LF & LS). cbn [bind].
  destruct (search_ok w (length p - 1) (-999)%Z FI ltac:(lia) (length p - 2) ltac:(lia)) as (s & -> & D). cbn [bind].
  do 3 eexists. split; [reflexivity|]. split.
  { intros k r h Y. pose proof (layer_bound _ _ _ Y). destruct (FI k ltac:(lia)) as (r' & h' & Y' & R & _).
    destruct (layer_fun _ _ _ _ _ Y Y') as [<- _]. rewrite Nat.add_1_r in R. exact R. }
  destruct D as [(k & q & Hk & T & U & ->)|(U & ->)].
  - left. exists k, q. split; [|auto]. split; [auto|]. intros j q' J T'. pose proof (tropopause_bound _ _ T'). apply (U j q'); [lia|auto].
  - right. split; [|auto]. intros k q T. pose proof (tropopause_bound _ _ T). apply (U k q); [lia|auto].
Qed.
End P.
