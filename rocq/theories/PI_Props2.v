(** C82: the gridded drivers of tropical_cyclone_potential_intensity.f90. *)
From Coq Require Import Reals List Arith Lia ZArith Bool Permutation Lra.
From Verif Require SH_Proofs.
From Verif Require Import Base Buffer VH_Model VH_Proofs PI_Model PI_Model2 PI_Spec PI_Proofs1 PI_Proofs2 PI_Proofs3 PI_Proofs4 PI_Dry PI_Wit PI_Wit2 PI_Props1.
Import ListNotations.
Local Open Scope nat_scope.

(** [T] holds the column of the array [X] at the point with offset [c]: an
    array X(level, lat, lon) or X(time, level, lat, lon) in Fortran order. *)
Definition col3 (nl : nat) (X : list R) (c : nat) (T : list R) : Prop :=
  length T = nl /\ forall k, k < nl -> rd X (k + 1 + nl * c) = rd T (k + 1).
Definition col4 (nt nl : nat) (X : list R) (c : nat) (T : list R) : Prop :=
  length T = nl /\ forall k, k < nl -> rd X (c mod nt + 1 + nt * (k + nl * (c / nt))) = rd T (k + 1).

(** The point is skipped (SST at most 5 degrees C) or has the flag of the
    profile routine. *)
Definition point_flag (sst : R) (o : pi_out) (fl : option Z) : Prop :=
  ((sst - 27315 / 100 <= 5)%R -> fl = None) /\ ((5 < sst - 27315 / 100)%R -> fl = Some (o_flag o)).

(** Value [v] and flag [fl] of the point [c] are those of the profile routine
    on the column. *)
Definition plain_point (diag : bool) (nl : nat) (ofl : Z) (ckcd : R) (col : list R -> nat -> list R -> Prop)
  (g : grid) (c : nat) (v : list R) (fl : option Z) : Prop :=
  exists sst psl T r o, rd (g_sst g) (c + 1) = Some sst /\ rd (g_psl g) (c + 1) = Some psl /\
    col (g_T g) c T /\ col (g_r g) c r /\
    calculate_pi_profile_diagnostics sst psl nl (g_P g) T r nl ofl ckcd = Some o /\
    v = fields diag o /\ point_flag sst o fl.

Definition missing_at (t q : R) : Prop := t = UNDEF \/ q = UNDEF.
(** a level as the profile routine gets it: missing levels above the first
    valid one arrive as the missing value itself, not as absent *)
Definition sent_T (t q t' : R) : Prop := (~ missing_at t q -> t' = t) /\ (missing_at t q -> t' = UNDEF + 27315 / 100)%R.
Definition sent_r (t q q' : R) : Prop := (~ missing_at t q -> q' = q) /\ (missing_at t q -> q' = UNDEF / 1000)%R.

(** With missing values: nothing if the SST or every level is missing;
    otherwise the profile routine on the levels from the first valid one. *)
Definition missing_point (diag : bool) (nl : nat) (ofl : Z) (ckcd : R) (col : list R -> nat -> list R -> Prop)
  (g : grid) (c : nat) (v : list R) (fl : option Z) : Prop :=
  exists sst psl T r, rd (g_sst g) (c + 1) = Some sst /\ rd (g_psl g) (c + 1) = Some psl /\
    col (g_T g) c T /\ col (g_r g) c r /\
    ((sst = UNDEF \/ forall k, 1 <= k <= nl -> missing_at (lev T k) (lev r k)) /\
       v = repeat UNDEF (if diag then 7 else 2) /\ fl = None \/
     sst <> UNDEF /\ exists s T' r' o, s < nl /\
       (forall k, 1 <= k <= s -> missing_at (lev T k) (lev r k)) /\ ~ missing_at (lev T (s + 1)) (lev r (s + 1)) /\
       length T' = nl - s /\ length r' = nl - s /\
       (forall k, 1 <= k <= nl - s -> sent_T (lev T (s + k)) (lev r (s + k)) (lev T' k) /\ sent_r (lev T (s + k)) (lev r (s + k)) (lev r' k)) /\
       calculate_pi_profile_diagnostics sst psl (nl - s) (skipn s (g_P g)) T' r' (nl - s) ofl ckcd = Some o /\
       v = fields diag o /\ point_flag sst o fl).

(** Every point gets its value whatever the order and the previous contents,
    and the flag is 1 exactly when no computed point failed. *)
Definition grid_result (N : nat) (pt : nat -> list R -> option Z -> Prop) (out' : list (list R)) (fl : nat -> option Z) : Prop :=
  length out' = N /\ forall c, c < N -> exists v, rd out' (c + 1) = Some v /\ pt c v (fl c).
Definition all_fine (N : nat) (fl : nat -> option Z) : Prop := forall c f, c < N -> fl c = Some f -> f = 1%Z.

Lemma rle_flag sst o fl : fl = (if rle (to_C sst) 5 then None else Some (o_flag o)) -> point_flag sst o fl.
Proof.
  intros ->. unfold point_flag. destruct (rle_spec (to_C sst) 5) as [A|A]; unfold to_C in A; split; intros; auto; lra.
Qed.

Lemma valid_missing t q : (valid_level (t, q) = true <-> ~ missing_at t q) /\ (valid_level (t, q) = false <-> missing_at t q).
Proof.
  unfold valid_level, missing_at. cbn [fst snd]. destruct (req_spec t UNDEF), (req_spec q UNDEF); cbn; split; split; intros; try discriminate; tauto.
Qed.

Lemma lev_combine (T r : list R) : forall n, length T = n -> length r = n -> forall k, 1 <= k <= n ->
  rd (combine T r) k = Some (lev T k, lev r k).
Proof.
  intros n L1 L2 k K. unfold rd, lev. destruct k as [|k]; [lia|]. replace (S k - 1) with k by lia.
  revert r n k L1 L2 K. induction T as [|t T IH]; intros [|q r] n k L1 L2 K; cbn in L1, L2; try lia.
  destruct k as [|k]; [auto|]. cbn. apply (IH r (n - 1)); lia.
Qed.

Lemma plain_point_ok diag nl ofl ckcd colf (col : list R -> nat -> list R -> Prop) g c v : 1 <= nl ->
  (forall X c T, colf X c = Some T -> col X c T) ->
  point (plain_cell diag ofl ckcd nl) colf g c = Some v -> plain_point diag nl ofl ckcd col g c (fst v) (snd v).
Proof.
  intros N HC H. unfold point in H. bnd H sst Es. bnd H psl Ep. bnd H T ET. bnd H r Er. destruct v as [v fl].
  apply plain_cell_profile in H; auto. destruct H as (o & Ho & Hv & Hf).
  exists sst, psl, T, r, o. repeat (split; [auto; fail|]). apply rle_flag. auto.
Qed.

Lemma missing_point_ok diag nl ofl ckcd colf (col : list R -> nat -> list R -> Prop) g c v :
  (forall X c T, colf X c = Some T -> col X c T) -> (forall X c T, col X c T -> length T = nl) ->
  point (missing_cell diag ofl ckcd nl) colf g c = Some v -> missing_point diag nl ofl ckcd col g c (fst v) (snd v).
Proof.
  intros HC HL H. unfold point in H. bnd H sst Es. bnd H psl Ep. bnd H T ET. bnd H r Er. destruct v as [v fl]. cbn [fst snd].
  apply HC in ET, Er. assert (LT := HL _ _ _ ET). assert (Lr := HL _ _ _ Er).
  assert (LC := lev_combine T r nl LT Lr).
  exists sst, psl, T, r. repeat (split; [auto; fail|]).
  apply missing_cell_cases in H; auto. destruct H as [(D & -> & ->)|(Ns & a & tr & b & o & Ec & Ba & Bt & Ho & Hv & Hf)].
  - left. split; [|auto]. destruct D as [D|D]; [auto|right]. intros k K. specialize (LC k K).
    rewrite forallb_forall in D. apply (proj2 (valid_missing _ _)).
    assert (I : In (lev T k, lev r k) (combine T r)).
    { destruct k as [|k]; [lia|]. cbn in LC. eapply nth_error_In; eauto. }
    apply D in I. apply negb_true_iff. auto.
  - right. split; [auto|]. assert (Lc : length (combine T r) = nl) by (rewrite combine_length; lia).
    assert (La : length a + S (length b) = nl) by (rewrite Ec, app_length in Lc; cbn in Lc; lia).
    assert (RA : forall k, 1 <= k <= length a -> rd a k = Some (lev T k, lev r k)).
    { intros k K. rewrite <- LC by lia. rewrite Ec. destruct k as [|k]; [lia|]. cbn. rewrite nth_error_app1 by lia. auto. }
    assert (RB : forall k, 1 <= k <= nl - length a -> rd (tr :: b) k = Some (lev T (length a + k), lev r (length a + k))).
    { intros k K. rewrite <- LC by lia. rewrite Ec. destruct k as [|k]; [lia|].
      replace (length a + S k) with (S (length a + k)) by lia. cbn [rd]. rewrite nth_error_app2 by lia.
      replace (length a + k - length a) with k by lia. auto. }
    exists (length a), (map filled_T (tr :: b)), (map filled_r (tr :: b)), o. split; [lia|]. split; [|split].
    + intros k K. specialize (RA k K). rewrite forallb_forall in Ba. apply (proj2 (valid_missing _ _)).
      assert (I : In (lev T k, lev r k) a). { destruct k as [|k]; [lia|]. cbn in RA. eapply nth_error_In; eauto. }
      apply Ba in I. apply negb_true_iff. auto.
    + assert (Et : Some tr = Some (lev T (length a + 1), lev r (length a + 1))) by (rewrite <- (RB 1) by lia; auto).
      assert (Et' : tr = (lev T (length a + 1), lev r (length a + 1))) by congruence.
      apply (proj1 (valid_missing _ _)). rewrite <- Et'. auto.
    + split; [rewrite map_length; cbn; lia|]. split; [rewrite map_length; cbn; lia|]. split.
      * intros k K. assert (QT : rd (map filled_T (tr :: b)) k = Some (filled_T (lev T (length a + k), lev r (length a + k)))).
        { rewrite rd_map, RB by auto. auto. }
        assert (Qr : rd (map filled_r (tr :: b)) k = Some (filled_r (lev T (length a + k), lev r (length a + k)))).
        { rewrite rd_map, RB by auto. auto. }
        apply rd_lev in QT, Qr. destruct QT as [-> _], Qr as [-> _]. unfold filled_T, filled_r, sent_T, sent_r. cbn [fst snd].
        destruct (valid_level (lev T (length a + k), lev r (length a + k))) eqn:V.
        -- apply (proj1 (valid_missing _ _)) in V. split; split; intros; auto; contradiction.
        -- apply (proj2 (valid_missing _ _)) in V. split; split; intros; auto; contradiction.
      * split; [exact Ho|]. split; [auto|]. apply rle_flag. auto.
Qed.

Lemma grid_fail_ok (cell : nat -> option (list R * option Z)) (pt : nat -> list R -> option Z -> Prop) N order out out' flag :
  Permutation order (seq 0 N) -> length out = N ->
  (forall c v, cell c = Some v -> pt c (fst v) (snd v)) ->
  grid_loop flag_fail cell order out 1 = Some (out', flag) ->
  exists fl, grid_result N pt out' fl /\ (flag = 1%Z <-> all_fine N fl).
Proof.
  intros P L HP H. assert (ND : NoDup order) by (eapply Permutation_NoDup; [apply Permutation_sym; eauto|apply seq_NoDup]).
  assert (IN : forall c, In c order <-> c < N).
  { intros c. split; intros I.
    - apply (Permutation_in _ P) in I. apply in_seq in I. lia.
    - apply (Permutation_in _ (Permutation_sym P)). apply in_seq. lia. }
  destruct (grid_loop_some _ _ _ _ _ _ _ ND H) as (L' & val & V & _ & ->).
  exists (fun c => snd (val c)). split.
  - split; [lia|]. intros c C. apply IN in C. destruct (V c C) as [V1 V2]. exists (fst (val c)). split; [auto|]. apply HP. auto.
  - rewrite flag_fail_fold. split.
    + intros [A _] c f C Q. apply A. rewrite <- Q. apply in_map_iff. exists c. split; [auto|]. apply IN. auto.
    + intros A. split; [|auto]. intros f I. apply in_map_iff in I. destruct I as (c & Q & I). apply (A c); auto. apply IN. auto.
Qed.

(** * The routines *)

Theorem C82_gridded_diagnostics : forall order nlat nlon nl g out ofl ckcd out' flag lnck, 1 <= nl -> (0 < ckcd)%R ->
  Permutation order (seq 0 (nlat * nlon)) -> length out = nlat * nlon ->
  calculate_pi_gridded_diagnostics order nl g out ofl ckcd = Some (out', flag, lnck) ->
  (exists fl, grid_result (nlat * nlon) (plain_point true nl ofl ckcd (col3 nl) g) out' fl /\ (flag = 1%Z <-> all_fine (nlat * nlon) fl)) /\
  lnck = ln ckcd.
Proof.
  intros order nlat nlon nl g out ofl ckcd out' flag lnck N HK P L H. unfold calculate_pi_gridded_diagnostics in H.
  destruct (rlt_spec 0 ckcd); [|contradiction]. bnd H st Est. injection H as -> <-. split.
  - refine (grid_fail_ok _ _ _ _ _ _ _ P L _ Est). intros c v Hv. eapply plain_point_ok; [auto| |exact Hv]. apply column3_some.
  - unfold lnckcd_out. destruct (rlt_spec 0 ckcd); [auto|contradiction].
Qed.

Theorem C82_gridded_diagnostics_with_missing : forall order nlat nlon nl g out ofl ckcd out' flag lnck,
  Permutation order (seq 0 (nlat * nlon)) -> length out = nlat * nlon ->
  calculate_pi_gridded_diagnostics_with_missing order nl g out ofl ckcd = Some (out', flag, lnck) ->
  (exists fl, grid_result (nlat * nlon) (missing_point true nl ofl ckcd (col3 nl) g) out' fl /\ (flag = 1%Z <-> all_fine (nlat * nlon) fl)) /\
  ((0 < ckcd)%R -> lnck = ln ckcd).
Proof.
  intros order nlat nlon nl g out ofl ckcd out' flag lnck P L H. unfold calculate_pi_gridded_diagnostics_with_missing in H.
  bnd H st Est. injection H as -> <-. split.
  - refine (grid_fail_ok _ _ _ _ _ _ _ P L _ Est). intros c v Hv. eapply missing_point_ok; [| |exact Hv]; [apply column3_some|intros X d T [Q _]; auto].
  - intros HK. unfold lnckcd_out. destruct (rlt_spec 0 ckcd); [auto|contradiction].
Qed.

Theorem C82_4d_data : forall order nt nlat nlon nl g out out' flag, 1 <= nl ->
  Permutation order (seq 0 (nt * nlat * nlon)) -> length out = nt * nlat * nlon ->
  calculate_pi_4d_data order nt nl g out = Some (out', flag) ->
  exists fl, grid_result (nt * nlat * nlon) (plain_point false nl 0 (9 / 10) (col4 nt nl) g) out' fl /\
    (flag = 1%Z <-> all_fine (nt * nlat * nlon) fl).
Proof.
  intros order nt nlat nlon nl g out out' flag N P L H. refine (grid_fail_ok _ _ _ _ _ _ _ P L _ H).
  intros c v Hv. eapply plain_point_ok; [auto| |exact Hv]. apply column4_some.
Qed.

Theorem C82_4d_diagnostics : forall order nt nlat nlon nl g out ofl ckcd out' flag lnck, 1 <= nl ->
  Permutation order (seq 0 (nt * nlat * nlon)) -> length out = nt * nlat * nlon ->
  calculate_pi_4d_diagnostics order nt nl g out ofl ckcd = Some (out', flag, lnck) ->
  (exists fl, grid_result (nt * nlat * nlon) (plain_point true nl ofl ckcd (col4 nt nl) g) out' fl /\ (flag = 1%Z <-> all_fine (nt * nlat * nlon) fl)) /\
  ((0 < ckcd)%R -> lnck = ln ckcd).
Proof.
  intros order nt nlat nlon nl g out ofl ckcd out' flag lnck N P L H. unfold calculate_pi_4d_diagnostics in H.
  bnd H st Est. injection H as -> <-. split.
  - refine (grid_fail_ok _ _ _ _ _ _ _ P L _ Est). intros c v Hv. eapply plain_point_ok; [auto| |exact Hv]. apply column4_some.
  - intros HK. unfold lnckcd_out. destruct (rlt_spec 0 ckcd); [auto|contradiction].
Qed.

Theorem C82_4d_with_missing : forall order nt nlat nlon nl g out out' flag,
  Permutation order (seq 0 (nt * nlat * nlon)) -> length out = nt * nlat * nlon ->
  calculate_pi_4d_with_missing order nt nl g out = Some (out', flag) ->
  exists fl, grid_result (nt * nlat * nlon) (missing_point false nl 0 (9 / 10) (col4 nt nl) g) out' fl /\
    (flag = 1%Z <-> all_fine (nt * nlat * nlon) fl).
Proof.
  intros order nt nlat nlon nl g out out' flag P L H. refine (grid_fail_ok _ _ _ _ _ _ _ P L _ H).
  intros c v Hv. eapply missing_point_ok; [| |exact Hv]; [apply column4_some|intros X d T [Q _]; auto].
Qed.

Theorem C82_4d_diagnostics_with_missing : forall order nt nlat nlon nl g out ofl ckcd out' flag lnck,
  Permutation order (seq 0 (nt * nlat * nlon)) -> length out = nt * nlat * nlon ->
  calculate_pi_4d_diagnostics_with_missing order nt nl g out ofl ckcd = Some (out', flag, lnck) ->
  (exists fl, grid_result (nt * nlat * nlon) (missing_point true nl ofl ckcd (col4 nt nl) g) out' fl /\ (flag = 1%Z <-> all_fine (nt * nlat * nlon) fl)) /\
  ((0 < ckcd)%R -> lnck = ln ckcd).
Proof.
  intros order nt nlat nlon nl g out ofl ckcd out' flag lnck P L H. unfold calculate_pi_4d_diagnostics_with_missing in H.
  bnd H st Est. injection H as -> <-. split.
  - refine (grid_fail_ok _ _ _ _ _ _ _ P L _ Est). intros c v Hv. eapply missing_point_ok; [| |exact Hv]; [apply column4_some|intros X d T [Q _]; auto].
  - intros HK. unfold lnckcd_out. destruct (rlt_spec 0 ckcd); [auto|contradiction].
Qed.

(** The two sequential routines: the values are right, the flag is that of the
    last computed point only. *)
Definition last_flag (N : nat) (fl : nat -> option Z) (start flag : Z) : Prop :=
  (exists c, c < N /\ fl c = Some flag /\ forall d, c < d < N -> fl d = None) \/
  ((forall c, c < N -> fl c = None) /\ flag = start).

Lemma fold_last : forall N fl z, last_flag N fl z (fold_left flag_last (map fl (seq 0 N)) z).
Proof.
  induction N as [|N IH]; intros fl z; [right; split; [intros; lia|auto]|].
  rewrite seq_S, map_app, fold_left_app. cbn [map fold_left plus]. unfold flag_last at 1. destruct (fl N) as [f|] eqn:F.
  - left. exists N. split; [lia|]. split; [auto|]. intros; lia.
  - destruct (IH fl z) as [(c & C & Q & D)|[A B]].
    + left. exists c. split; [lia|]. split; [auto|]. intros d D'. destruct (Nat.eq_dec d N) as [->|]; [auto|apply D; lia].
    + right. split; [|auto]. intros c C. destruct (Nat.eq_dec c N) as [->|]; [auto|apply A; lia].
Qed.

Lemma grid_last_ok (cell : nat -> option (list R * option Z)) (pt : nat -> list R -> option Z -> Prop) N out out' flag z :
  length out = N -> (forall c v, cell c = Some v -> pt c (fst v) (snd v)) ->
  grid_loop flag_last cell (seq 0 N) out z = Some (out', flag) ->
  exists fl, grid_result N pt out' fl /\ last_flag N fl z flag.
Proof.
  intros L HP H. destruct (grid_loop_some _ _ _ _ _ _ _ (seq_NoDup _ _) H) as (L' & val & V & _ & ->).
  exists (fun c => snd (val c)). split; [|apply (fold_last N (fun c => snd (val c)))].
  split; [lia|]. intros c C. destruct (V c) as [V1 V2]; [apply in_seq; lia|]. exists (fst (val c)). split; [auto|]. apply HP. auto.
Qed.

Theorem C82_gridded_data_partial : forall nlat nlon nl g out flag0 out' flag, 1 <= nl -> length out = nlat * nlon ->
  calculate_pi_gridded_data nlat nlon nl g out flag0 = Some (out', flag) ->
  exists fl, grid_result (nlat * nlon) (plain_point false nl 0 (9 / 10) (col3 nl) g) out' fl /\ last_flag (nlat * nlon) fl flag0 flag.
Proof.
  intros nlat nlon nl g out flag0 out' flag N L H. unfold calculate_pi_gridded_data in H. rewrite order3_seq in H.
  refine (grid_last_ok _ _ _ _ _ _ _ L _ H). intros c v Hv. eapply plain_point_ok; [auto| |exact Hv]. apply column3_some.
Qed.

Theorem C82_gridded_with_missing_partial : forall nlat nlon nl g out out' flag, length out = nlat * nlon ->
  calculate_pi_gridded_with_missing nlat nlon nl g out = Some (out', flag) ->
  exists fl, grid_result (nlat * nlon) (missing_point false nl 0 (9 / 10) (col3 nl) g) out' fl /\ last_flag (nlat * nlon) fl 1 flag.
Proof.
  intros nlat nlon nl g out out' flag L H. unfold calculate_pi_gridded_with_missing in H. rewrite order3_seq in H.
  refine (grid_last_ok _ _ _ _ _ _ _ L _ H). intros c v Hv. eapply missing_point_ok; [| |exact Hv]; [apply column3_some|intros X d T [Q _]; auto].
Qed.

(** The sequential orders of the code are among the orders above. *)
Theorem C82_orders : forall nt nlat nlon,
  order3 nlat nlon = seq 0 (nlat * nlon) /\ order4 nt nlat nlon = seq 0 (nt * nlat * nlon).
Proof. split; [apply order3_seq|apply order4_seq]. Qed.

(** The outputs do not depend on the order or on the previous contents. *)
Theorem C82_schedule : forall (cell : nat -> option (list R * option Z)) N order order' out1 out2 r1 r2 f1 f2,
  Permutation order (seq 0 N) -> Permutation order' (seq 0 N) -> length out1 = N -> length out2 = N ->
  grid_loop flag_fail cell order out1 1 = Some (r1, f1) -> grid_loop flag_fail cell order' out2 1 = Some (r2, f2) ->
  r1 = r2 /\ (f1 = 1%Z <-> f2 = 1%Z).
Proof.
  intros cell N order order' out1 out2 r1 r2 f1 f2 P P' L1 L2 H1 H2.
  destruct (grid_fail_ok cell (fun c v fl => cell c = Some (v, fl)) N order out1 r1 f1 P L1) as (fl1 & [G1 G1'] & F1); auto.
  { intros c [v fl]; auto. }
  destruct (grid_fail_ok cell (fun c v fl => cell c = Some (v, fl)) N order' out2 r2 f2 P' L2) as (fl2 & [G2 G2'] & F2); auto.
  { intros c [v fl]; auto. }
  assert (FE : forall c, c < N -> fl1 c = fl2 c /\ rd r1 (c + 1) = rd r2 (c + 1)).
  { intros c C. destruct (G1' c C) as (v1 & A1 & B1), (G2' c C) as (v2 & A2 & B2). rewrite B1 in B2. injection B2 as <- <-. rewrite A1, A2. auto. }
  split.
  - apply SH_Proofs.nth_error_ext_all. intros i. destruct (Nat.lt_ge_cases i N) as [I|I].
    + destruct (FE i I) as [_ Q]. rewrite Nat.add_1_r in Q. exact Q.
    + rewrite !(proj2 (nth_error_None _ _)) by lia. auto.
  - rewrite F1, F2. unfold all_fine. split; intros A c f C Q; apply (A c); auto; destruct (FE c C) as [E1 _]; congruence.
Qed.

(** On complete data the routines with and without missing-value handling agree. *)
Lemma column_complete (f : nat -> nat) X n T : ~ In UNDEF X -> mapM (fun k => rd X (f k)) (seq 1 n) = Some T -> ~ In UNDEF T.
Proof.
  intros H M I. destruct (mapM_seq_rd _ _ _ _ M) as [L Q]. apply In_nth_error in I. destruct I as [k K].
  assert (B : k < length T) by (apply nth_error_Some; congruence). specialize (Q (k + 1) ltac:(lia)).
  rewrite Nat.add_1_r in Q. cbn [rd] in Q. rewrite K in Q.
  apply H. destruct (f (S k)) as [|j]; [discriminate|]. cbn in Q. eapply nth_error_In. symmetry. exact Q.
Qed.

Lemma complete_point diag ofl ckcd nl (f : nat -> nat -> nat) g c : 1 <= nl ->
  ~ In UNDEF (g_sst g) -> ~ In UNDEF (g_T g) -> ~ In UNDEF (g_r g) ->
  let col X c := mapM (fun k => rd X (f c k)) (seq 1 nl) in
  point (missing_cell diag ofl ckcd nl) col g c = point (plain_cell diag ofl ckcd nl) col g c.
Proof.
  intros N H1 H2 H3 col. unfold point. destruct (rd (g_sst g) (c + 1)) as [sst|] eqn:Es; cbn [bind]; [|auto].
  destruct (rd (g_psl g) (c + 1)) as [psl|]; cbn [bind]; [|auto].
  destruct (col (g_T g) c) as [T|] eqn:ET; cbn [bind]; [|auto]. destruct (col (g_r g) c) as [r|] eqn:Er; cbn [bind]; [|auto].
  apply missing_plain; auto.
  - destruct (mapM_seq_rd _ _ _ _ ET); auto.
  - destruct (mapM_seq_rd _ _ _ _ Er); auto.
  - intros ->. apply H1. rewrite Nat.add_1_r in Es. cbn in Es. eapply nth_error_In; eauto.
  - exact (column_complete (f c) _ _ _ H2 ET).
  - exact (column_complete (f c) _ _ _ H3 Er).
Qed.

Theorem C82_complete : forall nlat nlon nt nl g out order ofl ckcd, 1 <= nl ->
  ~ In UNDEF (g_sst g) -> ~ In UNDEF (g_T g) -> ~ In UNDEF (g_r g) ->
  calculate_pi_gridded_with_missing nlat nlon nl g out = calculate_pi_gridded_data nlat nlon nl g out 1 /\
  calculate_pi_4d_with_missing order nt nl g out = calculate_pi_4d_data order nt nl g out /\
  calculate_pi_4d_diagnostics_with_missing order nt nl g out ofl ckcd = calculate_pi_4d_diagnostics order nt nl g out ofl ckcd /\
  ((0 < ckcd)%R ->
   calculate_pi_gridded_diagnostics_with_missing order nl g out ofl ckcd = calculate_pi_gridded_diagnostics order nl g out ofl ckcd).
Proof.
  intros nlat nlon nt nl g out order ofl ckcd N H1 H2 H3. split; [|split; [|split]].
  - unfold calculate_pi_gridded_with_missing, calculate_pi_gridded_data. apply grid_loop_ext. intros c _.
    apply (complete_point false 0 (9 / 10) nl (fun c k => k + nl * c) g c); auto.
  - unfold calculate_pi_4d_with_missing, calculate_pi_4d_data. apply grid_loop_ext. intros c _.
    apply (complete_point false 0 (9 / 10) nl (fun c k => c mod nt + 1 + nt * (k - 1 + nl * (c / nt))) g c); auto.
  - unfold calculate_pi_4d_diagnostics_with_missing, calculate_pi_4d_diagnostics. erewrite grid_loop_ext; [reflexivity|]. intros c _.
    apply (complete_point true ofl ckcd nl (fun c k => c mod nt + 1 + nt * (k - 1 + nl * (c / nt))) g c); auto.
  - intros HK. unfold calculate_pi_gridded_diagnostics_with_missing, calculate_pi_gridded_diagnostics.
    destruct (rlt_spec 0 ckcd); [|contradiction]. erewrite grid_loop_ext; [reflexivity|]. intros c _.
    apply (complete_point true ofl ckcd nl (fun c k => k + nl * c) g c); auto.
Qed.

Print Assumptions C82_gridded_diagnostics.
Print Assumptions C82_gridded_diagnostics_with_missing.
Print Assumptions C82_4d_data.
Print Assumptions C82_4d_diagnostics.
Print Assumptions C82_4d_with_missing.
Print Assumptions C82_4d_diagnostics_with_missing.
Print Assumptions C82_gridded_data_partial.
Print Assumptions C82_gridded_with_missing_partial.
Print Assumptions C82_orders.
Print Assumptions C82_schedule.
Print Assumptions C82_complete.
