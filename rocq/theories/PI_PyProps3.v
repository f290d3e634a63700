(** C83, continued: missing values. *)
From Coq Require Import Reals List Arith Lia ZArith Bool Permutation Lra String.
From Verif Require SH_Proofs.
From Verif Require Import Base Buffer VH_Model VH_Proofs PI_Model PI_Model2 PI_Spec PI_Proofs1 PI_Proofs2 PI_Proofs3 PI_Proofs4 PI_Props2 PI_Py PI_PySpec PI_PyProofs PI_PyProofs2 PI_PyProps PI_PyProps2.
Import ListNotations.
Local Open Scope nat_scope.

(** ** The missing-value code in the outputs *)
Theorem C83_outputs : forall x,
  (post x = None <-> (Rabs (x - UNDEF) <= 1 / 100000000 + 1 / 100000 * Rabs UNDEF)%R) /\
  post UNDEF = None /\
  ((- 9 * 10 ^ 33 <= x)%R -> post x = Some x).
Proof.
  intros x. assert (A : Rabs UNDEF = (- UNDEF)%R) by (apply Rabs_left; unfold UNDEF; lra).
  unfold post, near_undef. split; [|split].
  - destruct (rle_spec (Rabs (x - UNDEF)) (1 / 100000000 + 1 / 100000 * Rabs UNDEF)); split; auto; try discriminate; contradiction.
  - destruct (rle_spec (Rabs (UNDEF - UNDEF)) (1 / 100000000 + 1 / 100000 * Rabs UNDEF)) as [|B]; auto. exfalso. apply B. rewrite A.
    replace (UNDEF - UNDEF)%R with 0%R by ring. rewrite Rabs_R0. unfold UNDEF. lra.
  - intros H. destruct (rle_spec (Rabs (x - UNDEF)) (1 / 100000000 + 1 / 100000 * Rabs UNDEF)) as [B|]; auto. exfalso. rewrite A in B.
    rewrite Rabs_right in B; unfold UNDEF in *; lra.
Qed.

(** a level without temperature or humidity *)
Definition absent (x : option R) : Prop := x = None \/ x = Some UNDEF.
Definition absent_level (Tc rc : list (option R)) (k : nat) : Prop :=
  (exists x, nth_error Tc k = Some x /\ absent x) \/ (exists x, nth_error rc k = Some x /\ absent x).
(** numbers, listed from the surface up *)
Definition surface_first (P : list (option R)) : Prop :=
  complete P /\ forall k k' a b, k < k' -> nth_error P k = Some (Some a) -> nth_error P k' = Some (Some b) -> (b < a)%R.

Lemma surface_not_upside P m : surface_first P -> upside_down (map nan_undef (skipn m P)) = false.
Proof.
  intros [C D]. unfold upside_down. rewrite map_length. set (Q := skipn m P).
  assert (SK : forall k, nth_error Q k = nth_error P (m + k)).
  { intros k. unfold Q. revert P C D Q k. induction m as [|m IH]; intros P C D Q k; [auto|]. destruct P as [|x P]; [cbn; destruct k; auto|].
    cbn [skipn plus nth_error]. apply IH.
    - intros y I. apply C. right. auto.
    - intros i i' a b L E1 E2. apply (D (S i) (S i') a b); auto. lia. }
  destruct (nth_error (map nan_undef Q) 0) as [a|] eqn:A; [|auto]. destruct (nth_error (map nan_undef Q) (List.length Q - 1)) as [b|] eqn:B; [|auto].
  rewrite nth_error_map, SK in A, B. destruct (Nat.ltb_spec 1 (List.length Q)) as [L|L]; [|auto]. cbn [andb].
  destruct (nth_error P (m + 0)) as [x|] eqn:X; [|discriminate]. destruct (nth_error P (m + (List.length Q - 1))) as [y|] eqn:Y; [|discriminate].
  destruct (C x (nth_error_In _ _ X)) as (u & -> & _). destruct (C y (nth_error_In _ _ Y)) as (w & -> & _). cbn in A, B. injection A as <-. injection B as <-.
  assert (Z := D (m + 0) (m + (List.length Q - 1)) u w ltac:(lia) X Y). destruct (rlt_spec u w); [lra|auto].
Qed.
Lemma missing_complete X : has_missing X = false -> complete X.
Proof.
  intros H x I. destruct x as [v|].
  - exists v. split; auto. intros ->. assert (E : has_missing X = true); [|congruence]. apply existsb_exists. exists (Some UNDEF). split; auto. cbn. destruct (req_spec UNDEF UNDEF); auto.
  - assert (E : has_missing X = true); [|congruence]. apply existsb_exists. exists None. auto.
Qed.
Lemma lev_nan (c : list (option R)) k x : nth_error c k = Some x -> lev (map nan_undef c) (k + 1) = nan_undef x.
Proof. intros H. unfold lev. replace (k + 1 - 1) with k by lia. apply nth_error_nth. rewrite nth_error_map, H. auto. Qed.
Lemma absent_undef x : absent x <-> nan_undef x = UNDEF.
Proof. unfold absent. destruct x as [v|]; cbn; split; intros H; auto. - destruct H as [H|H]; congruence. - right. congruence. Qed.
Lemma absent_missing Tc rc nl k : List.length Tc = nl -> List.length rc = nl -> k < nl ->
  (absent_level Tc rc k <-> missing_at (lev (map nan_undef Tc) (k + 1)) (lev (map nan_undef rc) (k + 1))).
Proof.
  intros L1 L2 K. destruct (nth_error Tc k) as [x|] eqn:X; [|apply nth_error_None in X; lia]. destruct (nth_error rc k) as [y|] eqn:Y; [|apply nth_error_None in Y; lia].
  rewrite (lev_nan _ _ _ X), (lev_nan _ _ _ Y). unfold missing_at, absent_level. rewrite X, Y. rewrite <- !absent_undef. split.
  - intros [(z & E & Z)|(z & E & Z)]; injection E as ->; auto.
  - intros [Z|Z]; [left|right]; eauto.
Qed.
Lemma nth_skipn {A} (l : list A) m k : nth_error (skipn m l) k = nth_error l (m + k).
Proof. revert l. induction m as [|m IH]; intros l; [auto|]. destruct l; [cbn; destruct k; auto|]. cbn. apply IH. Qed.

Section Calls.
Variables (sched : nat -> list nat) (junk : nat -> list (list R)) (flag0 : Z).
Hypothesis HJ : forall N, List.length (junk N) = N.
Hypothesis HSch : forall N, Permutation (sched N) (seq 0 N).
Notation call := (pi_call sched junk flag0).

Lemma undef_row (d : bool) y : In y (map post (repeat UNDEF (if d then 7 else 2))) -> y = None.
Proof. intros I. apply in_map_iff in I. destruct I as (z & <- & I). apply repeat_spec in I. subst. apply (C83_outputs 0). Qed.

Lemma missing_value four nt nl a b diag sst psl P T r actual x : sh T = full_shape four nt nl a b -> (four = false -> nt = 0) -> 1 <= nl ->
  wf T -> wf r -> surface_first P ->
  (match diag with Some (_, ck) => four = true \/ (0 < ck)%R | None => True end) ->
  call diag sst psl P T r actual = Some (Ret x) ->
  sh (r_val x) = point_shape four nt a b /\
  forall c, c < npoints four nt a b -> forall Tc rc,
    colG (stride four nt) nl (dat T) (pos_t four nt c) (pos_z four nt c) Tc -> colG (stride four nt) nl (dat r) (pos_t four nt c) (pos_z four nt c) rc ->
    (nth_error (dat sst) c = Some None \/ (forall k, k < nl -> absent_level Tc rc k) ->
       exists v, nth_error (dat (r_val x)) c = Some v /\ forall y, In y v -> y = None) /\
    (forall s p m, nth_error (dat sst) c = Some (Some s) -> s <> UNDEF -> nth_error (dat psl) c = Some (Some p) -> m < nl ->
       (forall k, k < m -> absent_level Tc rc k) -> (forall k, m <= k < nl -> ~ absent_level Tc rc k) ->
       exists y, call diag (scalar (Some s)) (scalar (Some p)) (skipn m P) (vec (skipn m Tc)) (vec (skipn m rc)) None = Some (Ret y) /\
         nth_error (dat (r_val x)) c = elt (r_val y) []).
Proof.
  intros ST HN N WT Wr SF HK H.
  destruct (grid_open sched junk flag0 _ _ _ _ _ _ _ _ _ _ _ _ _ ST HN H) as (ofl & ck & zd & vals & fl & lk & H1 & H2 & H3 & Sr & LP & S1 & S2 & HR & EV).
  destruct (existsb has_missing [dat sst; dat psl; P; dat T; dat r]) eqn:M.
  - rewrite EV. split; [auto|]. intros c HC Tc rc KT Kr. cbn [dat sh].
    cbv zeta in HR. set (P0 := map nan_undef P) in *.
    destruct (run_missing sched junk flag0 HJ HSch four zd ofl ck nt nl a b _ vals fl lk H2 HR) as (f & LV & GP).
    destruct (GP c HC) as (v & Ev & s' & p' & T1 & r1 & Es & Ep & K1 & K2 & D). cbn [g_sst g_psl g_P g_T g_r] in *.
    rewrite Nat.add_1_r in Es, Ep, Ev. cbn [rd] in Es, Ep, Ev.
    assert (UD : upside_down P0 = false) by (unfold P0; rewrite <- (surface_not_upside P 0 SF); auto).
    unfold ord, handed in *. rewrite UD in *.
    apply pcol_G in K1, K2. assert (E1 := colG_unique _ _ _ _ _ _ _ K1 (colG_map nan_undef _ _ _ _ _ _ KT)).
    assert (E2 := colG_unique _ _ _ _ _ _ _ K2 (colG_map nan_undef _ _ _ _ _ _ Kr)). subst T1 r1.
    destruct KT as [LT _], Kr as [Lr _].
    assert (AM : forall k, k < nl -> (absent_level Tc rc k <-> missing_at (lev (map nan_undef Tc) (k + 1)) (lev (map nan_undef rc) (k + 1)))) by (intros; apply absent_missing with (nl := nl); auto).
    split.
    + intros Ab. destruct D as [(_ & -> & _)|(Ns & s0 & T' & r' & o & Hs0 & Ms & Ml & _)].
      * eexists. split; [rewrite nth_error_map, Ev; reflexivity|]. apply undef_row.
      * exfalso. destruct Ab as [Ab|Ab].
        -- apply Ns. rewrite nth_error_map, Ab in Es. cbn in Es. congruence.
        -- apply Ml. apply AM; auto.
    + intros s p m Q1 Q2 Q3 Q4 Q5 Q6. rewrite nth_error_map, Q1 in Es. rewrite nth_error_map, Q3 in Ep. cbn in Es, Ep. injection Es as <-. injection Ep as <-.
      destruct D as [([D|D] & _)|(Ns & s0 & T' & r' & o & Hs0 & Ms & Ml & LT' & Lr' & St & Ho & -> & _)].
      * contradiction.
      * exfalso. apply (Q6 m); [lia|]. apply AM; auto. apply D. lia.
      * assert (s0 = m).
        { destruct (Nat.lt_trichotomy s0 m) as [L|[L|L]]; auto; exfalso.
          - apply Ml. apply AM; auto.
          - apply (Q6 m); [lia|]. apply AM; auto. apply Ms. lia. }
        subst s0.
        assert (ET : T' = map nan_undef (skipn m Tc)).
        { apply SH_Proofs.nth_error_ext_all. intros k. destruct (Nat.lt_ge_cases k (nl - m)) as [K|K].
          - destruct (St (k + 1) ltac:(lia)) as [S _]. destruct S as [S _]. replace (m + (k + 1)) with (m + k + 1) in S by lia.
            assert (V : lev T' (k + 1) = lev (map nan_undef Tc) (m + k + 1)) by (apply S; rewrite <- AM by lia; apply Q6; lia).
            unfold lev in V. replace (k + 1 - 1) with k in V by lia. replace (m + k + 1 - 1) with (m + k) in V by lia.
            rewrite (nth_error_nth' T' 0%R) by lia. rewrite V, nth_error_map, nth_skipn, <- nth_error_map. symmetry. apply nth_error_nth'. rewrite map_length. lia.
          - rewrite !(proj2 (nth_error_None _ _)); auto; rewrite ?map_length, ?skipn_length; lia. }
        assert (Er : r' = map nan_undef (skipn m rc)).
        { apply SH_Proofs.nth_error_ext_all. intros k. destruct (Nat.lt_ge_cases k (nl - m)) as [K|K].
          - destruct (St (k + 1) ltac:(lia)) as [_ S]. destruct S as [S _]. replace (m + (k + 1)) with (m + k + 1) in S by lia.
            assert (V : lev r' (k + 1) = lev (map nan_undef rc) (m + k + 1)) by (apply S; rewrite <- AM by lia; apply Q6; lia).
            unfold lev in V. replace (k + 1 - 1) with k in V by lia. replace (m + k + 1 - 1) with (m + k) in V by lia.
            rewrite (nth_error_nth' r' 0%R) by lia. rewrite V, nth_error_map, nth_skipn, <- nth_error_map. symmetry. apply nth_error_nth'. rewrite map_length. lia.
          - rewrite !(proj2 (nth_error_None _ _)); auto; rewrite ?map_length, ?skipn_length; lia. }
        subst T' r'. unfold P0 in Ho. rewrite skipn_map' in Ho.
        assert (UM := surface_not_upside P m SF).
        destruct (profile_call sched junk flag0 diag ofl ck s p (skipn m P) (skipn m Tc) (skipn m rc) (nl - m) o H1) as (y & Ey & Y1 & Y2 & _); try (rewrite skipn_length; lia); try lia.
        { unfold ord. rewrite UM. exact Ho. }
        exists y. split; [exact Ey|]. unfold elt. rewrite Y1, Y2. cbn [offset nth_error]. rewrite nth_error_map, Ev. cbn. rewrite H3. auto.
  - cbn [existsb] in M. repeat (apply orb_false_iff in M; let X := fresh "C" in destruct M as [X M]; apply missing_complete in X).
    destruct (plain_value sched junk flag0 HJ HSch four nt nl a b diag sst psl P T r actual x ST HN N WT Wr) as [SV V]; auto.
    split; auto. intros c HC Tc rc KT Kr. destruct (V c HC) as (s' & p' & Tc' & rc' & y & E1 & E2 & K1 & K2 & Ey & EE).
    assert (Q1 := colG_unique _ _ _ _ _ _ _ K1 KT). assert (Q2 := colG_unique _ _ _ _ _ _ _ K2 Kr). subst Tc' rc'.
    assert (NA : forall k, k < nl -> ~ absent_level Tc rc k).
    { intros k K [(z & Z & Az)|(z & Z & Az)].
      - rewrite <- (proj2 K1) in Z by auto. apply nth_error_In in Z. destruct (C2 z Z) as (w & -> & W). destruct Az; congruence.
      - rewrite <- (proj2 K2) in Z by auto. apply nth_error_In in Z. destruct (C3 z Z) as (w & -> & W). destruct Az; congruence. }
    split.
    + intros [Ab|Ab]; [congruence|]. exfalso. apply (NA 0); [lia|]. apply Ab. lia.
    + intros s p m Z1 _ Z2 Z3 Z4 _. destruct m as [|m]; [|exfalso; apply (NA 0); [lia|apply Z4; lia]].
      cbn [skipn]. exists y. rewrite E1 in Z1. rewrite E2 in Z2. injection Z1 as <-. injection Z2 as <-. auto.
Qed.

(** A 3-D point with missing sea-surface temperature, or without any complete
    level, is missing; one whose lowest [m] levels are missing gives what the
    call on the levels above gives. *)
Theorem C83_missing_3d : forall diag sst psl P T r actual x nl nlat nlon, sh T = [nl; nlat; nlon] -> 1 <= nl -> wf T -> wf r -> surface_first P ->
  (forall s ck, diag = Some (s, ck) -> (0 < ck)%R) ->
  call diag sst psl P T r actual = Some (Ret x) ->
  forall i j Tc rc, i < nlat -> j < nlon -> column_3d T i j Tc -> column_3d r i j rc ->
    (elt sst [i; j] = Some None \/ (forall k, k < nl -> absent_level Tc rc k) ->
       exists v, elt (r_val x) [i; j] = Some v /\ forall y, In y v -> y = None) /\
    (forall s p m, elt sst [i; j] = Some (Some s) -> s <> UNDEF -> elt psl [i; j] = Some (Some p) -> m < nl ->
       (forall k, k < m -> absent_level Tc rc k) -> (forall k, m <= k < nl -> ~ absent_level Tc rc k) ->
       exists y, call diag (scalar (Some s)) (scalar (Some p)) (skipn m P) (vec (skipn m Tc)) (vec (skipn m rc)) None = Some (Ret y) /\
         elt (r_val x) [i; j] = elt (r_val y) []).
Proof.
  intros diag sst psl P T r actual x nl nlat nlon ST N WT Wr SF HK H i j Tc rc Hi Hj KT Kr.
  destruct (missing_value false 0 nl nlat nlon diag sst psl P T r actual x ST (fun _ => eq_refl) N WT Wr SF) as [SV V]; auto.
  { destruct diag as [[s k]|]; eauto. }
  destruct (proj1 (C83_shapes sched junk flag0 diag sst psl P T r actual) x H) as [[Sr C] _]. rewrite ST in C, Sr. destruct C as (_ & S1 & S2).
  specialize (V (i + nlat * j) ltac:(cbn; nia) Tc rc).
  assert (CG : forall (X : nd (option R)) c, sh X = [nl; nlat; nlon] -> column_3d X i j c -> colG (stride false 0) nl (dat X) (pos_t false 0 (i + nlat * j)) (pos_z false 0 (i + nlat * j)) c).
  { intros X c SX Q. unfold column_3d in Q. rewrite SX in Q. destruct Q as [L Q]. split; auto. intros k K. rewrite <- Q by auto. unfold elt. rewrite SX. cbn [offset stride pos_t pos_z].
    f_equal. lia. }
  specialize (V (CG _ _ ST KT) (CG _ _ Sr Kr)). assert (EL : forall A (X : nd A), sh X = [nlat; nlon] -> elt X [i; j] = nth_error (dat X) (i + nlat * j)).
  { intros A X SX. unfold elt. rewrite SX. cbn [offset]. f_equal. lia. }
  rewrite !EL by auto. exact V.
Qed.
Theorem C83_missing_4d : forall diag sst psl P T r actual x nt nl nlat nlon, sh T = [nt; nl; nlat; nlon] -> 1 <= nl -> wf T -> wf r -> surface_first P ->
  call diag sst psl P T r actual = Some (Ret x) ->
  forall t i j Tc rc, t < nt -> i < nlat -> j < nlon -> column_4d T t i j Tc -> column_4d r t i j rc ->
    (elt sst [t; i; j] = Some None \/ (forall k, k < nl -> absent_level Tc rc k) ->
       exists v, elt (r_val x) [t; i; j] = Some v /\ forall y, In y v -> y = None) /\
    (forall s p m, elt sst [t; i; j] = Some (Some s) -> s <> UNDEF -> elt psl [t; i; j] = Some (Some p) -> m < nl ->
       (forall k, k < m -> absent_level Tc rc k) -> (forall k, m <= k < nl -> ~ absent_level Tc rc k) ->
       exists y, call diag (scalar (Some s)) (scalar (Some p)) (skipn m P) (vec (skipn m Tc)) (vec (skipn m rc)) None = Some (Ret y) /\
         elt (r_val x) [t; i; j] = elt (r_val y) []).
Proof.
  intros diag sst psl P T r actual x nt nl nlat nlon ST N WT Wr SF H t i j Tc rc Ht Hi Hj KT Kr.
  destruct (missing_value true nt nl nlat nlon diag sst psl P T r actual x ST (fun e => ltac:(discriminate)) N WT Wr SF) as [SV V]; auto.
  { destruct diag as [[s k]|]; eauto. }
  destruct (proj1 (C83_shapes sched junk flag0 diag sst psl P T r actual) x H) as [[Sr C] _]. rewrite ST in C, Sr. destruct C as (_ & S1 & S2).
  set (c := t + nt * (i + nlat * j)) in *.
  specialize (V c ltac:(cbn; unfold c; apply (box nt nlat nlon t i j); auto) Tc rc).
  assert (D : c / nt = i + nlat * j). { unfold c. rewrite Nat.mul_comm, Nat.div_add by lia. rewrite Nat.div_small by lia. lia. }
  assert (M : c mod nt = t) by (unfold c; rewrite Nat.mul_comm, Nat.mod_add by lia; apply Nat.mod_small; lia).
  assert (CG : forall (X : nd (option R)) l, sh X = [nt; nl; nlat; nlon] -> column_4d X t i j l -> colG (stride true nt) nl (dat X) (pos_t true nt c) (pos_z true nt c) l).
  { intros X l SX Q. unfold column_4d in Q. rewrite SX in Q. destruct Q as [L Q]. split; auto. intros k K. rewrite <- Q by auto. unfold elt. rewrite SX. cbn [offset stride pos_t pos_z].
    rewrite D, M. f_equal. lia. }
  specialize (V (CG _ _ ST KT) (CG _ _ Sr Kr)). assert (EL : forall A (X : nd A), sh X = [nt; nlat; nlon] -> elt X [t; i; j] = nth_error (dat X) c).
  { intros A X SX. unfold elt. rewrite SX. cbn [offset]. unfold c. f_equal. lia. }
  rewrite !EL by auto. exact V.
Qed.
End Calls.
