(** C83, continued: a gridded call is the profile call at every point. *)
From Coq Require Import Reals List Arith Lia ZArith Bool Permutation Lra String.
From Verif Require SH_Proofs.
From Verif Require Import Base Buffer VH_Model VH_Proofs PI_Model PI_Model2 PI_Spec PI_Proofs1 PI_Proofs2 PI_Proofs3 PI_Proofs4 PI_Props2 PI_Py PI_PySpec PI_PyProofs PI_PyProofs2 PI_PyProps.
Import ListNotations.
Local Open Scope nat_scope.

Section Calls.
Variables (sched : nat -> list nat) (junk : nat -> list (list R)) (flag0 : Z).
Hypothesis HJ : forall N, List.length (junk N) = N.
Hypothesis HSch : forall N, Permutation (sched N) (seq 0 N).
Notation call := (pi_call sched junk flag0).

Definition full_shape (four : bool) nt nl a b : list nat := if four then [nt; nl; a; b] else [nl; a; b].
Definition point_shape (four : bool) nt a b : list nat := if four then [nt; a; b] else [a; b].
Definition stride (four : bool) nt : nat := if four then nt else 1.
Definition handed (P0 : list R) m nl (X : list (option R)) : list R :=
  if upside_down P0 then flip_list m nl (map nan_undef X) 0%R else map nan_undef X.

Lemma grid_open four nt nl a b diag sst psl P T r actual x : sh T = full_shape four nt nl a b -> (four = false -> nt = 0) ->
  call diag sst psl P T r actual = Some (Ret x) ->
  exists ofl ck zd vals fl lk, settings diag ofl ck /\ zsettings zd ofl ck /\ zdiag zd = is_diag diag /\
    sh r = sh T /\ List.length P = nl /\ sh sst = point_shape four nt a b /\ sh psl = point_shape four nt a b /\
    (let P0 := map nan_undef P in
     run_grid sched junk flag0 four (existsb has_missing [dat sst; dat psl; P; dat T; dat r]) zd nt nl a b
       (mkgrid (map nan_undef (dat sst)) (map nan_undef (dat psl)) (ord P0 P0) (handed P0 (stride four nt) nl (dat T)) (handed P0 (stride four nt) nl (dat r)))
     = Some (vals, fl, lk)) /\
    r_val x = mknd (point_shape four nt a b) (map (map post) vals).
Proof.
  intros ST HN H. destruct (proj1 (C83_shapes sched junk flag0 diag sst psl P T r actual) x H) as [C K].
  assert (CS : sh r = sh T /\ List.length P = nl /\ sh sst = point_shape four nt a b /\ sh psl = point_shape four nt a b).
  { unfold consistent in C. rewrite ST in C |- *. destruct four; exact C. }
  destruct CS as (Sr & LP & S1 & S2). set (P0 := map nan_undef P).
  set (miss := existsb has_missing [dat sst; dat psl; P; dat T; dat r]) in *.
  set (g := mkgrid (map nan_undef (dat sst)) (map nan_undef (dat psl)) (ord P0 P0) (handed P0 (stride four nt) nl (dat T)) (handed P0 (stride four nt) nl (dat r))).
  assert (G : good_dim (sh T)) by (rewrite ST; unfold good_dim; destruct four; cbn; auto).
  assert (EP : exists q, prepare_inputs sst psl P T r actual = Some (Ret q) /\ q_kind q = (if four then K4 else K3) /\ sh (q_T q) = sh T /\
    mkgrid (dat (q_sst q)) (dat (q_psl q)) (q_P q) (dat (q_T q)) (dat (q_r q)) = g /\ q_missing q = miss).
  { unfold pi_call in H. destruct (prepare_inputs sst psl P T r actual) as [[q|]|] eqn:E; try discriminate. exists q. split; auto. clear H.
    unfold prepare_inputs in E. assert (DK : detect_kind T = Ret (if four then K4 else K3)) by (unfold detect_kind; rewrite ST; destruct four; auto).
    rewrite DK in E. assert (E' : prepare_gridded (if four then K4 else K3) sst psl P T r = Ret q) by (destruct four; congruence). clear E.
    unfold prepare_gridded in E'. rewrite ordering_flipped in E' by auto. fold P0 in E'.
    assert (BL : below (sh T) = stride four nt /\ levels_of (sh T) = nl) by (rewrite ST; destruct four; auto). destruct BL as [BL LV].
    destruct (upside_down P0) eqn:EU; destruct (dimensions_ok _ _ _ _ _ _) in E'; try discriminate; injection E' as <-;
      cbn [q_kind q_sst q_psl q_P q_T q_r q_missing sh dat cleaned flipped]; rewrite ?Sr, ?BL, ?LV;
      (split; [auto|]); (split; [auto|]); (split; [|reflexivity]); unfold g, ord, handed; rewrite EU; auto. }
  destruct EP as (q & EQ & QK & QS & QG & QM). unfold pi_call in H. rewrite EQ in H. cbn [bind] in H.
  assert (HC : exists ofl ck zd, settings diag ofl ck /\ zsettings zd ofl ck /\ zdiag zd = is_diag diag /\ calc sched junk flag0 zd q = Some x).
  { destruct diag as [[s k]|].
    - destruct (outflow_flag s) as [o|] eqn:EO; [|discriminate]. bnd H y Ey. injection H as ->. exists o, k, (Some (o, k)). repeat split; auto.
    - bnd H y Ey. injection H as ->. exists 0%Z, (9 / 10)%R, None. repeat split; auto. }
  destruct HC as (ofl & ck & zd & H1 & H2 & H3 & HC). unfold calc in HC. rewrite QK, QS, QG, QM, ST in HC.
  destruct four; cbn [full_shape] in HC.
  - bnd HC y Ey. destruct y as [[vals fl] lk]. injection HC as <-. exists ofl, ck, zd, vals, fl, lk. repeat (split; [auto; fail|]). auto.
  - rewrite (HN eq_refl) in *. bnd HC y Ey. destruct y as [[vals fl] lk]. injection HC as <-. exists ofl, ck, zd, vals, fl, lk. repeat (split; [auto; fail|]). auto.
Qed.

(** positions of a point *)
Definition pos_t (four : bool) nt c := if four then c mod nt else 0.
Definition pos_z (four : bool) nt c := if four then c / nt else c.
Lemma pcol_G four nt nl X c T : pcol four nt nl X c T -> colG (stride four nt) nl X (pos_t four nt c) (pos_z four nt c) T.
Proof. destruct four; cbn; [apply col4_G|apply col3_G]. Qed.
Lemma pos_ok four nt a b c : c < npoints four nt a b -> pos_t four nt c < stride four nt /\ pos_z four nt c < a * b.
Proof.
  destruct four; cbn; intros H; [|lia]. assert (nt <> 0) by (intros ->; lia).
  split; [apply Nat.mod_upper_bound; auto|]. apply Nat.div_lt_upper_bound; auto. lia.
Qed.

Lemma nan_complete (X : list (option R)) i v : complete X -> nth_error (map nan_undef X) i = Some v -> nth_error X i = Some (Some v) /\ v <> UNDEF.
Proof.
  intros C H. rewrite nth_error_map in H. destruct (nth_error X i) as [x|] eqn:E; [|discriminate]. cbn in H.
  destruct (C x (nth_error_In _ _ E)) as (w & -> & N). cbn in H. injection H as ->. auto.
Qed.
Lemma complete_missing X : complete X -> has_missing X = false.
Proof.
  intros C. unfold has_missing. destruct (existsb is_missing X) eqn:E; [|auto]. apply existsb_exists in E. destruct E as (x & I & M).
  destruct (C x I) as (v & -> & N). cbn in M. destruct (req_spec v UNDEF); [contradiction|discriminate].
Qed.

(** one point, complete data *)
Lemma plain_value four nt nl a b diag sst psl P T r actual x : sh T = full_shape four nt nl a b -> (four = false -> nt = 0) -> 1 <= nl ->
  wf T -> wf r -> complete (dat sst) -> complete (dat psl) -> complete P -> complete (dat T) -> complete (dat r) ->
  (match diag with Some (_, ck) => four = true \/ (0 < ck)%R | None => True end) ->
  call diag sst psl P T r actual = Some (Ret x) ->
  sh (r_val x) = point_shape four nt a b /\
  forall c, c < npoints four nt a b -> exists s p Tc rc y,
    nth_error (dat sst) c = Some (Some s) /\ nth_error (dat psl) c = Some (Some p) /\
    colG (stride four nt) nl (dat T) (pos_t four nt c) (pos_z four nt c) Tc /\ colG (stride four nt) nl (dat r) (pos_t four nt c) (pos_z four nt c) rc /\
    call diag (scalar (Some s)) (scalar (Some p)) P (vec Tc) (vec rc) None = Some (Ret y) /\
    nth_error (dat (r_val x)) c = elt (r_val y) [].
Proof.
  intros ST HN N WT Wr Cs Cp CP CT Cr HK H.
  destruct (grid_open _ _ _ _ _ _ _ _ _ _ _ _ _ ST HN H) as (ofl & ck & zd & vals & fl & lk & H1 & H2 & H3 & Sr & LP & S1 & S2 & HR & EV).
  rewrite EV. split; [auto|]. intros c HC. cbn [dat sh].
  assert (M : existsb has_missing [dat sst; dat psl; P; dat T; dat r] = false) by (cbn [existsb]; rewrite !complete_missing by auto; auto).
  rewrite M in HR. cbv zeta in HR. set (P0 := map nan_undef P) in *.
  assert (HK' : four = true \/ (0 < ck)%R).
  { destruct diag as [[s k]|]; [destruct H1 as [_ ->]; auto|destruct H1 as [_ ->]; right; lra]. }
  destruct (run_plain sched junk flag0 HJ HSch four zd ofl ck nt nl a b _ vals fl lk N H2 HK' HR) as (f & LV & GP).
  destruct (GP c HC) as (v & Ev & s & p & T1 & r1 & o & Es & Ep & K1 & K2 & Ho & -> & _). cbn [g_sst g_psl g_P g_T g_r] in *.
  rewrite Nat.add_1_r in Es, Ep, Ev. cbn [rd] in Es, Ep, Ev.
  destruct (nan_complete _ _ _ Cs Es) as [Es' _]. destruct (nan_complete _ _ _ Cp Ep) as [Ep' _].
  destruct (pos_ok _ _ _ _ _ HC) as [Ht Hz].
  assert (LT : List.length (dat T) = stride four nt * nl * (a * b)) by (unfold wf in WT; rewrite WT, size_axis, ST by (rewrite ST; unfold good_dim; destruct four; cbn; auto); destruct four; reflexivity).
  assert (Lr : List.length (dat r) = stride four nt * nl * (a * b)) by (unfold wf in Wr; rewrite Wr, Sr, size_axis, ST by (rewrite ST; unfold good_dim; destruct four; cbn; auto); destruct four; reflexivity).
  destruct (colG_exists _ _ _ (dat T) _ _ LT Ht Hz) as [Tc HT]. destruct (colG_exists _ _ _ (dat r) _ _ Lr Ht Hz) as [rc Hr].
  apply pcol_G in K1, K2. unfold handed in K1, K2.
  assert (E1 := colG_unique _ _ _ _ _ _ _ K1 (ordered_column P0 _ _ _ _ _ _ _ LT Ht Hz HT)).
  assert (E2 := colG_unique _ _ _ _ _ _ _ K2 (ordered_column P0 _ _ _ _ _ _ _ Lr Ht Hz Hr)). subst T1 r1.
  destruct (profile_call sched junk flag0 diag ofl ck s p P Tc rc nl o H1 LP (proj1 HT) (proj1 Hr) N Ho) as (y & Ey & Y1 & Y2 & _).
  exists s, p, Tc, rc, y. repeat (split; [auto; fail|]). unfold elt. rewrite Y1, Y2. cbn [offset nth_error].
  rewrite nth_error_map, Ev. cbn. rewrite H3. auto.
Qed.

(** A 3-D call on complete data gives at every point what the call on that
    column alone gives. *)
Theorem C83_grid_3d : forall diag sst psl P T r actual x nl nlat nlon, sh T = [nl; nlat; nlon] -> 1 <= nl -> wf sst -> wf psl -> wf T -> wf r ->
  complete (dat sst) -> complete (dat psl) -> complete P -> complete (dat T) -> complete (dat r) ->
  (forall s ck, diag = Some (s, ck) -> (0 < ck)%R) ->
  call diag sst psl P T r actual = Some (Ret x) ->
  sh (r_val x) = [nlat; nlon] /\
  forall i j, i < nlat -> j < nlon -> exists s p Tc rc y,
    elt sst [i; j] = Some (Some s) /\ elt psl [i; j] = Some (Some p) /\ column_3d T i j Tc /\ column_3d r i j rc /\
    call diag (scalar (Some s)) (scalar (Some p)) P (vec Tc) (vec rc) None = Some (Ret y) /\
    elt (r_val x) [i; j] = elt (r_val y) [].
Proof.
  intros diag sst psl P T r actual x nl nlat nlon ST N Ws Wp WT Wr Cs Cp CP CT Cr HK H.
  destruct (plain_value false 0 nl nlat nlon diag sst psl P T r actual x ST (fun _ => eq_refl) N WT Wr Cs Cp CP CT Cr) as [SV V]; auto.
  { destruct diag as [[s k]|]; eauto. }
  split; [auto|]. intros i j Hi Hj. destruct (V (i + nlat * j)) as (s & p & Tc & rc & y & E1 & E2 & K1 & K2 & Ey & EV); [cbn; nia|].
  destruct (proj1 (C83_shapes sched junk flag0 diag sst psl P T r actual) x H) as [[Sr C] _]. rewrite ST in C, Sr. destruct C as (_ & S1 & S2).
  exists s, p, Tc, rc, y. unfold elt. rewrite S1, S2, SV. cbn [offset point_shape].
  replace (i + nlat * (j + nlon * 0)) with (i + nlat * j) by lia. repeat (split; [auto; fail|]).
  assert (CG : forall (X : nd (option R)) c, sh X = [nl; nlat; nlon] -> colG (stride false 0) nl (dat X) (pos_t false 0 (i + nlat * j)) (pos_z false 0 (i + nlat * j)) c -> column_3d X i j c).
  { intros X c SX [L Q]. unfold column_3d. rewrite SX. split; auto. intros k K. rewrite <- Q by auto. unfold elt. rewrite SX. cbn [offset stride pos_t pos_z].
    f_equal. lia. }
  repeat (split; [auto; fail|]). auto.
Qed.
Theorem C83_grid_4d : forall diag sst psl P T r actual x nt nl nlat nlon, sh T = [nt; nl; nlat; nlon] -> 1 <= nl -> wf sst -> wf psl -> wf T -> wf r ->
  complete (dat sst) -> complete (dat psl) -> complete P -> complete (dat T) -> complete (dat r) ->
  call diag sst psl P T r actual = Some (Ret x) ->
  sh (r_val x) = [nt; nlat; nlon] /\
  forall t i j, t < nt -> i < nlat -> j < nlon -> exists s p Tc rc y,
    elt sst [t; i; j] = Some (Some s) /\ elt psl [t; i; j] = Some (Some p) /\ column_4d T t i j Tc /\ column_4d r t i j rc /\
    call diag (scalar (Some s)) (scalar (Some p)) P (vec Tc) (vec rc) None = Some (Ret y) /\
    elt (r_val x) [t; i; j] = elt (r_val y) [].
Proof.
  intros diag sst psl P T r actual x nt nl nlat nlon ST N Ws Wp WT Wr Cs Cp CP CT Cr H.
  destruct (plain_value true nt nl nlat nlon diag sst psl P T r actual x ST (fun e => ltac:(discriminate)) N WT Wr Cs Cp CP CT Cr) as [SV V]; auto.
  { destruct diag as [[s k]|]; eauto. }
  split; [auto|]. intros t i j Ht Hi Hj. set (c := t + nt * (i + nlat * j)).
  destruct (V c) as (s & p & Tc & rc & y & E1 & E2 & K1 & K2 & Ey & EV).
  { cbn. unfold c. apply (box nt nlat nlon t i j); auto. }
  destruct (proj1 (C83_shapes sched junk flag0 diag sst psl P T r actual) x H) as [[Sr C] _]. rewrite ST in C, Sr. destruct C as (_ & S1 & S2).
  exists s, p, Tc, rc, y. unfold elt. rewrite S1, S2, SV. cbn [offset point_shape].
  replace (t + nt * (i + nlat * (j + nlon * 0))) with c by (unfold c; lia). repeat (split; [auto; fail|]).
  assert (D : c / nt = i + nlat * j). { unfold c. rewrite Nat.mul_comm, Nat.div_add by lia. rewrite Nat.div_small by lia. lia. }
  assert (M : c mod nt = t) by (unfold c; rewrite Nat.mul_comm, Nat.mod_add by lia; apply Nat.mod_small; lia).
  assert (CG : forall (X : nd (option R)) l, sh X = [nt; nl; nlat; nlon] -> colG (stride true nt) nl (dat X) (pos_t true nt c) (pos_z true nt c) l -> column_4d X t i j l).
  { intros X l SX [L Q]. unfold column_4d. rewrite SX. split; auto. intros k K. rewrite <- Q by auto. unfold elt. rewrite SX. cbn [offset stride pos_t pos_z].
    rewrite D, M. f_equal. lia. }
  repeat (split; [auto; fail|]). auto.
Qed.
End Calls.
