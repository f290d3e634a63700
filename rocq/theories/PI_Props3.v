(** C82, continued: a grid on which the drivers run, and what they get wrong. *)
From Coq Require Import Reals List Arith Lia ZArith Bool Permutation Lra.
From Verif Require Import Base Buffer VH_Model VH_Proofs PI_Model PI_Model2 PI_Spec PI_Proofs1 PI_Proofs2 PI_Proofs3 PI_Proofs4 PI_Dry PI_Wit PI_Wit2 PI_Props1 PI_Props2.
Import ListNotations.
Local Open Scope nat_scope.

Definition colT : list R := [280; 282; 220]%R.
Definition colr : list R := [1 / 1000; 1 / 1000; 0]%R.

Lemma to_C_lev : lev (kelvin (map to_C colT) 3) 1 = 280%R /\ lev (kelvin (map to_C colT) 3) 2 = 282%R.
Proof. unfold kelvin, lev, to_C, colT; cbn. lra. Qed.
Lemma to_gkg_lev : lev (ratio (map to_gkg colr) 3) 1 = (1 / 1000)%R /\ lev (ratio (map to_gkg colr) 3) 2 = (1 / 1000)%R.
Proof. unfold ratio, lev, to_gkg, colr; cbn. rewrite !Rmax_left; lra. Qed.
Lemma eff_wit : effective_points wit_p 3 = Some 2.
Proof. apply eff3; auto. Qed.

Lemma good_core ofl ckcd : exists o, calculate_pi_core (to_C 290) (to_mb 97000) wit_p (map to_C colT) (map to_gkg colr) 3 ofl ckcd = Some o /\
  o_flag o = 1%Z /\ (960 <= o_pmin o <= 970)%R /\ (0 < o_vmax o)%R.
Proof.
  destruct to_C_lev, to_gkg_lev.
  destruct (wit_core (to_C 290) (to_mb 97000) wit_p (map to_C colT) (map to_gkg colr) 3 ofl ckcd) as (o & A & B & C & D & F); auto; try (cbn; lia).
  - unfold to_C, KELVIN. lra.
  - unfold to_mb. lra.
  - apply eff_wit.
  - exists o. repeat (split; [auto; fail|]). rewrite D. destruct wit_s_b as [_ W].
    set (To := if (ofl =? 1)%Z then 280%R else 282%R). assert (0 < 290 / To)%R by (unfold To; destruct (ofl =? 1)%Z; lra).
    assert (0 < sqrt (9 / 10 * (290 / To) * wit_c))%R.
    { apply sqrt_lt_R0. apply Rmult_lt_0_compat; [apply Rmult_lt_0_compat; lra|lra]. } lra.
Qed.

Lemma warm : rle (to_C 290) 5 = false.
Proof. destruct (rle_spec (to_C 290) 5) as [A|]; [unfold to_C in A; lra|auto]. Qed.
Lemma cold : rle (to_C 270) 5 = true.
Proof. destruct (rle_spec (to_C 270) 5) as [|A]; [auto|unfold to_C in A; lra]. Qed.

Lemma dry_core ofl ckcd : exists o, calculate_pi_core (to_C 290) (to_mb 97000) wit_p (map to_C colT) (map to_gkg [0; 0; 0]%R) 3 ofl ckcd = Some o /\
  o_flag o = 0%Z.
Proof.
  assert (R0 : forall k, 1 <= k <= 3 -> lev (ratio (map to_gkg [0; 0; 0]%R) 3) k = 0%R).
  { intros k K. assert (D : k = 1 \/ k = 2 \/ k = 3) by lia. unfold lev, ratio, to_gkg; destruct D as [-> |[-> | ->]]; cbn; rewrite Rmax_left; lra. }
  destruct to_C_lev as [T1 T2].
  destruct (prepare_defined (kelvin (map to_C colT) 3) (ratio (map to_gkg [0; 0; 0]%R) 3) wit_p 2) as [E HE]; try (cbn; lia).
  { intros k K. rewrite R0 by lia. assert (D : k = 1 \/ k = 2) by lia. destruct D as [-> | ->]; rewrite ?T1, ?T2; unfold lev, wit_p; cbn; lra. }
  destruct (dry_surface (to_C 290) (to_mb 97000) wit_p (map to_C colT) (map to_gkg [0; 0; 0]%R) 3 ofl ckcd 2 E) as (o & A & B & _); auto; try (cbn; lia).
  - unfold to_C. lra.
  - apply eff_wit.
  - eauto.
Qed.

(** point 0 dry (fails), point 1 computed *)
Definition g2 : grid := mkgrid [290; 290]%R [97000; 97000]%R wit_p (colT ++ colT) ([0; 0; 0]%R ++ colr).

Lemma g2_cells diag ofl ckcd : exists o1 o2,
  point (plain_cell diag ofl ckcd 3) (column3 3) g2 0 = Some (fields diag o1, Some 0%Z) /\
  point (plain_cell diag ofl ckcd 3) (column3 3) g2 1 = Some (fields diag o2, Some 1%Z) /\ (0 < o_vmax o2)%R.
Proof.
  destruct (dry_core ofl ckcd) as (o1 & A & F1), (good_core ofl ckcd) as (o2 & B & F2 & _ & V). exists o1, o2.
  unfold point. cbn [g2 g_sst g_psl g_T g_r g_P rd nth_error plus bind].
  assert (C0 : column3 3 (colT ++ colT) 0 = Some colT) by reflexivity.
  assert (C1 : column3 3 (colT ++ colT) 1 = Some colT) by reflexivity.
  assert (C2 : column3 3 ([0; 0; 0]%R ++ colr) 0 = Some [0; 0; 0]%R) by reflexivity.
  assert (C3 : column3 3 ([0; 0; 0]%R ++ colr) 1 = Some colr) by reflexivity.
  rewrite C0, C1, C2, C3. cbn [bind]. unfold plain_cell. rewrite warm, A, B. cbn [bind]. rewrite F1, F2. auto.
Qed.

(** The error flag of the sequential routine hides the failure at point 0. *)
Theorem C82_flag_refuted : exists nlat nlon nl g out flag0 out',
  length out = nlat * nlon /\
  calculate_pi_gridded_data nlat nlon nl g out flag0 = Some (out', 1%Z) /\
  exists v, point (plain_cell false 0 (9 / 10) nl) (column3 nl) g 0 = Some (v, Some 0%Z).
Proof.
  destruct (g2_cells false 0 (9 / 10)) as (o1 & o2 & A & B & _).
  exists 1, 2, 3, g2, [[]; []], 0%Z, [fields false o1; fields false o2]. split; [auto|]. split; [|exists (fields false o1); exact A].
  unfold calculate_pi_gridded_data, grid_loop. cbn [order3 seq flat_map map app plus Nat.mul foldM].
  rewrite A. cbn [bind fst snd wrx plus Nat.leb length andb wr upd0]. rewrite B. cbn. auto.
Qed.

(** With nothing to compute the flag is whatever the caller's variable held. *)
Theorem C82_entry_flag_refuted : exists nlat nlon nl g out, length out = nlat * nlon /\
  forall z, exists out', calculate_pi_gridded_data nlat nlon nl g out z = Some (out', z).
Proof.
  exists 1, 1, 3, (mkgrid (cons 270 nil) (cons 97000 nil) wit_p colT colr)%R, (cons nil nil). split; [auto|]. intros z. eexists.
  unfold calculate_pi_gridded_data, grid_loop, point. cbn [order3 seq flat_map map app plus Nat.mul foldM g_sst g_psl g_T g_r g_P rd nth_error bind].
  assert (C0 : column3 3 colT 0 = Some colT) by reflexivity. assert (C3 : column3 3 colr 0 = Some colr) by reflexivity.
  rewrite C0, C3. cbn [bind]. unfold plain_cell. rewrite cold. cbn. reflexivity.
Qed.

(** A missing sea-level pressure is not recognised: the point gets a pressure
    of -9.99e31 mb and wind 0. *)
Theorem C82_missing_psl_refuted : exists nlat nlon nl g out out' flag,
  calculate_pi_gridded_with_missing nlat nlon nl g out = Some (out', flag) /\
  rd (g_psl g) 1 = Some UNDEF /\
  exists x, rd out' 1 = Some [x; 0%R] /\ x <> UNDEF.
Proof.
  destruct to_C_lev as [T1 T2], to_gkg_lev as [R1 R2].
  destruct (wit_neg_psl (to_C 290) (to_mb UNDEF) wit_p (map to_C colT) (map to_gkg colr) 3 0 (9 / 10)) as (o & A & F & P & V); auto; try (cbn; lia).
  { unfold to_C, KELVIN. lra. } { unfold to_mb, UNDEF. lra. } { apply eff_wit. }
  assert (U : ~ In UNDEF colT /\ ~ In UNDEF colr).
  { unfold UNDEF, colT, colr. split; intros H; cbn in H; destruct H as [H|[H|[H|[]]]]; lra. }
  exists 1, 1, 3, (mkgrid (cons 290 nil) (cons UNDEF nil) wit_p colT colr)%R, (cons nil nil). do 2 eexists. split; [|split; [reflexivity|]].
  - unfold calculate_pi_gridded_with_missing, grid_loop, point. cbn [order3 seq flat_map map app plus Nat.mul foldM g_sst g_psl g_T g_r g_P rd nth_error bind].
    assert (C0 : column3 3 colT 0 = Some colT) by reflexivity. assert (C3 : column3 3 colr 0 = Some colr) by reflexivity.
    rewrite C0, C3. cbn [bind]. rewrite missing_plain; try apply U; auto; try (cbn; lia). 2:{ unfold UNDEF. lra. }
    unfold plain_cell. rewrite warm, A. cbn. reflexivity.
  - exists (o_pmin o). cbn. rewrite V. split; [auto|]. rewrite P. unfold to_mb, UNDEF. lra.
Qed.

(** A level missing above the lowest one is not left out: with levels 1000, 980
    (missing) and 50 mb a successful result has the missing value as outflow
    temperature, while the profile without the missing level has 280 K. *)
Definition hole : grid := (mkgrid (cons 290 nil) (cons 97000 nil) wit_p [280; UNDEF; 220] [1 / 1000; UNDEF; 0])%R.

Theorem C82_interior_refuted :
  (forall v, point (missing_cell true 0 (9 / 10) 3) (column3 3) hole 0 = Some (v, Some 1%Z) -> (nth 2 v 0 < - 10 ^ 33)%R) /\
  exists o, calculate_pi_profile_diagnostics 290 97000 2 [1000; 50]%R [280; 220]%R [1 / 1000; 0]%R 2 0 (9 / 10) = Some o /\
    o_flag o = 1%Z /\ o_To o = 280%R.
Proof.
  split.
  - intros v H. unfold point in H. cbn [hole g_sst g_psl g_T g_r g_P rd nth_error plus bind] in H.
    set (T := [280%R; UNDEF; 220%R]) in H. set (r := [(1 / 1000)%R; UNDEF; 0%R]) in H.
    assert (C0 : column3 3 T 0 = Some T) by reflexivity. assert (C1 : column3 3 r 0 = Some r) by reflexivity.
    rewrite C0, C1 in H. cbn [bind] in H. apply missing_cell_cases in H; auto.
    destruct H as [(_ & _ & [=])|(_ & a & tr & b & o & Ec & Ba & Bt & Ho & -> & Hf)].
    assert (Ea : a = [] /\ tr = (280, 1 / 1000)%R /\ b = [(UNDEF, UNDEF); (220, 0)%R]).
    { unfold T, r in Ec. cbn [combine] in Ec. destruct a as [|x a].
      - cbn in Ec. injection Ec as <- <-. auto.
      - exfalso. cbn in Ec. injection Ec as <- _. cbn in Ba. apply andb_true_iff in Ba. destruct Ba as [Ba _].
        unfold valid_level in Ba. cbn [fst snd] in Ba. destruct (req_spec 280 UNDEF) as [Q|]; [unfold UNDEF in Q; lra|].
        destruct (req_spec (1 / 1000) UNDEF) as [Q|]; [unfold UNDEF in Q; lra|]. discriminate. }
    destruct Ea as (-> & -> & ->). cbn [length skipn Nat.sub] in Ho. unfold calculate_pi_profile_diagnostics in Ho.
    rewrite warm in Ho, Hf. injection Hf as Hf. change (Nat.min (Nat.max 3 1) 3) with 3 in Ho.
    assert (V1 : valid_level (280, 1 / 1000)%R = true).
    { unfold valid_level. cbn [fst snd]. destruct (req_spec 280 UNDEF) as [Q|]; [unfold UNDEF in Q; lra|].
      destruct (req_spec (1 / 1000) UNDEF) as [Q|]; [unfold UNDEF in Q; lra|]. auto. }
    assert (V2 : valid_level (UNDEF, UNDEF) = false).
    { unfold valid_level. cbn [fst snd]. destruct (req_spec UNDEF UNDEF); [auto|contradiction]. }
    assert (K2 : forall q, lev (kelvin (map to_C (map filled_T [(280, 1 / 1000)%R; (UNDEF, UNDEF); q])) 3) 2 = (UNDEF + 27315 / 100)%R).
    { intros q. unfold kelvin, lev. cbn [map firstn nth Nat.sub]. unfold to_C, filled_T. rewrite V2. unfold KELVIN. lra. }
    cbn [fields nth].
    assert (P1 : (lev wit_p 2 < lev wit_p 1)%R) by (unfold lev, wit_p; cbn; lra).
    assert (P2 : (50 <= lev wit_p 2)%R) by (unfold lev, wit_p; cbn; lra).
    assert (To : o_To o = (UNDEF + 27315 / 100)%R).
    { rewrite <- (K2 (220, 0)%R). refine (interior_missing _ _ _ _ _ _ _ _ _ eff_wit _ P1 _ _ P2 Ho (eq_sym Hf)); [lia| |].
      - rewrite K2. unfold UNDEF. lra.
      - unfold ratio, lev. cbn. apply Rmax_r. }
    rewrite To. unfold UNDEF. lra.
  - unfold calculate_pi_profile_diagnostics. rewrite warm. change (Nat.min (Nat.max 2 1) 2) with 2.
    destruct (wit1_core (to_C 290) (to_mb 97000) [1000; 50]%R (map to_C [280; 220]%R) (map to_gkg [1 / 1000; 0]%R) 2 0 (9 / 10)) as (o & A & F & To & _); auto; try (cbn; lia).
    + unfold to_C, KELVIN. lra.
    + unfold to_mb. lra.
    + destruct (effective_ok [1000; 50]%R 2) as [n En]; [cbn; lia|].
      destruct (effective_some _ 2 n ltac:(lia) En) as (top & Nt & Hn).
      rewrite (nearest50_unique _ _ _ _ Nt (proj1 C81_one_level_example)) in Hn. rewrite Hn in En. exact En.
    + unfold kelvin, lev, to_C; cbn. lra.
    + unfold ratio, lev, to_gkg; cbn. rewrite Rmax_left; lra.
    + eauto.
Qed.

(** A non-positive Ck/Cd: the plain gridded routine silently uses 0.9, the
    others report the missing value. *)
Theorem C82_ckcd_refuted : forall order nl g out ofl ckcd st st' l l', (ckcd <= 0)%R ->
  calculate_pi_gridded_diagnostics order nl g out ofl ckcd = Some (st, l) ->
  calculate_pi_gridded_diagnostics_with_missing order nl g out ofl ckcd = Some (st', l') ->
  l = ln (9 / 10) /\ l' = UNDEF /\ l <> l'.
Proof.
  intros order nl g out ofl ckcd st st' l l' K H H'. unfold calculate_pi_gridded_diagnostics, calculate_pi_gridded_diagnostics_with_missing in *.
  destruct (rlt_spec 0 ckcd); [lra|]. bnd H s1 Hs1. bnd H' s2 Hs2. injection H as _ <-. injection H' as _ <-. unfold lnckcd_out.
  destruct (rlt_spec 0 (9 / 10)); [|lra]. destruct (rlt_spec 0 ckcd); [lra|]. split; [auto|]. split; [auto|].
  assert (- 1 < ln (9 / 10))%R.
  { replace (-1)%R with (ln (exp (-1))) by apply ln_exp. apply ln_increasing; [apply exp_pos|].
    generalize (exp_ineq1_le 1). intros G. change (-1)%R with (- (1))%R. rewrite exp_Ropp. assert (/ exp 1 <= / 2)%R by (apply Rinv_le_contravar; lra). lra. }
  unfold UNDEF. lra.
Qed.

(** A cold column: the profile routine reports flag 0, a grid of that one point
    flag 1. *)
Theorem C82_cold_refuted : exists g out',
  calculate_pi_4d_data (seq 0 1) 1 3 g (cons nil nil) = Some (out', 1%Z) /\ rd (g_sst g) 1 = Some 270%R /\
  calculate_pi_single_profile 270 97000 wit_p colT colr 3 = Some (UNDEF, UNDEF, 0%Z).
Proof.
  exists (mkgrid (cons 270 nil) (cons 97000 nil) wit_p colT colr)%R. eexists. split; [|split; [auto|]].
  - unfold calculate_pi_4d_data, grid_loop, point. cbn [seq plus foldM g_sst g_psl g_T g_r g_P rd nth_error bind].
    assert (C0 : column4 1 3 colT 0 = Some colT) by reflexivity. assert (C3 : column4 1 3 colr 0 = Some colr) by reflexivity.
    rewrite C0, C3. cbn [bind]. unfold plain_cell. rewrite cold. cbn. reflexivity.
  - unfold calculate_pi_single_profile. rewrite cold. auto.
Qed.

(** * Examples *)

(** the diagnostics routine on the two points in the order 1, 0: flag 0 *)
Example C82_gridded_diagnostics_example : exists out',
  Permutation [1; 0] (seq 0 (1 * 2)) /\
  calculate_pi_gridded_diagnostics [1; 0] 3 g2 [[]; []] 0 (9 / 10) = Some (out', 0%Z, ln (9 / 10)) /\ length out' = 2 /\
  ~ In UNDEF (g_sst g2) /\ ~ In UNDEF (g_T g2) /\ ~ In UNDEF (g_r g2).
Proof.
  destruct (g2_cells true 0 (9 / 10)) as (o1 & o2 & A & B & _). eexists. split; [cbn; constructor|]. split.
  - unfold calculate_pi_gridded_diagnostics, grid_loop. destruct (rlt_spec 0 (9 / 10)); [|lra].
    cbn [foldM]. rewrite B. cbn [bind fst snd wrx plus Nat.leb length andb wr upd0]. rewrite A. cbn [bind fst snd wrx plus Nat.leb length andb wr upd0].
    cbn [flag_fail Z.eqb Pos.eqb]. unfold lnckcd_out. destruct (rlt_spec 0 (9 / 10)); [|lra]. reflexivity.
  - split; [auto|]. unfold UNDEF, g2, colT, colr. cbn [g_sst g_T g_r app].
    repeat split; intros H; cbn in H; repeat destruct H as [H|H]; try lra; auto.
Qed.

(** a column with its lowest level missing is the witness column above it *)
Definition lifted : grid :=
  (mkgrid (cons 290 nil) (cons 97000 nil) (1010 :: wit_p) (UNDEF :: colT) (UNDEF :: colr))%R.

Example C82_missing_example : exists o, calculate_pi_gridded_with_missing 1 1 4 lifted (cons nil nil) = Some ((cons [o_pmin o; o_vmax o] nil), 1%Z) /\
  calculate_pi_profile_diagnostics 290 97000 3 wit_p colT colr 3 0 (9 / 10) = Some o /\ (0 < o_vmax o)%R.
Proof.
  destruct (good_core 0 (9 / 10)) as (o & A & F & _ & V). exists o.
  assert (V2 : valid_level (UNDEF, UNDEF) = false).
  { unfold valid_level. cbn [fst snd]. destruct (req_spec UNDEF UNDEF); [auto|contradiction]. }
  assert (VV : forall x y, (0 <= x)%R -> (0 <= y)%R -> valid_level (x, y) = true).
  { intros x y X Y. unfold valid_level. cbn [fst snd]. destruct (req_spec x UNDEF) as [Q|]; [unfold UNDEF in Q; lra|].
    destruct (req_spec y UNDEF) as [Q|]; [unfold UNDEF in Q; lra|]. auto. }
  split; [|split; [|auto]].
  - unfold calculate_pi_gridded_with_missing, grid_loop, point, lifted. cbn [order3 seq flat_map map app plus Nat.mul foldM g_sst g_psl g_T g_r g_P rd nth_error bind].
    assert (C0 : column3 4 (UNDEF :: colT) 0 = Some (UNDEF :: colT)) by reflexivity. assert (C3 : column3 4 (UNDEF :: colr) 0 = Some (UNDEF :: colr)) by reflexivity.
    rewrite C0, C3. cbn [bind]. unfold missing_cell. destruct (req_spec 290 UNDEF) as [Q|]; [unfold UNDEF in Q; lra|]. rewrite warm.
    assert (VS : valid_start 1 (combine (UNDEF :: colT) (UNDEF :: colr)) (4 + 1) = 2).
    { unfold colT, colr. cbn [combine valid_start]. rewrite V2, !VV by lra. auto. }
    rewrite VS. change (4 <? 2) with false. cbv iota. rewrite masked_T, masked_r, !skipn_map'.
    change (2 - 1) with 1. change (4 - 2 + 1) with 3. cbn [skipn combine colT colr].
    destruct (filled_valid [(280, 1 / 1000); (282, 1 / 1000); (220, 0)]%R) as [Q1 Q2].
    { cbn [forallb]. rewrite !VV by lra. auto. }
    cbn [map] in Q1, Q2 |- *. cbn [fst snd] in Q1, Q2. cbn [map] in A. unfold colT, colr in A. cbn [map] in A.
    injection Q1 as -> -> ->. injection Q2 as -> -> ->. rewrite A. cbn. rewrite F. auto.
  - unfold calculate_pi_profile_diagnostics. rewrite warm. exact A.
Qed.

Print Assumptions C82_flag_refuted.
Print Assumptions C82_entry_flag_refuted.
Print Assumptions C82_missing_psl_refuted.
Print Assumptions C82_interior_refuted.
Print Assumptions C82_ckcd_refuted.
Print Assumptions C82_cold_refuted.
