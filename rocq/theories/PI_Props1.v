(** C80, C81: the CAPE kernel and the potential-intensity solver of
    tropical_cyclone_potential_intensity.f90. *)
From Coq Require Import Reals List Arith Lia ZArith Bool Lra.
From Verif Require Import Base Buffer VH_Model VH_Proofs PI_Model PI_Model2 PI_Spec PI_Proofs1 PI_Proofs2 PI_Proofs3 PI_Dry PI_Wit.
Import ListNotations.
Local Open Scope nat_scope.

(** * C80 *)

(** The three outcomes.  On flag 1 the buoyancies are those of the parcel at
    every level and CAPE and outflow follow from them. *)
Theorem C80_cape : forall (T r p : list R) n E Tp rp pp sig o,
  prepare_cape_environment T r p n = Some E -> 1 <= n ->
  (forall i j, 1 <= i < j -> j <= n -> (lev p j < lev p i)%R) ->
  cape_from_cached_environment Tp rp pp E n sig = Some o ->
  ((rp < 1 / 1000000 \/ Tp < 200)%R /\ o = mkcape 0 (lev T 1) (lev p 1) 0) \/
  ((1 / 1000000 <= rp /\ 200 <= Tp)%R /\
   (o = mkcape 0 (lev T 1) (lev p 1) 2 \/
    exists v, (forall k, 1 <= k <= n -> buoyancy T r p Tp rp pp sig k (v k)) /\ cape_result T p n pp v o)).
Proof. intros. eapply cape_kernel; eauto. Qed.

(** CAPE is never negative; the outflow temperature and pressure lie within the
    range spanned by two neighbouring levels (or are those of level 1 with
    pressure 0 when the parcel is never buoyant above it). *)
Theorem C80_outflow : forall T r p n E Tp rp pp sig o,
  prepare_cape_environment T r p n = Some E -> 1 <= n -> sounding T p n ->
  cape_from_cached_environment Tp rp pp E n sig = Some o ->
  (0 <= c_cape o /\ 0 < c_T o)%R /\
  (c_flag o = 1%Z ->
   (c_cape o = 0 /\ c_T o = lev T 1 /\ c_p o = 0)%R \/
   exists l, 2 <= l <= n /\
     (lev p (Nat.min (l + 1) n) <= c_p o <= lev p l)%R /\
     (Rmin (lev T l) (lev T (Nat.min (l + 1) n)) <= c_T o <= Rmax (lev T l) (lev T (Nat.min (l + 1) n)))%R).
Proof.
  intros T r p n E Tp rp pp sig o HE N Sd H. assert (Dec := proj2 (proj2 (proj2 Sd))).
  assert (P1 : (0 < lev T 1 /\ 0 < lev p 1)%R) by (apply Sd; lia).
  destruct (cape_kernel _ _ _ _ _ _ _ _ _ _ HE N Dec H) as [[_ ->]|[_ [->|(v & _ & Q)]]]; cbn [c_cape c_T c_flag c_p];
    try (split; [lra|intros X; discriminate]).
  destruct (cape_result_bounds _ _ _ _ _ _ Sd N Q) as (_ & B1 & B2 & _). split; [lra|]. intros _.
  destruct Q as [[_ ->]|(l & area & L & P & U & F & C & D)]; [left; auto|right]. exists l. split; [auto|].
  destruct D as [(-> & _ & D1 & D2)|(Ln & lam & A1 & A2 & A3 & A4 & _)].
  - replace (Nat.min (n + 1) n) with n by lia. rewrite D1, D2. rewrite Rmin_left, Rmax_left by lra. lra.
  - replace (Nat.min (l + 1) n) with (l + 1) by lia. rewrite A3, A4.
    assert (D : (lev p (l + 1) < lev p l)%R) by (apply Dec; lia).
    assert (M1 := Rmin_l (lev T l) (lev T (l + 1))). assert (M2 := Rmin_r (lev T l) (lev T (l + 1))).
    assert (M3 := Rmax_l (lev T l) (lev T (l + 1))). assert (M4 := Rmax_r (lev T l) (lev T (l + 1))).
    set (m := Rmin (lev T l) (lev T (l + 1))) in *. set (M := Rmax (lev T l) (lev T (l + 1))) in *. clearbody m M. set (a := lev T l) in *. set (b := lev T (l + 1)) in *.
    set (x := lev p l) in *. set (y := lev p (l + 1)) in *. clearbody a b x y.
    assert (0 <= lam * (x - y))%R by (apply Rmult_le_pos; lra). assert (0 <= (1 - lam) * (x - y))%R by (apply Rmult_le_pos; lra).
    assert (0 <= lam * (b - m))%R by (apply Rmult_le_pos; lra). assert (0 <= (1 - lam) * (a - m))%R by (apply Rmult_le_pos; lra).
    assert (0 <= lam * (M - b))%R by (apply Rmult_le_pos; lra). assert (0 <= (1 - lam) * (M - a))%R by (apply Rmult_le_pos; lra).
    split; split; lra.
Qed.

(** Levels beyond n are never used. *)
Theorem C80_levels : forall Tp rp pp T r p T' r' p' n sig,
  (forall k, 1 <= k <= n -> rd T k = rd T' k /\ rd r k = rd r' k /\ rd p k = rd p' k) ->
  CAPE Tp rp pp T r p n sig = CAPE Tp rp pp T' r' p' n sig.
Proof. intros. unfold CAPE. rewrite (prepare_ext T r p T' r' p'); auto. Qed.

(** The kernel is defined (no division by zero, no logarithm or power outside
    its domain) for every sounding and parcel, provided it is at the moist
    levels; and with no moist level the buoyancies are the dry ones. *)
Theorem C80_defined : forall T r p n E Tp rp pp sig, prepare_cape_environment T r p n = Some E -> 1 <= n ->
  sounding T p n -> (200 <= Tp <= 1000 -> 1 / 1000000 <= rp -> 0 < pp ->
  (forall k, (1 <= k <= n)%nat -> 50 <= lev p k -> lev p k < p_lcl Tp rp pp ->
     exists o, moist_diff E rp (s_parcel Tp rp pp) sig k = Some o) ->
  exists o, cape_from_cached_environment Tp rp pp E n sig = Some o)%R.
Proof. exact kernel_defined. Qed.

Theorem C80_dry : forall T r p n E Tp rp pp sig, prepare_cape_environment T r p n = Some E -> 1 <= n ->
  sounding T p n -> (200 <= Tp <= 1000 -> 1 / 1000000 <= rp -> 0 < pp ->
  (forall k, (1 <= k <= n)%nat -> 50 <= lev p k /\ p_lcl Tp rp pp <= lev p k) ->
  exists o, cape_from_cached_environment Tp rp pp E n sig = Some o /\
    cape_result T p n pp (fun k =>
      Tdens (Tp * Rpower (lev p k / pp) (28704 / 100570)) rp rp - Tdens (lev T k) (lev r k) (lev r k)) o)%R.
Proof. exact kernel_dry. Qed.

(** * C81 *)

Definition wit_p : list R := [1000; 980; 50]%R.
Definition wit_t : list R := [280 - 27315 / 100; 282 - 27315 / 100; 220 - 27315 / 100]%R.
Definition wit_q : list R := [1; 1; 0]%R.

Lemma eff3 p : length p = 3 -> lev p 1 = 1000%R -> lev p 2 = 980%R -> lev p 3 = 50%R -> effective_points p 3 = Some 2.
Proof.
  intros L A B C. destruct (effective_ok p 3) as [n En]; [lia|].
  destruct (effective_some p 3 n ltac:(lia) En) as (top & Nt & ->).
  assert (N3 : nearest50 p 3 3).
  { split; [lia|]. rewrite C. replace (50 - 50)%R with 0%R by ring. rewrite Rabs_R0. split.
    - intros i I. assert (D : i = 1 \/ i = 2) by lia. destruct D as [-> | ->]; rewrite ?A, ?B, Rabs_right; lra.
    - intros. apply Rabs_pos. }
  rewrite (nearest50_unique _ _ _ _ Nt N3) in *. exact En.
Qed.

Lemma ex_core ofl ckcd : exists o, calculate_pi_core (290 - 27315 / 100) 970 wit_p wit_t wit_q 3 ofl ckcd = Some o /\
  o_flag o = 1%Z /\
  (let To := (if (ofl =? 1)%Z then 280 else 282)%R in
   o_To o = To /\ o_vmax o = 8 / 10 * sqrt (9 / 10 * (290 / To) * wit_c) /\ 960 <= o_pmin o <= 970)%R.
Proof.
  apply wit_core; auto; try (cbn; lia); try (cbn; lra).
  - unfold KELVIN. lra.
  - apply eff3; auto.
  - unfold ratio, lev, wit_q. cbn. rewrite Rmax_left; lra.
  - unfold ratio, lev, wit_q. cbn. rewrite Rmax_left; lra.
Qed.

Lemma ex_sounding : sounding (kelvin wit_t 3) wit_p 3.
Proof.
  unfold sounding. cbn [length kelvin firstn map wit_t wit_p]. split; [lia|]. split; [lia|]. split.
  - intros k K. assert (D : k = 1 \/ k = 2 \/ k = 3) by lia. destruct D as [-> |[-> | ->]]; unfold lev; cbn; lra.
  - intros i j I J. assert (D : i = 1 /\ j = 2 \/ i = 1 /\ j = 3 \/ i = 2 /\ j = 3) by lia.
    destruct D as [[-> ->]|[[-> ->]|[-> ->]]]; unfold lev; cbn; lra.
Qed.

(** On success: the converged state, the bounds and the decomposition (the
    fields of [pi_success], stated with CAPE and the formulas of PI_Spec). *)
Theorem C81_success : forall sstC psl p tc rg num ofl ckcd o,
  calculate_pi_core sstC psl p tc rg num ofl ckcd = Some o -> o_flag o = 1%Z ->
  1 <= num -> (0 < psl)%R -> sounding (kelvin tc num) p num ->
  exists top, nearest50 p num top /\
    pi_success (sstC + 27315 / 100) psl (kelvin tc num) (ratio rg num) p (Nat.max 1 (top - 1)) ofl ckcd o.
Proof. intros. eapply core_success; eauto. Qed.

(** What a failure returns.  The claim that every output is then the missing
    value is false (next theorem): it holds only when the pressure iteration
    diverges. *)
Theorem C81_failure_partial : forall sstC psl p tc rg num ofl ckcd o,
  calculate_pi_core sstC psl p tc rg num ofl ckcd = Some o -> o_flag o <> 1%Z ->
  1 <= num -> sounding (kelvin tc num) p num ->
  (o_flag o = 0%Z \/ o_flag o = 2%Z) /\
  o_lnpi o = UNDEF /\ o_lneff o = UNDEF /\ o_lndiseq o = UNDEF /\
  (o_flag o = 2%Z /\ o_pmin o = UNDEF /\ o_vmax o = UNDEF /\ o_To o = UNDEF /\ o_po o = UNDEF \/
   o_pmin o = psl /\ o_vmax o = 0%R).
Proof. intros. eapply core_failure; eauto. Qed.

(** A dry lowest level makes the solver fail, with the sea-level pressure and
    wind 0 as results. *)
Lemma dry_surface sstC psl p tc rg num ofl ckcd n E : 
  (sstC + 2435 / 10 <> 0)%R -> num <= length tc -> num <= length rg -> 1 <= num -> num <= length p ->
  effective_points p num = Some n -> prepare_cape_environment (kelvin tc num) (ratio rg num) p n = Some E -> 1 <= n ->
  lev (ratio rg num) 1 = 0%R ->
  exists o, calculate_pi_core sstC psl p tc rg num ofl ckcd = Some o /\ o_flag o = 0%Z /\ o_pmin o = psl /\ o_vmax o = 0%R.
Proof.
  intros Hs LT Lr N Lp Hn HE N1 R0. assert (OK := prepare_ok _ _ _ _ _ HE). unfold calculate_pi_core.
  destruct (ckcd_log ckcd) as [lnck vck]. rewrite magnus_ok by auto. cbn [bind].
  assert (MR : mapM (fun k => let* x := rd rg k in Some (Rmax (x * (1 / 1000)) 0)%R) (seq 1 num) = Some (ratio rg num))
    by (apply (mapM_rd_ok (fun x => Rmax (x * (1 / 1000)) 0)%R); auto).
  assert (MT : mapM (fun k => let* x := rd tc k in Some (x + KELVIN)%R) (seq 1 num) = Some (kelvin tc num))
    by (apply (mapM_rd_ok (fun x => x + KELVIN)%R); auto).
  rewrite MR. cbn [bind]. rewrite MT. cbn [bind]. rewrite Hn. cbn [bind]. rewrite HE. cbn [bind].
  assert (L2 : 1 <= length (kelvin tc num)) by (unfold kelvin; rewrite map_length, firstn_length; lia).
  assert (L3 : 1 <= length (ratio rg num)) by (unfold ratio; rewrite map_length, firstn_length; lia).
  rewrite !lev_rd by lia. cbn [bind]. rewrite R0. unfold cape_from_cached_environment.
  rewrite (eo_T _ _ _ _ _ OK), (eo_p _ _ _ _ _ OK) by lia. cbn [bind].
  destruct (rlt_spec 0 (1 / 1000000)); [|lra]. cbn. eauto.
Qed.

Theorem C81_failure_refuted : exists sstC psl p tc rg num ofl ckcd o,
  calculate_pi_core sstC psl p tc rg num ofl ckcd = Some o /\ sounding (kelvin tc num) p num /\ (0 < psl)%R /\
  o_flag o = 0%Z /\ o_pmin o = psl /\ o_vmax o = 0%R /\ psl <> UNDEF.
Proof.
  exists (290 - 27315 / 100)%R, 970%R, wit_p, wit_t, [0; 0; 0]%R, 3, 0%Z, (9 / 10)%R.
  assert (R0 : forall k, 1 <= k <= 3 -> lev (ratio [0; 0; 0]%R 3) k = 0%R).
  { intros k K. assert (D : k = 1 \/ k = 2 \/ k = 3) by lia. destruct D as [-> |[-> | ->]]; unfold lev, ratio; cbn; rewrite Rmax_left; lra. }
  destruct (prepare_defined (kelvin wit_t 3) (ratio [0; 0; 0]%R 3) wit_p 2) as [E HE]; try (cbn; lia).
  { intros k K. rewrite R0 by lia. assert (D : k = 1 \/ k = 2) by lia. destruct D as [-> | ->]; unfold lev, kelvin, wit_t, wit_p; cbn; lra. }
  destruct (dry_surface (290 - 27315 / 100) 970 wit_p wit_t [0; 0; 0]%R 3 0 (9 / 10) 2 E) as (o & H & F & P & V); auto; try (cbn; lia); try lra.
  - apply eff3; auto.
  - exists o. split; [auto|]. split; [apply ex_sounding|]. split; [lra|]. repeat (split; [auto; fail|]). unfold UNDEF. lra.
Qed.

(** 201 passes always suffice (the model's fuel of 202 is never exhausted). *)
Theorem C81_iterations : forall psl ofl E n T1 r1 ss es ce o,
  core_loop 201 0 E n T1 r1 ss es psl ofl ce 970 970 0 None = Some o -> o <> Lfuel.
Proof. intros. eapply core_loop_fuel; eauto. Qed.

(** Only the levels below the one nearest 50 mb matter. *)
Theorem C81_levels : forall sstC psl p tc rg tc' rg' num ofl c top, nearest50 p num top -> num <= length p ->
  num <= length tc -> num <= length rg -> num <= length tc' -> num <= length rg' ->
  (forall k, 1 <= k <= Nat.max 1 (top - 1) -> rd tc k = rd tc' k /\ rd rg k = rd rg' k) ->
  calculate_pi_core sstC psl p tc rg num ofl c = calculate_pi_core sstC psl p tc' rg' num ofl c.
Proof.
  intros sstC psl p tc rg tc' rg' num ofl c top Nt Lp L1 L2 L3 L4 H. assert (B : 1 <= num) by (destruct Nt; lia).
  destruct (effective_ok p num) as [n En]; [lia|]. destruct (effective_some p num n B En) as (t & Nt' & Hn).
  rewrite (nearest50_unique _ _ _ _ Nt' Nt) in Hn. destruct Nt as [Nt _].
  apply (core_levels sstC psl p tc rg tc' rg' num ofl c n); auto; try lia. rewrite Hn. auto.
Qed.

(** ckcd_in changes the diagnostics only. *)
Theorem C81_ckcd : forall sstC psl p tc rg num ofl c c' o, calculate_pi_core sstC psl p tc rg num ofl c = Some o ->
  exists o', calculate_pi_core sstC psl p tc rg num ofl c' = Some o' /\
    o_pmin o = o_pmin o' /\ o_vmax o = o_vmax o' /\ o_To o = o_To o' /\ o_po o = o_po o' /\
    o_lnpi o = o_lnpi o' /\ o_lneff o = o_lneff o' /\ o_flag o = o_flag o'.
Proof. intros. eapply core_ckcd; eauto. Qed.

(** With at most one level below the one nearest 50 mb there is no storm. *)
Theorem C81_one_level : forall sstC psl p tc rg num ofl ckcd o top,
  calculate_pi_core sstC psl p tc rg num ofl ckcd = Some o -> o_flag o = 1%Z ->
  1 <= num -> (0 < psl)%R -> sounding (kelvin tc num) p num -> nearest50 p num top -> top <= 2 ->
  o_pmin o = psl /\ o_vmax o = 0%R /\ o_lnpi o = UNDEF /\ o_lndiseq o = UNDEF.
Proof.
  intros sstC psl p tc rg num ofl ckcd o top H F N P Sd Nt Tp.
  destruct (core_success _ _ _ _ _ _ _ _ _ H F N P Sd) as (t & Nt' & Q).
  rewrite (nearest50_unique _ _ _ _ Nt' Nt) in Q. replace (Nat.max 1 (top - 1)) with 1 in Q by lia.
  destruct Q as [(np & ce & cm & cs & pm0 & pm & Q) _ _ [_ QL] _ _ [_ QD]].
  cbn zeta in Q. destruct Q as (_ & _ & _ & _ & _ & _ & _ & _ & _ & _ & _ & _ & _ & _ & Qp & _ & Qv & Q1).
  destruct (Q1 eq_refl) as (C1 & C2 & C3).
  assert (V : o_vmax o = 0%R) by (rewrite Qv, C2, C3, Rminus_0_r, Rmax_left, Rmult_0_r, sqrt_0 by lra; ring).
  split; [|split; [auto|split; [auto|apply QD; lra]]].
  rewrite Qp. unfold pressure_of. rewrite C1, C2, C3. replace (0 - 0 + 9 / 10 * (3 / 4) * ((sstC + 27315 / 100) / o_To o) * (0 - 0))%R with 0%R by ring.
  rewrite Rmax_left by lra. unfold Rdiv. rewrite Ropp_0, Rmult_0_l, exp_0. ring.
Qed.

(** The outflow choice changes the wind (the Python documentation offers it as
    the source of the diagnostics). *)
Theorem C81_outflow_choice_refuted : exists sstC psl p tc rg num ckcd o o',
  calculate_pi_core sstC psl p tc rg num 0 ckcd = Some o /\ calculate_pi_core sstC psl p tc rg num 1 ckcd = Some o' /\
  o_flag o = 1%Z /\ o_flag o' = 1%Z /\ (0 < o_vmax o < o_vmax o')%R.
Proof.
  exists (290 - 27315 / 100)%R, 970%R, wit_p, wit_t, wit_q, 3, (9 / 10)%R.
  destruct (ex_core 0 (9 / 10)) as (o & H & F & _ & V & _). destruct (ex_core 1 (9 / 10)) as (o' & H' & F' & _ & V' & _).
  cbn in V, V'. exists o, o'. split; [auto|]. split; [auto|]. split; [auto|]. split; [auto|]. rewrite V, V'.
  destruct wit_s_b as [_ W]. assert (S0 : (0 < sqrt (9 / 10 * (290 / 282) * wit_c))%R) by (apply sqrt_lt_R0; lra).
  assert (S1 : (sqrt (9 / 10 * (290 / 282) * wit_c) < sqrt (9 / 10 * (290 / 280) * wit_c))%R) by (apply sqrt_lt_1; lra). lra.
Qed.

(** * Examples *)

(** a column with a wind *)
Example C81_success_example : exists o,
  calculate_pi_core (290 - 27315 / 100) 970 wit_p wit_t wit_q 3 0 (9 / 10) = Some o /\ o_flag o = 1%Z /\
  sounding (kelvin wit_t 3) wit_p 3 /\ (0 < o_vmax o)%R /\ o_To o = 282%R /\
  nearest50 wit_p 3 3.
Proof.
  destruct (ex_core 0 (9 / 10)) as (o & H & F & To & V & _). exists o. split; [auto|]. split; [auto|]. split; [apply ex_sounding|].
  cbn in V. split. { rewrite V. destruct wit_s_b as [_ W]. assert (0 < sqrt (9 / 10 * (290 / 282) * wit_c))%R by (apply sqrt_lt_R0; lra). lra. }
  split; [exact To|]. split; [lia|]. unfold lev, wit_p. cbn. replace (50 - 50)%R with 0%R by ring. rewrite Rabs_R0. split.
  - intros i I. assert (D : i = 1 \/ i = 2) by lia. destruct D as [-> | ->]; cbn; rewrite Rabs_right; lra.
  - intros. apply Rabs_pos.
Qed.

(** the kernel on that column: the air of the sea surface is buoyant, its
    outflow is level 2 *)
Example C80_example : exists E o,
  prepare_cape_environment (kelvin wit_t 3) (ratio wit_q 3) wit_p 2 = Some E /\
  sounding (kelvin wit_t 3) wit_p 2 /\
  (forall k, (1 <= k <= 2)%nat -> (50 <= lev wit_p k /\ p_lcl 290 (rsat_core 290 970) 970 <= lev wit_p k)%R) /\
  cape_from_cached_environment 290 (rsat_core 290 970) 970 E 2 0 = Some o /\ c_flag o = 1%Z /\ (0 < c_cape o)%R /\
  c_T o = 282%R /\ c_p o = 980%R.
Proof.
  assert (T1 : lev (kelvin wit_t 3) 1 = 280%R) by (unfold kelvin, lev, wit_t; cbn; lra).
  assert (T2 : lev (kelvin wit_t 3) 2 = 282%R) by (unfold kelvin, lev, wit_t; cbn; lra).
  assert (R1 : lev (ratio wit_q 3) 1 = (1 / 1000)%R) by (unfold ratio, lev, wit_q; cbn; rewrite Rmax_left; lra).
  assert (R2 : lev (ratio wit_q 3) 2 = (1 / 1000)%R) by (unfold ratio, lev, wit_q; cbn; rewrite Rmax_left; lra).
  destruct (wit_env wit_p wit_t wit_q 3) as [E HE]; auto; try (cbn; lia).
  destruct (wit_cs wit_p wit_t wit_q 3) with (E := E) as (o & Ho & F & CT & Cp & Cc); auto; try (cbn; lia).
  exists E, o. split; [auto|]. split; [apply (sounding_le _ _ 3 2 ex_sounding); lia|]. split.
  { intros k K. apply (wit_lcl wit_p wit_t wit_q 3); auto; try (cbn; lia); try lra. generalize rs_b. lra. }
  split; [auto|]. split; [auto|]. rewrite Cc. destruct wit_s_b as [_ W]. split; [lra|auto].
Qed.

(** one level below 50 mb *)
Example C81_one_level_example : nearest50 [1000; 50]%R 2 2 /\ sounding (kelvin [7; -53]%R 2) [1000; 50]%R 2.
Proof.
  split.
  - split; [lia|]. unfold lev. cbn. replace (50 - 50)%R with 0%R by ring. rewrite Rabs_R0. split.
    + intros i I. assert (i = 1) by lia. subst. cbn. rewrite Rabs_right; lra.
    + intros. apply Rabs_pos.
  - unfold sounding. cbn [length kelvin firstn map]. split; [lia|]. split; [lia|]. split.
    + intros k K. assert (D : k = 1 \/ k = 2) by lia. destruct D as [-> | ->]; unfold lev; cbn; lra.
    + intros i j I J. assert (i = 1) by lia. assert (j = 2) by lia. subst. unfold lev; cbn; lra.
Qed.

(** a level above the one nearest 50 mb does not matter *)
Example C81_levels_example : 
  calculate_pi_core (290 - 27315 / 100) 970 wit_p wit_t wit_q 3 0 (9 / 10) =
  calculate_pi_core (290 - 27315 / 100) 970 wit_p [280 - 27315 / 100; 282 - 27315 / 100; 99]%R [1; 1; 7]%R 3 0 (9 / 10).
Proof.
  apply C81_levels with (top := 3); try (cbn; lia).
  - destruct C81_success_example as (? & _ & _ & _ & _ & _ & N). exact N.
  - intros k K. cbn in K. assert (D : k = 1 \/ k = 2) by lia. destruct D as [-> | ->]; auto.
Qed.

Print Assumptions C80_cape.
Print Assumptions C80_outflow.
Print Assumptions C80_levels.
Print Assumptions C80_defined.
Print Assumptions C80_dry.
Print Assumptions C81_success.
Print Assumptions C81_failure_partial.
Print Assumptions C81_failure_refuted.
Print Assumptions C81_iterations.
Print Assumptions C81_levels.
Print Assumptions C81_ckcd.
Print Assumptions C81_one_level.
Print Assumptions C81_outflow_choice_refuted.
