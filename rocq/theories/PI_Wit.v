(** A concrete column the solver handles in one pass: 280 K and 282 K at 1000 and
    980 mb, 1 g/kg, over a 290 K sea at 970 mb.  Used as example and counterexample. *)
From Coq Require Import Reals List Arith Lia ZArith Bool Lra.
From Verif Require Import Base Buffer VH_Model VH_Proofs PI_Model PI_Spec PI_Proofs1 PI_Proofs2 PI_Proofs3 PI_Dry.
Import ListNotations.
Local Open Scope nat_scope.

Lemma cape2 T p pp v o : cape_result T p 2 pp v o ->
  ((v 2%nat <= 0 -> o = mkcape 0 (lev T 1) 0 1) /\
   (0 < v 2%nat -> c_flag o = 1%Z /\ c_T o = lev T 2 /\ c_p o = lev p 2 /\
     c_cape o = Rmax ((v 2%nat + v 1%nat) * (28704 / 100 * (lev p 1 - lev p 2) / (lev p 1 + lev p 2))
                      + 28704 / 100 * (pp - lev p 1) / (pp + lev p 1) * v 1%nat) 0))%R.
Proof.
  intros [[A ->]|(l & ar & L & P & Q & F & C & D)].
  - split; [auto|]. intros P. specialize (A 2 ltac:(lia)). lra.
  - assert (l = 2) by lia. subst l. split; [intros; lra|]. intros _.
    destruct D as [(_ & -> & D1 & D2)|[D _]]; [|lia]. repeat (split; [auto; fail|]). rewrite C. f_equal. cbn [work]. lra.
Qed.

Lemma exp_ge_1 x : (0 <= x -> 1 <= exp x)%R.
Proof. intros H. generalize (exp_ineq1_le x). lra. Qed.
Lemma exp_le_inv x : (x < 1 -> exp x <= / (1 - x))%R.
Proof.
  intros H. generalize (exp_ineq1_le (- x)). intros G. rewrite exp_Ropp in G. 
  apply Rinv_le_contravar in G; [|lra]. rewrite Rinv_inv in G. replace (1 - x)%R with (1 + - x)%R by ring. auto.
Qed.
Lemma ln_le_sub x : (0 < x -> ln x <= x - 1)%R.
Proof. intros H. generalize (exp_ineq1_le (ln x)). rewrite exp_ln by auto. lra. Qed.
Lemma ln_nonneg x : (1 <= x -> 0 <= ln x)%R.
Proof. intros [H|<-]; [rewrite <- ln_1; left; apply ln_increasing; lra|rewrite ln_1; lra]. Qed.

(** x^(Rd/cpd) just above 1 *)
Lemma kappa_bounds x b : (0 <= x -> 28704 / 100570 * x < 1 -> 1 <= b * (1 - 28704 / 100570 * x) ->
  1 <= Rpower (1 + x) (28704 / 100570) <= b)%R.
Proof.
  intros H G B. unfold Rpower. assert (L : (0 <= ln (1 + x) <= x)%R).
  { split; [apply ln_nonneg; lra|]. generalize (ln_le_sub (1 + x)). lra. }
  split; [apply exp_ge_1; apply Rmult_le_pos; lra|].
  apply Rle_trans with (exp (28704 / 100570 * x)).
  - assert (M : (28704 / 100570 * ln (1 + x) <= 28704 / 100570 * x)%R) by (apply Rmult_le_compat_l; lra).
    destruct M as [M|M]; [left; apply exp_increasing; auto|rewrite M; lra].
  - eapply Rle_trans; [apply exp_le_inv; auto|]. apply (Rmult_le_reg_r (1 - 28704 / 100570 * x)); [lra|].
    rewrite Rinv_l by lra. auto.
Qed.

Lemma esat290 : (6 <= esat 290 <= 30)%R.
Proof.
  unfold esat. replace (1767 / 100 * (290 - 27315 / 100) / (290 - 2965 / 100))%R with (2977395 / 2603500)%R by field.
  assert (A : (1 <= exp (2977395 / 2603500))%R) by (apply exp_ge_1; lra).
  replace (2977395 / 2603500)%R with (1 + 373895 / 2603500)%R in * by field. rewrite exp_plus in *.
  assert (B : (exp (373895 / 2603500) <= 12 / 10)%R).
  { eapply Rle_trans; [apply exp_le_inv; lra|]. apply (Rmult_le_reg_r (1 - 373895 / 2603500)); [lra|]. rewrite Rinv_l by lra. lra. }
  assert (C := exp_le_3). assert (D := exp_pos (373895 / 2603500)). assert (F := exp_pos 1).
  assert (G : (exp 1 * exp (373895 / 2603500) <= 3 * (12 / 10))%R) by (apply Rmult_le_compat; lra). lra.
Qed.

Lemma esat280 : (6112 / 1000 <= esat 280)%R.
Proof.
  unfold esat. replace (1767 / 100 * (280 - 27315 / 100) / (280 - 2965 / 100))%R with (1210395 / 2503500)%R by field.
  assert (A : (1 <= exp (1210395 / 2503500))%R) by (apply exp_ge_1; lra). lra.
Qed.

Lemma lcl_wit : (p_lcl 280 (1 / 1000) 1000 <= 980)%R.
Proof.
  unfold p_lcl. set (h := rel_hum 280 (1 / 1000) 1000).
  assert (V : (vapour (1 / 1000) 1000 = 46150000 / 28750150)%R) by (unfold vapour, eps; field).
  assert (Es := esat280).
  assert (H : (0 < h <= 3 / 10)%R).
  { unfold h, rel_hum. rewrite V. split.
    - apply Rmin_glb_lt; [apply Rdiv_lt_0_compat; lra|lra].
    - eapply Rle_trans; [apply Rmin_l|]. apply (Rmult_le_reg_r (esat 280)); [lra|]. unfold Rdiv at 1. rewrite Rmult_assoc, Rinv_l by lra. lra. }
  clearbody h. unfold Rpower.
  assert (L : (ln h <= - (7 / 10))%R) by (generalize (ln_le_sub h); lra).
  assert (C : (1 / 5 <= 280 / (1669 - 122 * h - 280))%R).
  { apply (Rmult_le_reg_r (1669 - 122 * h - 280)); [lra|]. unfold Rdiv at 2. rewrite Rmult_assoc, Rinv_l by lra. lra. }
  set (c := (280 / (1669 - 122 * h - 280))%R) in *. clearbody c.
  assert (M : (c * ln h <= - (14 / 100))%R).
  { assert (1 / 5 * (7 / 10) <= c * - ln h)%R by (apply Rmult_le_compat; lra). lra. }
  assert (exp (c * ln h) <= exp (- (14 / 100)))%R by (destruct M as [M|M]; [left; apply exp_increasing; auto|rewrite M; lra]).
  assert (G : (exp (- (14 / 100)) <= / (1 - - (14 / 100)))%R) by (apply exp_le_inv; lra).
  replace (/ (1 - - (14 / 100)))%R with (100 / 114)%R in G by field. lra.
Qed.

Lemma Tdens_scale w T r : (Tdens (T * w) r r = w * Tdens T r r)%R.
Proof. unfold Tdens, Rdiv. ring. Qed.
Lemma Tdens_bounds r : (0 < r <= 2 / 100 -> 1 <= Tdens 1 r r <= 102 / 100)%R.
Proof.
  intros H. unfold Tdens, eps. split.
  - apply (Rmult_le_reg_r (1 + r)); [lra|]. unfold Rdiv at 1. rewrite Rmult_assoc, Rinv_l by lra. lra.
  - apply (Rmult_le_reg_r (1 + r)); [lra|]. unfold Rdiv at 1. rewrite Rmult_assoc, Rinv_l by lra. lra.
Qed.

Section Wit.
Variables (sstC psl : R) (p tc rg : list R) (num : nat) (ofl : Z) (ckcd : R).
Let T := kelvin tc num. Let r := ratio rg num.
Hypotheses (Hs : (sstC + KELVIN = 290)%R) (Hpsl : psl = 970%R) (Hn : effective_points p num = Some 2) (Hnum : 2 <= num)
  (LT : num <= length tc) (Lr : num <= length rg) (Lp : num <= length p)
  (P1 : lev p 1 = 1000%R) (P2 : lev p 2 = 980%R)
  (T1 : lev T 1 = 280%R) (T2 : lev T 2 = 282%R) (R1 : lev r 1 = (1 / 1000)%R) (R2 : lev r 2 = (1 / 1000)%R).

Lemma wit_sounding : sounding T p 2.
Proof.
  unfold sounding. split; [unfold T, kelvin; rewrite map_length, firstn_length; lia|]. split; [lia|]. split.
  - intros k K. assert (D : k = 1 \/ k = 2) by lia. destruct D as [-> | ->]; rewrite ?T1, ?T2, ?P1, ?P2; lra.
  - intros i j I J. assert (i = 1) by lia. assert (j = 2) by lia. subst. rewrite P1, P2. lra.
Qed.

Lemma wit_env : exists E, prepare_cape_environment T r p 2 = Some E.
Proof.
  apply prepare_defined; try lia.
  - unfold T, kelvin. rewrite map_length, firstn_length. lia.
  - unfold r, ratio. rewrite map_length, firstn_length. lia.
  - intros k K. assert (D : k = 1 \/ k = 2) by lia. destruct D as [-> | ->]; rewrite ?T1, ?T2, ?P1, ?P2, ?R1, ?R2; lra.
Qed.

Let tv1 := Tdens 1 (1 / 1000) (1 / 1000).
Lemma tv1_b : (10006 / 10000 <= tv1 <= 10007 / 10000)%R.
Proof. unfold tv1, Tdens, eps. split; lra. Qed.

(** the environment's own CAPE *)
Lemma wit_ce E : prepare_cape_environment T r p 2 = Some E ->
  cape_from_cached_environment 280 (1 / 1000) 1000 E 2 0 = Some (mkcape 0 280 0 1).
Proof.
  intros HE. destruct (kernel_dry T r p 2 E 280 (1 / 1000) 1000 0 HE) as [o [Eo Q]]; try lra; try lia; try apply wit_sounding.
  { intros k K. assert (D : k = 1 \/ k = 2) by lia. generalize lcl_wit. destruct D as [-> | ->]; rewrite ?P1, ?P2; lra. }
  rewrite Eo. f_equal. apply cape2 in Q. destruct Q as [Q _]. rewrite T1 in Q. apply Q.
  unfold dry_buoyancy. rewrite P2, T2, R2, Tdens_scale. replace 280%R with (1 * 280)%R by ring. replace 282%R with (1 * 282)%R by ring.
  rewrite !Tdens_scale. fold tv1. assert (B := tv1_b).
  assert (W : (Rpower (980 / 1000) (28704 / 100570) <= 1)%R) by (apply Rpower_le_1; lra).
  assert (W0 : (0 < Rpower (980 / 1000) (28704 / 100570))%R) by apply exp_pos.
  assert (Rpower (980 / 1000) (28704 / 100570) * (280 * tv1) <= 1 * (280 * tv1))%R by (apply Rmult_le_compat_r; lra). lra.
Qed.

Lemma wit_lcl Tp rp : (200 <= Tp <= 1000 -> 0 < rp -> forall k, (1 <= k <= 2)%nat -> 50 <= lev p k /\ p_lcl Tp rp 970 <= lev p k)%R.
Proof.
  intros A B k K. generalize (p_lcl_le Tp rp 970). assert (D : k = 1 \/ k = 2) by lia. destruct D as [-> | ->]; rewrite ?P1, ?P2; lra.
Qed.

(** the environment's air at 970 mb *)
Lemma wit_cm E : prepare_cape_environment T r p 2 = Some E ->
  cape_from_cached_environment 280 (1 / 1000) 970 E 2 0 = Some (mkcape 0 280 0 1).
Proof.
  intros HE. destruct (kernel_dry T r p 2 E 280 (1 / 1000) 970 0 HE) as [o [Eo Q]]; try lra; try lia; try apply wit_sounding.
  { intros k K. apply wit_lcl; auto; lra. }
  rewrite Eo. f_equal. apply cape2 in Q. destruct Q as [Q _]. rewrite T1 in Q. apply Q.
  unfold dry_buoyancy. rewrite P2, T2, R2, Tdens_scale. replace 280%R with (1 * 280)%R by ring. replace 282%R with (1 * 282)%R by ring.
  rewrite !Tdens_scale. fold tv1. assert (B := tv1_b).
  replace (980 / 970)%R with (1 + 1 / 97)%R by field.
  assert (W := kappa_bounds (1 / 97) (1003 / 1000) ltac:(lra) ltac:(lra) ltac:(lra)).
  assert (Rpower (1 + 1 / 97) (28704 / 100570) * (280 * tv1) <= 1003 / 1000 * (280 * tv1))%R by (apply Rmult_le_compat_r; lra). lra.
Qed.

(** air saturated at the sea surface *)
Let rs := rsat_core 290 970.
Lemma rs_b : (1 / 1000000 <= rs <= 2 / 100)%R.
Proof.
  unfold rs, rsat_core, eps_core. assert (B := esat290). split.
  - apply (Rmult_le_reg_r (970 - esat 290)); [lra|]. unfold Rdiv at 2. rewrite Rmult_assoc, Rinv_l by lra. lra.
  - apply (Rmult_le_reg_r (970 - esat 290)); [lra|]. unfold Rdiv at 1. rewrite Rmult_assoc, Rinv_l by lra. lra.
Qed.

Definition wit_s1 : R := (Rpower (1000 / 970) (28704 / 100570) * Tdens 290 rs rs - 280 * tv1)%R.
Definition wit_s2 : R := (Rpower (980 / 970) (28704 / 100570) * Tdens 290 rs rs - 282 * tv1)%R.
Definition wit_c : R := ((wit_s2 + wit_s1) * (28704 / 100 * 20 / 1980) - 28704 / 100 * 30 / 1970 * wit_s1)%R.

Lemma wit_s_b : (0 < wit_s2 /\ 1 <= wit_c <= 40)%R.
Proof.
  unfold wit_c, wit_s1, wit_s2. assert (B := tv1_b). assert (Q := rs_b).
  replace 290%R with (1 * 290)%R by ring. rewrite Tdens_scale. generalize (Tdens_bounds rs). intros D.
  set (d := Tdens 1 rs rs) in *. assert (D' : (1 <= d <= 102 / 100)%R) by (apply D; lra). clearbody d. clear D.
  replace (980 / 970)%R with (1 + 1 / 97)%R by field. replace (1000 / 970)%R with (1 + 3 / 97)%R by field.
  assert (W2 := kappa_bounds (1 / 97) (1003 / 1000) ltac:(lra) ltac:(lra) ltac:(lra)).
  assert (W1 := kappa_bounds (3 / 97) (1009 / 1000) ltac:(lra) ltac:(lra) ltac:(lra)).
  set (w2 := Rpower (1 + 1 / 97) (28704 / 100570)) in *. set (w1 := Rpower (1 + 3 / 97) (28704 / 100570)) in *. clearbody w1 w2 tv1.
  assert (A1 : (1 * (290 * d) <= w2 * (290 * d) <= 1003 / 1000 * (290 * d))%R) by (split; apply Rmult_le_compat_r; lra).
  assert (A2 : (1 * (290 * d) <= w1 * (290 * d) <= 1009 / 1000 * (290 * d))%R) by (split; apply Rmult_le_compat_r; lra).
  set (x2 := (w2 * (290 * d))%R) in *. set (x1 := (w1 * (290 * d))%R) in *. clearbody x1 x2. lra.
Qed.

Lemma wit_cs E : prepare_cape_environment T r p 2 = Some E ->
  exists o, cape_from_cached_environment 290 rs 970 E 2 0 = Some o /\ c_flag o = 1%Z /\ c_T o = 282%R /\ c_p o = 980%R /\
    c_cape o = wit_c.
Proof.
  intros HE. assert (Q := rs_b).
  destruct (kernel_dry T r p 2 E 290 rs 970 0 HE) as [o [Eo C]]; try lra; try lia; try apply wit_sounding.
  { intros k K. apply wit_lcl; auto; lra. }
  exists o. split; [auto|]. apply cape2 in C. destruct C as [_ C]. destruct wit_s_b as [S2 Sc].
  assert (V2 : dry_buoyancy T r p 290 rs 970 2 = wit_s2).
  { unfold dry_buoyancy, wit_s2. rewrite P2, T2, R2, Tdens_scale. replace (Tdens 282 (1 / 1000) (1 / 1000)) with (282 * tv1)%R; [auto|].
    unfold tv1. rewrite <- Tdens_scale. f_equal. lra. }
  assert (V1 : dry_buoyancy T r p 290 rs 970 1 = wit_s1).
  { unfold dry_buoyancy, wit_s1. rewrite P1, T1, R1, Tdens_scale. replace (Tdens 280 (1 / 1000) (1 / 1000)) with (280 * tv1)%R; [auto|].
    unfold tv1. rewrite <- Tdens_scale. f_equal. lra. }
  rewrite V2 in C. destruct (C S2) as (C1 & C2 & C3 & C4). rewrite T2 in C2. rewrite P2 in C3. split; [auto|]. split; [auto|]. split; [auto|].
  rewrite C4, V1, P1, P2. rewrite Rmax_left; unfold wit_c in *; lra.
Qed.

Theorem wit_core : exists o, calculate_pi_core sstC psl p tc rg num ofl ckcd = Some o /\ o_flag o = 1%Z /\
  (let To := (if (ofl =? 1)%Z then 280 else 282)%R in
   o_To o = To /\ o_vmax o = 8 / 10 * sqrt (9 / 10 * (290 / To) * wit_c) /\ 960 <= o_pmin o <= 970)%R.
Proof.
  destruct wit_env as [E HE]. destruct (wit_cs E HE) as (cs & Ecs & F & CT & Cp & Cc).
  assert (B := esat290). assert (Q := rs_b). destruct wit_s_b as [_ Sc]. generalize (wit_ce E HE) (wit_cm E HE). intros Ce Cm.
  unfold calculate_pi_core. destruct (ckcd_log ckcd) as [lnck vck] eqn:Eck.
  rewrite magnus_ok by (unfold KELVIN in Hs; lra). cbn [bind].
  assert (MR : mapM (fun k => let* x := rd rg k in Some (Rmax (x * (1 / 1000)) 0)%R) (seq 1 num) = Some r)
    by (apply (mapM_rd_ok (fun x => Rmax (x * (1 / 1000)) 0)%R); auto).
  rewrite MR. cbn [bind].
  assert (MT : mapM (fun k => let* x := rd tc k in Some (x + KELVIN)%R) (seq 1 num) = Some T) by (apply (mapM_rd_ok (fun x => x + KELVIN)%R); auto).
  rewrite MT. cbn [bind]. rewrite Hn. cbn [bind]. rewrite HE. cbn [bind].
  assert (L2 : 1 <= length T) by (unfold T, kelvin; rewrite map_length, firstn_length; lia).
  assert (L3 : 1 <= length r) by (unfold r, ratio; rewrite map_length, firstn_length; lia).
  rewrite !lev_rd by lia. cbn [bind].
  rewrite T1, R1, P1, Ce. cbn [bind c_flag]. cbn [negb Z.eqb Pos.eqb].
  replace (sstC + 27315 / 100)%R with 290%R by (unfold KELVIN in Hs; lra). rewrite Hs, Hpsl.
  set (To := (if (ofl =? 1)%Z then 280 else 282)%R). set (po := (if (ofl =? 1)%Z then 0 else 980)%R).
  assert (ToB : (280 <= To <= 282)%R) by (unfold To; destruct (ofl =? 1)%Z; lra).
  set (tv := (1 / 2 * (280 * (1 + 1 / 1000 * INV_0622) / (1 + 1 / 1000) + 290 * (1 + rs * INV_0622) / (1 + rs)))%R).
  assert (tvB : (280 <= tv)%R).
  { unfold tv, INV_0622. assert (290 <= 290 * (1 + rs * (16077899 / 10000000)) / (1 + rs))%R.
    { apply (Rmult_le_reg_r (1 + rs)); [lra|]. unfold Rdiv at 1. rewrite Rmult_assoc, Rinv_l by lra. lra. } lra. }
  set (k := mkpass 0 wit_c To po (290 / To) tv).
  set (cat := Rmax (0 - 0 + 1 / 2 * CKCD_SOLVER * (290 / To) * (wit_c - 0))%R 0).
  assert (CP : core_pass E 2 280 (1 / 1000) 290 (esat 290) 970 ofl 0 970 = Some (inr (k, cat))).
  { unfold core_pass. rewrite Rmin_left by lra. unfold EPS_CONST.
    rewrite rdiv_ok by lra. cbn [bind].
    replace (62197183 / 100000000 * (1 / 1000) * 970 / (970 * (62197183 / 100000000 + 1 / 1000) - 1 / 1000 * 970))%R with (1 / 1000)%R by field.
    rewrite Cm. cbn [bind c_flag negb Z.eqb Pos.eqb]. rewrite rdiv_ok by lra. cbn [bind]. fold eps_core. fold (rsat_core 290 970). fold rs.
    rewrite Ecs. cbn [bind]. rewrite F. cbn [negb Z.eqb Pos.eqb c_T c_p c_cape]. rewrite CT, Cp, Cc. fold To po.
    rewrite !rdiv_ok by lra. cbn [bind]. auto. }
  assert (RB : (1 <= 290 / To <= 12 / 10)%R).
  { split; apply (Rmult_le_reg_r To); try lra; [unfold Rdiv at 1|unfold Rdiv at 1]; rewrite Rmult_assoc, Rinv_l by lra; lra. }
  assert (catB : (0 <= cat <= 22)%R).
  { unfold cat, CKCD_SOLVER. split; [apply Rmax_r|]. apply Rmax_lub; [|lra].
    assert (290 / To * wit_c <= 12 / 10 * 40)%R by (apply Rmult_le_compat; lra). lra. }
  assert (Pb : forall c, (0 <= c <= 100 -> 970 - c / 80 <= 970 * exp (- c * INV_RD / tv) <= 970)%R).
  { intros c Hc. assert (X : (0 <= c * INV_RD / tv <= c / 80000)%R).
    { assert (I : INV_RD = (100 / 28704)%R) by (unfold INV_RD, RD; field). rewrite I. split.
      - apply Rmult_le_pos; [lra|]. left. apply Rinv_0_lt_compat. lra.
      - apply (Rmult_le_reg_r tv); [lra|]. replace (c * (100 / 28704) / tv * tv)%R with (c * (100 / 28704))%R by (field; lra).
        assert (c / 80000 * 280 <= c / 80000 * tv)%R by (apply Rmult_le_compat_l; lra). lra. }
    replace (- c * INV_RD / tv)%R with (- (c * INV_RD / tv))%R by (unfold Rdiv; ring).
    set (x := (c * INV_RD / tv)%R) in *. clearbody x. generalize (exp_ineq1_le (- x)) (pow_le_one x). lra. }
  assert (LO : forall f, core_loop (S f) 0 E 2 280 (1 / 1000) 290 (esat 290) 970 ofl 0 970 970 0 None
     = Some (Ldone 1 (970 * exp (- cat * INV_RD / tv)) 970 (Some k))).
  { intros f. cbn [core_loop].
    destruct (rlt_spec (1 / 2) (Rabs (0 - 970))) as [A|A].
    2:{ rewrite Rabs_left in A by lra. lra. }
    cbn [negb]. rewrite CP. cbn [bind k_tv k]. rewrite rdiv_ok by lra. cbn [bind].
    assert (PB := Pb cat ltac:(lra)).
    destruct (rlt_spec (970 * exp (- cat * INV_RD / tv)) 400); [lra|]. rewrite orb_false_r.
    cbn [Nat.ltb Nat.leb CORE_MAX_IT]. 
    destruct f; cbn [core_loop]; destruct (rlt_spec (1 / 2) (Rabs (970 * exp (- cat * INV_RD / tv) - 970))) as [A'|A']; auto;
    rewrite Rabs_left1 in A' by lra; lra. }
  cbn [c_cape]. rewrite (LO 201). cbn [bind]. unfold core_finish. cbn [k_m k_s k_tv k_To k_po k_rat k].
  rewrite rdiv_ok by lra. cbn [bind].
  assert (Fc : Rmax 0 (wit_c - 0) = wit_c) by (rewrite Rmax_right; lra).
  rewrite Fc. rewrite rsqrt_ok by (unfold CKCD_SOLVER; repeat apply Rmult_le_pos; lra). cbn [bind].
  set (v := (8 / 10 * sqrt (CKCD_SOLVER * (290 / To) * wit_c))%R).
  assert (LE : exists le, (if (rlt 0 To && rlt To 290)%bool
      then let* ef := rdiv (290 - To) To in if rlt 0 ef then let* l := rlog ef in Some (Some l) else Some None
      else Some None) = Some le).
  { destruct (rlt 0 To && rlt To 290)%bool; [|eauto]. rewrite rdiv_ok by lra. cbn [bind].
    destruct (rlt_spec 0 ((290 - To) / To)); [|eauto]. rewrite rlog_ok by auto. cbn. eauto. }
  destruct LE as [le LE]. rewrite LE. cbn [bind].
  assert (LP' : exists lp, (if rlt 0 v then let* l := rlog v in Some (Some (2 * l)%R) else Some None) = Some lp).
  { destruct (rlt_spec 0 v); [|eauto]. rewrite rlog_ok by auto. cbn. eauto. }
  destruct LP' as [lp LP']. rewrite LP'. cbn [bind]. eexists. split; [reflexivity|]. cbn [o_flag o_To o_vmax o_pmin].
  split; [auto|]. split; [auto|]. split; [auto|]. set (c2 := Rmax _ 0).
  assert (c2B : (0 <= c2 <= 100)%R).
  { unfold c2, CKCD_SOLVER. split; [apply Rmax_r|]. apply Rmax_lub; [|lra].
    assert (290 / To * wit_c <= 12 / 10 * 40)%R by (apply Rmult_le_compat; lra). lra. }
  generalize (Pb c2 c2B). lra.
Qed.
End Wit.
