(** Further concrete columns: one usable level, missing sea-level pressure,
    missing interior level. *)
From Coq Require Import Reals List Arith Lia ZArith Bool Lra.
From Verif Require Import Base Buffer VH_Model VH_Proofs PI_Model PI_Spec PI_Proofs1 PI_Proofs2 PI_Proofs3 PI_Dry PI_Wit.
Import ListNotations.
Local Open Scope nat_scope.

(** the part of the core routine before the loop *)
Lemma core_start sstC psl p tc rg num ofl ckcd n E ce :
  (sstC + 2435 / 10 <> 0)%R -> num <= length tc -> num <= length rg -> 1 <= num -> num <= length p ->
  effective_points p num = Some n -> prepare_cape_environment (kelvin tc num) (ratio rg num) p n = Some E -> 1 <= n ->
  cape_from_cached_environment (lev (kelvin tc num) 1) (lev (ratio rg num) 1) (lev p 1) E n 0 = Some ce -> c_flag ce = 1%Z ->
  calculate_pi_core sstC psl p tc rg num ofl ckcd =
  (let* o := core_loop 202 0 E n (lev (kelvin tc num) 1) (lev (ratio rg num) 1) (sstC + KELVIN) (esat (sstC + 27315 / 100)) psl ofl (c_cape ce) 970 970 0 None in
   match o with
   | Lfuel => None
   | Lerr fl last => Some (mkpi psl 0 (match last with Some k => k_To k | None => UNDEF end)
                (match last with Some k => k_po k | None => UNDEF end) UNDEF UNDEF UNDEF (fst (ckcd_log ckcd)) fl)
   | Ldiv => Some (mkpi UNDEF UNDEF UNDEF UNDEF UNDEF UNDEF UNDEF (fst (ckcd_log ckcd)) 2)
   | Ldone _ _ _ None => None
   | Ldone _ _ _ (Some k) => core_finish (sstC + KELVIN) psl (c_cape ce) (fst (ckcd_log ckcd)) (snd (ckcd_log ckcd)) k
   end).
Proof.
  intros Hs LT Lr N Lp Hn HE N1 Hc F. unfold calculate_pi_core.
  destruct (ckcd_log ckcd) as [lnck vck]. rewrite magnus_ok by auto. cbn [bind fst snd].
  assert (MR : mapM (fun k => let* x := rd rg k in Some (Rmax (x * (1 / 1000)) 0)%R) (seq 1 num) = Some (ratio rg num))
    by (apply (mapM_rd_ok (fun x => Rmax (x * (1 / 1000)) 0)%R); auto).
  assert (MT : mapM (fun k => let* x := rd tc k in Some (x + KELVIN)%R) (seq 1 num) = Some (kelvin tc num))
    by (apply (mapM_rd_ok (fun x => x + KELVIN)%R); auto).
  rewrite MR. cbn [bind]. rewrite MT. cbn [bind]. rewrite Hn. cbn [bind]. rewrite HE. cbn [bind].
  assert (L2 : 1 <= length (kelvin tc num)) by (unfold kelvin; rewrite map_length, firstn_length; lia).
  assert (L3 : 1 <= length (ratio rg num)) by (unfold ratio; rewrite map_length, firstn_length; lia).
  rewrite !lev_rd by lia. cbn [bind]. rewrite Hc. cbn [bind]. rewrite F. cbn [negb Z.eqb Pos.eqb].
  destruct (core_loop _ _ _ _ _ _ _ _ _ _ _ _ _ _ _) as [lo|]; cbn [bind]; [|auto].
  destruct lo as [|fl last| |np a b [k|]]; auto.
Qed.

(** one usable level *)
Section Wit1.
Variables (sstC psl : R) (p tc rg : list R) (num : nat) (ofl : Z) (ckcd : R).
Let T := kelvin tc num. Let r := ratio rg num.
Hypotheses (Hs : (sstC + KELVIN = 290)%R) (Hpsl : psl = 970%R) (Hn : effective_points p num = Some 1) (Hnum : 1 <= num)
  (LT : num <= length tc) (Lr : num <= length rg) (Lp : num <= length p)
  (P1 : lev p 1 = 1000%R) (T1 : lev T 1 = 280%R) (R1 : lev r 1 = (1 / 1000)%R).

Lemma wit1_kernel E Tp rp pp : prepare_cape_environment T r p 1 = Some E ->
  (200 <= Tp <= 1000 -> 1 / 1000000 <= rp -> 0 < pp <= 1000 ->
  cape_from_cached_environment Tp rp pp E 1 0 = Some (mkcape 0 280 0 1))%R.
Proof.
  intros HE HT Hr Hp. destruct (kernel_dry T r p 1 E Tp rp pp 0 HE) as [o [Eo Q]]; try lra; try lia.
  - unfold sounding. split; [unfold T, kelvin; rewrite map_length, firstn_length; lia|]. split; [lia|]. split; [|intros; lia].
    intros k K. assert (k = 1) by lia. subst k. rewrite T1, P1. lra.
  - intros k K. assert (k = 1) by lia. subst k. rewrite P1. generalize (p_lcl_le Tp rp pp). lra.
  - rewrite Eo. destruct Q as [[_ ->]|(l & ar & L & _)]; [rewrite T1; auto|lia].
Qed.

Theorem wit1_core : exists o, calculate_pi_core sstC psl p tc rg num ofl ckcd = Some o /\ o_flag o = 1%Z /\
  o_To o = 280%R /\ o_vmax o = 0%R /\ o_pmin o = 970%R.
Proof.
  destruct (prepare_defined T r p 1) as [E HE]; try lia.
  { unfold T, kelvin. rewrite map_length, firstn_length. lia. }
  { unfold r, ratio. rewrite map_length, firstn_length. lia. }
  { intros k K. assert (k = 1) by lia. subst k. rewrite T1, R1, P1. lra. }
  assert (B := esat290). assert (Q := rs_b).
  assert (Ce : cape_from_cached_environment 280 (1 / 1000) 1000 E 1 0 = Some (mkcape 0 280 0 1)) by (apply wit1_kernel; auto; lra).
  rewrite (core_start sstC psl p tc rg num ofl ckcd 1 E (mkcape 0 280 0 1)); auto; try lia.
  2:{ unfold KELVIN in Hs. lra. }
  2:{ fold T r. rewrite T1, R1, P1. auto. }
  fold T r. rewrite T1, R1, Hs, Hpsl. replace (sstC + 27315 / 100)%R with 290%R by (unfold KELVIN in Hs; lra).
  set (rs := rsat_core 290 970) in *.
  set (tv := (1 / 2 * (280 * (1 + 1 / 1000 * INV_0622) / (1 + 1 / 1000) + 290 * (1 + rs * INV_0622) / (1 + rs)))%R).
  assert (tvB : (280 <= tv)%R).
  { unfold tv, INV_0622. assert (290 <= 290 * (1 + rs * (16077899 / 10000000)) / (1 + rs))%R.
    { apply (Rmult_le_reg_r (1 + rs)); [lra|]. unfold Rdiv at 1. rewrite Rmult_assoc, Rinv_l by lra. lra. } lra. }
  set (po := if (ofl =? 1)%Z then 0%R else 0%R).
  set (k := mkpass 0 0 280 po (290 / 280) tv).
  assert (CP : core_pass E 1 280 (1 / 1000) 290 (esat 290) 970 ofl 0 970 = Some (inr (k, 0%R))).
  { unfold core_pass. rewrite Rmin_left by lra. unfold EPS_CONST.
    rewrite rdiv_ok by lra. cbn [bind].
    replace (62197183 / 100000000 * (1 / 1000) * 970 / (970 * (62197183 / 100000000 + 1 / 1000) - 1 / 1000 * 970))%R with (1 / 1000)%R by field.
    rewrite wit1_kernel by (auto; lra). cbn [bind c_flag negb Z.eqb Pos.eqb]. rewrite rdiv_ok by lra. cbn [bind]. fold eps_core. fold (rsat_core 290 970). fold rs.
    rewrite wit1_kernel by (auto; lra). cbn [bind c_flag negb Z.eqb Pos.eqb c_T c_p c_cape].
    replace (if (ofl =? 1)%Z then 280 else 280)%R with 280%R by (destruct (ofl =? 1)%Z; auto). fold po.
    rewrite !rdiv_ok by lra. cbn [bind]. unfold k, tv. repeat f_equal. rewrite Rmax_left; [ring|lra]. }
  assert (PN : (970 * exp (- 0 * INV_RD / tv) = 970)%R).
  { replace (- 0 * INV_RD / tv)%R with 0%R by (unfold Rdiv; ring). rewrite exp_0. ring. }
  assert (LO : forall f, core_loop (S f) 0 E 1 280 (1 / 1000) 290 (esat 290) 970 ofl 0 970 970 0 None = Some (Ldone 1 970 970 (Some k))).
  { intros f. cbn [core_loop].
    destruct (rlt_spec (1 / 2) (Rabs (0 - 970))) as [A|A].
    2:{ rewrite Rabs_left in A by lra. lra. }
    cbn [negb]. rewrite CP. cbn [bind k_tv k]. rewrite rdiv_ok by lra. cbn [bind]. rewrite PN.
    destruct (rlt_spec 970 400); [lra|]. rewrite orb_false_r. cbn [Nat.ltb Nat.leb CORE_MAX_IT].
    destruct f; cbn [core_loop]; destruct (rlt_spec (1 / 2) (Rabs (970 - 970))) as [A'|A']; auto;
    rewrite Rminus_eq_0, Rabs_R0 in A'; lra. }
  cbn [c_cape]. rewrite (LO 201). cbn [bind]. unfold core_finish. cbn [k_m k_s k_tv k_To k_po k_rat k].
  replace (Rmax (0 - 0 + CKCD_SOLVER * (290 / 280) * (1 / 2 * (1 + 1 / 2)) * (0 - 0)) 0)%R with 0%R
    by (rewrite Rmax_left; [ring|lra]).
  rewrite rdiv_ok by lra. cbn [bind]. rewrite PN.
  replace (Rmax 0 (0 - 0))%R with 0%R by (rewrite Rmax_left; lra).
  rewrite rsqrt_ok by lra. cbn [bind]. rewrite Rmult_0_r, sqrt_0, Rmult_0_r.
  destruct (rlt_spec 0 280); [|lra]. destruct (rlt_spec 280 290); [|lra]. cbn [andb].
  rewrite rdiv_ok by lra. cbn [bind]. destruct (rlt_spec 0 ((290 - 280) / 280)); [|lra].
  rewrite rlog_ok by auto. cbn [bind]. destruct (rlt_spec 0 0); [lra|]. cbn [bind].
  eexists. split; [reflexivity|]. cbn. auto.
Qed.
End Wit1.

(** a huge negative sea-level pressure: the solver gives up and hands it back *)
Theorem wit_neg_psl sstC psl p tc rg num ofl ckcd :
  (sstC + KELVIN = 290)%R -> (psl < 0)%R -> effective_points p num = Some 2 -> 2 <= num ->
  num <= length tc -> num <= length rg -> num <= length p ->
  lev p 1 = 1000%R -> lev p 2 = 980%R -> lev (kelvin tc num) 1 = 280%R -> lev (kelvin tc num) 2 = 282%R ->
  lev (ratio rg num) 1 = (1 / 1000)%R -> lev (ratio rg num) 2 = (1 / 1000)%R ->
  exists o, calculate_pi_core sstC psl p tc rg num ofl ckcd = Some o /\ o_flag o = 0%Z /\ o_pmin o = psl /\ o_vmax o = 0%R.
Proof.
  intros Hs Hp Hn N LT Lr Lp P1 P2 T1 T2 R1 R2.
  destruct (wit_env p tc rg num) as [E HE]; auto.
  assert (Ce := wit_ce p tc rg num). specialize (Ce ltac:(auto) ltac:(auto) ltac:(auto) ltac:(auto) P1 P2 T1 T2 R2 E HE).
  rewrite (core_start sstC psl p tc rg num ofl ckcd 2 E (mkcape 0 280 0 1)); auto; try lia.
  2:{ unfold KELVIN in Hs. lra. }
  2:{ rewrite T1, R1, P1. auto. }
  assert (OK := prepare_ok _ _ _ _ _ HE).
  assert (CP : core_pass E 2 (lev (kelvin tc num) 1) (lev (ratio rg num) 1) (sstC + KELVIN) (esat (sstC + 27315 / 100)) psl ofl 0 970 = Some (inl 0%Z)).
  { unfold core_pass. rewrite Rmin_left, R1 by lra. unfold EPS_CONST.
    assert (D : (0 < 970 * (62197183 / 100000000 + 1 / 1000) - 1 / 1000 * psl)%R) by lra.
    rewrite rdiv_ok by lra. cbn [bind].
    assert (RN : (62197183 / 100000000 * (1 / 1000) * psl / (970 * (62197183 / 100000000 + 1 / 1000) - 1 / 1000 * psl) < 1 / 1000000)%R).
    { apply (Rmult_lt_reg_r (970 * (62197183 / 100000000 + 1 / 1000) - 1 / 1000 * psl)); [auto|].
      set (d := (970 * (62197183 / 100000000 + 1 / 1000) - 1 / 1000 * psl)%R) in *.
      replace (62197183 / 100000000 * (1 / 1000) * psl / d * d)%R with (62197183 / 100000000 * (1 / 1000) * psl)%R by (field; lra). lra. }
    unfold cape_from_cached_environment. rewrite (eo_T _ _ _ _ _ OK), (eo_p _ _ _ _ _ OK) by lia. cbn [bind].
    destruct (rlt_spec (62197183 / 100000000 * (1 / 1000) * psl / (970 * (62197183 / 100000000 + 1 / 1000) - 1 / 1000 * psl)) (1 / 1000000)); [|contradiction].
    cbn. auto. }
  cbn [core_loop c_cape].
  destruct (rlt_spec (1 / 2) (Rabs (0 - 970))) as [A|A].
  2:{ rewrite Rabs_left in A by lra. lra. }
  cbn [negb]. rewrite CP. cbn. eauto.
Qed.

(** a negative temperature at the highest usable level: any successful result
    has it as the outflow temperature *)
Theorem interior_missing sstC psl p tc rg num ofl ckcd o :
  effective_points p num = Some 2 -> 1 <= num -> (lev p 2 < lev p 1)%R ->
  (lev (kelvin tc num) 2 < 0)%R -> (0 <= lev (ratio rg num) 2)%R -> (50 <= lev p 2)%R ->
  calculate_pi_core sstC psl p tc rg num ofl ckcd = Some o -> o_flag o = 1%Z ->
  o_To o = lev (kelvin tc num) 2.
Proof.
  intros Hn N Hp HT Hr H50 H F. destruct (core_open _ _ _ _ _ _ _ _ _ H N) as (n & E & ce & En & Lt & Lr & Nn & N1 & EE & Nz & Ece & D).
  rewrite Hn in En. injection En as <-.
  assert (K : forall Tp rp pp c, cape_from_cached_environment Tp rp pp E 2 0 = Some c -> c_flag c = 1%Z -> c_T c = lev (kelvin tc num) 2).
  { intros Tp rp pp c Hc Fc.
    assert (Dec : forall i j, 1 <= i < j -> j <= 2 -> (lev p j < lev p i)%R).
    { intros i j I J. assert (i = 1) by lia. assert (j = 2) by lia. subst. auto. }
    destruct (cape_kernel _ _ _ _ _ _ _ _ _ _ EE N1 Dec Hc) as [[_ ->]|[[Q1 Q2] [->|(v & B & Q)]]]; try discriminate.
    assert (V : (0 < v 2%nat)%R).
    { specialize (B 2 ltac:(lia)). assert (Ep := eps_pos).
      assert (TE : (Tdens (lev (kelvin tc num) 2) (lev (ratio rg num) 2) (lev (ratio rg num) 2) < 0)%R).
      { unfold Tdens, Rdiv. set (a := lev (kelvin tc num) 2) in *. set (q := lev (ratio rg num) 2) in *.
        assert (0 < (1 + q * / eps) * / (1 + q))%R.
        { apply Rmult_lt_0_compat; [|apply Rinv_0_lt_compat; lra].
          assert (0 <= q * / eps)%R by (apply Rmult_le_pos; [auto|left; apply Rinv_0_lt_compat; auto]). lra. }
        rewrite Rmult_assoc. assert (0 < - a * ((1 + q * / eps) * / (1 + q)))%R by (apply Rmult_lt_0_compat; lra). lra. }
      inversion B as [B1 B2 Ev|t a B1 B2 Ba Bt Bs Br Ev|B1 Ev].
      - assert (0 < Tdens (Tp * Rpower (lev p 2 / pp) (28704 / 100570)) rp rp)%R; [|lra].
        unfold Tdens. apply Rdiv_lt_0_compat; [|lra]. apply Rmult_lt_0_compat.
        + apply Rmult_lt_0_compat; [lra|apply exp_pos].
        + assert (0 <= rp / eps)%R by (apply Rmult_le_pos; [lra|left; apply Rinv_0_lt_compat; auto]). lra.
      - assert (W : (0 <= wsat (lev p 2) t)%R).
        { unfold wsat. assert (Es := esat_pos t). destruct Bs as [->|Bs]; [lra|].
          apply Rmult_le_pos; [apply Rmult_le_pos; lra|left; apply Rinv_0_lt_compat; lra]. }
        assert (0 < Tdens t (wsat (lev p 2) t) (0 * wsat (lev p 2) t + (1 - 0) * rp))%R; [|lra].
        unfold Tdens. apply Rdiv_lt_0_compat; [|lra]. apply Rmult_lt_0_compat; [auto|].
        assert (0 <= wsat (lev p 2) t / eps)%R by (apply Rmult_le_pos; [lra|left; apply Rinv_0_lt_compat; auto]). lra.
      - lra. }
    apply cape2 in Q. destruct Q as [_ Q]. apply Q. auto. }
  destruct D as [[NF ->]|[_ (lo & Hlo & D)]]; [contradiction|].
  apply core_loop_some in Hlo; [|cbn; auto]. destruct lo as [|fl last| |np pm pm0 lst].
  - contradiction.
  - subst o. cbn in F. destruct Hlo as (? & ? & ? & c & _ & _ & X). contradiction.
  - subst o. discriminate.
  - destruct lst as [k|]; [|contradiction]. destruct Hlo as (k' & [= <-] & I & _). cbn in I.
    destruct I as (_ & _ & _ & _ & cat & (cm & cs & P) & _). cbn zeta in P.
    destruct P as (P1 & P2 & P3 & P4 & _ & _ & P5 & _).
    assert (To : o_To o = k_To k).
    { unfold core_finish in D. bnd D x Ex. bnd D sq Esq. bnd D lef Ele. bnd D lp Elp. injection D as <-. auto. }
    rewrite To, P5. destruct (ofl =? 1)%Z; eapply K; eauto.
Qed.
