(** The solver: its results when it succeeds, and what they depend on. *)
From Coq Require Import Reals List Arith Lia ZArith Bool Lra.
From Verif Require Import Base Buffer VH_Model VH_Proofs PI_Model PI_Spec PI_Proofs1 PI_Proofs2.
Import ListNotations.
Local Open Scope nat_scope.

Lemma mapM_rd_map (f : R -> R) (l : list R) n r :
  mapM (fun i => let* x := rd l i in Some (f x)) (seq 1 n) = Some r -> r = map f (firstn n l) /\ n <= length l.
Proof.
  intros M. destruct (mapM_seq_rd _ _ _ _ M) as [L Q].
  assert (LL : n <= length l).
  { destruct n; [lia|]. destruct (@rd_Some _ r (S n)) as [v Ev]; [lia|]. rewrite Q in Ev by lia. bnd Ev x Ex.
    apply rd_lev in Ex. lia. }
  split; [|auto]. apply rd_ext; [rewrite map_length, firstn_length; lia|].
  intros i I. rewrite Q by lia. rewrite rd_map. destruct i; [lia|]. cbn [rd].
  assert (X : nth_error (firstn n l) i = nth_error l i).
  { rewrite <- (firstn_skipn n l) at 2. rewrite nth_error_app1; [auto|]. rewrite firstn_length. lia. }
  rewrite X. destruct (nth_error l i); auto.
Qed.

Lemma mapM_rd_ok (f : R -> R) (l : list R) n : n <= length l ->
  mapM (fun i => let* x := rd l i in Some (f x)) (seq 1 n) = Some (map f (firstn n l)).
Proof.
  intros L. destruct (mapM (fun i => let* x := rd l i in Some (f x)) (seq 1 n)) eqn:M.
  - apply mapM_rd_map in M. destruct M as [-> _]. auto.
  - destruct (mapM_some _ _ (fun i => let* x := rd l i in Some (f x)) (seq 1 n)) as [r Er]; [|congruence].
    intros i I. apply in_seq in I. rewrite lev_rd by lia. cbn. eauto.
Qed.

(** the profiles the core routine works with *)
Definition kelvin (tc : list R) (num : nat) : list R := map (fun x => x + 27315 / 100)%R (firstn num tc).
Definition ratio (rg : list R) (num : nat) : list R := map (fun x => Rmax (x * (1 / 1000)) 0)%R (firstn num rg).

Lemma sounding_le T p n m : sounding T p n -> m <= n -> sounding T p m.
Proof.
  intros (A & B & C & D) L. split; [lia|]. split; [lia|]. split; [intros; apply C; lia|intros; apply D; lia].
Qed.

Lemma lev_map_firstn (f : R -> R) l n k : 1 <= k <= n -> n <= length l -> lev (map f (firstn n l)) k = f (lev l k).
Proof.
  intros K L. unfold lev. rewrite (nth_indep _ 0%R (f 0%R)) by (rewrite map_length, firstn_length; lia).
  rewrite map_nth. f_equal. rewrite <- (firstn_skipn n l) at 2. rewrite app_nth1; [auto|]. rewrite firstn_length. lia.
Qed.

Lemma CAPE_kernel T r p n E Tp rp pp sig : prepare_cape_environment T r p n = Some E ->
  CAPE Tp rp pp T r p n sig = cape_from_cached_environment Tp rp pp E n sig.
Proof. intros H. unfold CAPE. rewrite H. reflexivity. Qed.

Lemma kernel_flag1 T r p n E Tp rp pp sig o : prepare_cape_environment T r p n = Some E -> 1 <= n ->
  sounding T p n -> cape_from_cached_environment Tp rp pp E n sig = Some o -> c_flag o = 1%Z ->
  (1 / 1000000 <= rp /\ 200 <= Tp /\ 0 <= c_cape o /\ 0 < c_T o)%R /\ (n = 1 -> c_cape o = 0%R).
Proof.
  intros HE N Sd H F. assert (Dec := proj2 (proj2 (proj2 Sd))).
  destruct (cape_kernel _ _ _ _ _ _ _ _ _ _ HE N Dec H) as [[_ ->]|[A [->|(v & _ & Q)]]]; [discriminate|discriminate|].
  split.
  - apply cape_result_bounds in Q; auto. intuition.
  - intros ->. destruct Q as [[_ ->]|(l & area & L & _)]; [auto|lia].
Qed.

Lemma pow_le_one x : (0 <= x -> exp (- x) <= 1)%R.
Proof.
  intros X. destruct (Req_dec x 0) as [->|N]; [rewrite Ropp_0, exp_0; lra|].
  rewrite <- exp_0. left. apply exp_increasing. lra.
Qed.
Lemma pressure_of_bounds psl ce cm cs rat tv f : (0 < psl -> 0 < tv -> 0 < pressure_of psl ce cm cs rat tv f <= psl)%R.
Proof.
  intros P Tv. unfold pressure_of. set (w := Rmax _ 0).
  assert (W : (0 <= w)%R) by apply Rmax_r.
  assert (Q : (0 <= w / (28704 / 100 * tv))%R) by (apply Rmult_le_pos; [auto|left; apply Rinv_0_lt_compat; lra]).
  replace (- w / (28704 / 100 * tv))%R with (- (w / (28704 / 100 * tv)))%R by (unfold Rdiv; ring).
  pose proof (exp_pos (- (w / (28704 / 100 * tv)))) as X. pose proof (pow_le_one _ Q) as Y. split.
  - apply Rmult_lt_0_compat; auto.
  - rewrite <- (Rmult_1_r psl) at 2. apply Rmult_le_compat_l; lra.
Qed.
Lemma pressure_of_mono psl ce cm cs rat tv f g : (0 < psl -> 0 < tv -> 0 <= rat -> f <= g -> cm <= cs ->
  pressure_of psl ce cm cs rat tv g <= pressure_of psl ce cm cs rat tv f)%R.
Proof.
  intros P Tv Ra FG C. unfold pressure_of. apply Rmult_le_compat_l; [lra|].
  assert (X : (Rmax (cm - ce + 9 / 10 * f * rat * (cs - cm)) 0 <= Rmax (cm - ce + 9 / 10 * g * rat * (cs - cm)) 0)%R).
  { apply Rle_max_compat_r. apply Rplus_le_compat_l. apply Rmult_le_compat_r; [lra|].
    apply Rmult_le_compat_r; [auto|]. lra. }
  assert (Y : (0 < / (28704 / 100 * tv))%R) by (apply Rinv_0_lt_compat; lra).
  revert X. set (a := Rmax (cm - ce + 9 / 10 * f * rat * (cs - cm)) 0). set (b := Rmax (cm - ce + 9 / 10 * g * rat * (cs - cm)) 0).
  intros X. unfold Rdiv.
  assert (Z : (- b * / (28704 / 100 * tv) <= - a * / (28704 / 100 * tv))%R) by (apply Rmult_le_compat_r; lra).
  fold (28704 / 100)%R. destruct Z as [Z|Z]; [left; apply exp_increasing; exact Z|right; f_equal; exact Z].
Qed.

(** Everything the core routine returns on success. *)
Record pi_success (sst psl : R) (T r p : list R) (n : nat) (ofl : Z) (ckcd : R) (o : pi_out) : Prop := mk_success {
  ps_state : exists (np : nat) ce cm cs pm0 pm,
    let pp := Rmin pm0 1000 in
    let To := o_To o in
    let rat := (sst / To)%R in
    let rs := rsat_core sst pp in
    let tv := ((Tv_core (lev T 1) (lev r 1) + Tv_core sst rs) / 2)%R in
    1 <= np <= 200 /\
    CAPE (lev T 1) (lev r 1) (lev p 1) T r p n 0 = Some ce /\ c_flag ce = 1%Z /\
    CAPE (lev T 1) (r_core (lev r 1) psl pp) pp T r p n 0 = Some cm /\ c_flag cm = 1%Z /\
    CAPE sst rs pp T r p n 0 = Some cs /\ c_flag cs = 1%Z /\
    To = (if (ofl =? 1)%Z then c_T cm else c_T cs) /\ o_po o = (if (ofl =? 1)%Z then c_p cm else c_p cs) /\
    (0 < To)%R /\ (0 < tv)%R /\
    pm = pressure_of psl (c_cape ce) (c_cape cm) (c_cape cs) rat tv (1 / 2) /\
    (400 <= pm <= psl)%R /\ (Rabs (pm - pm0) <= 1 / 2)%R /\
    o_pmin o = pressure_of psl (c_cape ce) (c_cape cm) (c_cape cs) rat tv (3 / 4) /\
    (c_cape cm <= c_cape cs -> o_pmin o <= pm)%R /\
    o_vmax o = (8 / 10 * sqrt (9 / 10 * rat * Rmax 0 (c_cape cs - c_cape cm)))%R /\
    (n = 1%nat -> c_cape ce = 0 /\ c_cape cm = 0 /\ c_cape cs = 0)%R;
  ps_pmin : (0 < o_pmin o <= psl)%R;
  ps_vmax : (0 <= o_vmax o)%R;
  ps_lnpi : (0 < o_vmax o -> exp (o_lnpi o) = o_vmax o ^ 2)%R /\ (o_vmax o = 0%R -> o_lnpi o = UNDEF);
  ps_lneff : (o_To o < sst -> exp (o_lneff o) = (sst - o_To o) / o_To o)%R /\ (sst <= o_To o -> o_lneff o = UNDEF)%R;
  ps_lnckcd : (0 < ckcd -> exp (o_lnckcd o) = ckcd)%R /\ (ckcd <= 0 -> o_lnckcd o = UNDEF)%R;
  ps_lndiseq : (0 < o_vmax o -> o_To o < sst -> 0 < ckcd ->
       o_vmax o ^ 2 = ckcd * ((sst - o_To o) / o_To o) * exp (o_lndiseq o))%R /\
     (~ (0 < o_vmax o /\ o_To o < sst /\ 0 < ckcd)%R -> o_lndiseq o = UNDEF)
}.

Section Core.
Variables (sstC psl : R) (p tc rg : list R) (num : nat) (ofl : Z) (ckcd : R).
Notation sst := (sstC + 27315 / 100)%R.

Lemma core_open o : calculate_pi_core sstC psl p tc rg num ofl ckcd = Some o -> 1 <= num ->
  exists n E ce, effective_points p num = Some n /\ num <= length tc /\ num <= length rg /\ n <= num /\ 1 <= n /\
    prepare_cape_environment (kelvin tc num) (ratio rg num) p n = Some E /\ (sst <> 2965 / 100)%R /\
    cape_from_cached_environment (lev (kelvin tc num) 1) (lev (ratio rg num) 1) (lev p 1) E n 0 = Some ce /\
    (c_flag ce <> 1%Z /\ o = mkpi psl 0 UNDEF UNDEF UNDEF UNDEF UNDEF (fst (ckcd_log ckcd)) (c_flag ce) \/
     c_flag ce = 1%Z /\ exists lo,
       core_loop 202 0 E n (lev (kelvin tc num) 1) (lev (ratio rg num) 1) sst (esat sst) psl ofl (c_cape ce) 970 970 0 None = Some lo /\
       match lo with
       | Lfuel => False
       | Lerr fl last => o = mkpi psl 0 (match last with Some k => k_To k | None => UNDEF end)
                (match last with Some k => k_po k | None => UNDEF end) UNDEF UNDEF UNDEF (fst (ckcd_log ckcd)) fl
       | Ldiv => o = mkpi UNDEF UNDEF UNDEF UNDEF UNDEF UNDEF UNDEF (fst (ckcd_log ckcd)) 2
       | Ldone _ _ _ (Some k) => core_finish sst psl (c_cape ce) (fst (ckcd_log ckcd)) (snd (ckcd_log ckcd)) k = Some o
       | Ldone _ _ _ None => False
       end).
Proof.
  intros H N. unfold calculate_pi_core in H. destruct (ckcd_log ckcd) as [lnck vck] eqn:Eck.
  bnd H es Ees. bnd H r Er. bnd H T ET. bnd H n En. bnd H E EE. bnd H T1 ET1. bnd H r1 Er1. bnd H p1 Ep1. bnd H ce Ece.
  apply magnus_some in Ees. destruct Ees as [-> Nz].
  apply mapM_rd_map in Er. apply (mapM_rd_map (fun x => x + KELVIN)%R) in ET. destruct Er as [-> Lr], ET as [-> LT].
  fold (ratio rg num) in *. change (map (fun x => (x + KELVIN)%R) (firstn num tc)) with (kelvin tc num) in *.
  apply rd_lev in ET1, Er1, Ep1. destruct ET1 as [<- _], Er1 as [<- _], Ep1 as [<- _].
  exists n, E, ce. split; [auto|]. split; [auto|]. split; [auto|].
  destruct (effective_some _ _ _ N En) as (top & (Tp & _) & Hn).
  split; [lia|]. split; [lia|]. split; [auto|]. split; [exact Nz|]. split; [auto|]. cbn [fst snd].
  change KELVIN with (27315 / 100)%R in *.
  destruct (Z.eqb_spec (c_flag ce) 1) as [F|F]; cbn [negb] in H.
  - right. split; [auto|]. bnd H lo Elo. exists lo. split; [exact Elo|].
    destruct lo as [|fl last| |np' pm' pmold' [k|]]; try discriminate; try (injection H as <-; auto). auto.
  - left. split; [auto|]. injection H as <-. auto.
Qed.

Lemma core_success o : calculate_pi_core sstC psl p tc rg num ofl ckcd = Some o -> o_flag o = 1%Z ->
  1 <= num -> (0 < psl)%R -> sounding (kelvin tc num) p num ->
  exists top, nearest50 p num top /\
    pi_success sst psl (kelvin tc num) (ratio rg num) p (Nat.max 1 (top - 1)) ofl ckcd o.
Proof.
  intros H F N P Sd. destruct (core_open _ H N) as (n & E & ce & En & Lt & Lr & Nn & N1 & EE & Nz & Ece & D). clear H.
  destruct (effective_some _ _ _ N En) as (top & Top & Hn). exists top. split; [auto|]. rewrite <- Hn. clear En.
  set (T := kelvin tc num) in *. set (r := ratio rg num) in *.
  assert (Sn : sounding T p n) by (eapply sounding_le; eauto).
  destruct D as [[Fe ->]|[Fe [lo [Elo D]]]]; [cbn in F; contradiction|].
  pose proof (core_loop_some _ _ _ _ _ _ _ _ _ 202 0 970 970 0 None lo (conj eq_refl (conj eq_refl eq_refl)) Elo) as Q.
  destruct lo as [|fl last| |np pm pm0 lst].
  - contradiction.
  - subst o. cbn in F. destruct Q as (? & ? & ? & c & _ & _ & Q). contradiction.
  - subst o. cbn in F. discriminate.
  - destruct Q as (k & -> & Inv & Cv). destruct Inv as (Hnp & _ & P400 & Ntv & cat & Pk & Hpm).
    destruct Pk as (cm & cs & Em & Fm & Es & Fs & Km & Ks & KTo & Kpo & NTo & Krat & Ktv & Hcat).
    set (pp := Rmin pm0 1000) in *.
    destruct (kernel_flag1 _ _ _ _ _ _ _ _ _ _ EE N1 Sn Ece Fe) as [_ Ce1].
    destruct (kernel_flag1 _ _ _ _ _ _ _ _ _ _ EE N1 Sn Em Fm) as [(_ & _ & _ & Tm) Cm1].
    destruct (kernel_flag1 _ _ _ _ _ _ _ _ _ _ EE N1 Sn Es Fs) as [(Rs & S200 & _ & Ts) Cs1].
    assert (To : (0 < k_To k)%R) by (rewrite KTo; destruct (ofl =? 1)%Z; auto).
    destruct (core_finish_some _ _ _ _ _ _ _ To D) as (_ & ETo & Epo & Elnck & _ & Epmin & Evmax & Hl1 & Hl2 & He1 & He2 & Hd).
    assert (R1 : (0 <= lev r 1)%R).
    { unfold r, ratio. rewrite (lev_map_firstn (fun x => Rmax (x * (1 / 1000)) 0)%R) by lia. apply Rmax_r. }
    assert (T1 : (0 < lev T 1)%R) by (apply Sd; lia).
    assert (RSeq : (EPS_CONST * esat sst / (pp - esat sst))%R = rsat_core sst pp) by reflexivity. rewrite RSeq in *.
    set (rs := rsat_core sst pp) in *.
    assert (TV : k_tv k = ((Tv_core (lev T 1) (lev r 1) + Tv_core sst rs) / 2)%R).
    { rewrite Ktv. unfold Tv_core, INV_0622. field. lra. }
    assert (TVp : (0 < (Tv_core (lev T 1) (lev r 1) + Tv_core sst rs) / 2)%R).
    { unfold Tv_core. assert (0 < lev T 1 * (1 + 16077899 / 10000000 * lev r 1) / (1 + lev r 1))%R.
      { apply Rdiv_lt_0_compat; [apply Rmult_lt_0_compat; lra|lra]. }
      assert (0 < sst * (1 + 16077899 / 10000000 * rs) / (1 + rs))%R.
      { apply Rdiv_lt_0_compat; [apply Rmult_lt_0_compat; lra|lra]. } lra. }
    assert (RT : (0 <= sst / o_To o)%R).
    { rewrite ETo. apply Rlt_le. apply Rdiv_lt_0_compat; lra. }
    assert (PO : forall f c, c = Rmax (c_cape cm - c_cape ce + 9 / 10 * f * (sst / o_To o) * (c_cape cs - c_cape cm)) 0 ->
       (psl * exp (- c * INV_RD / k_tv k))%R = pressure_of psl (c_cape ce) (c_cape cm) (c_cape cs) (sst / o_To o)
         ((Tv_core (lev T 1) (lev r 1) + Tv_core sst rs) / 2) f).
    { intros f c ->. unfold pressure_of. f_equal. f_equal. rewrite <- TV. unfold INV_RD, RD. field. auto. }
    assert (Hpm' : pm = pressure_of psl (c_cape ce) (c_cape cm) (c_cape cs) (sst / o_To o)
         ((Tv_core (lev T 1) (lev r 1) + Tv_core sst rs) / 2) (1 / 2)).
    { rewrite Hpm. apply PO. rewrite Hcat, Km, Ks, Krat, ETo. f_equal. unfold CKCD_SOLVER. lra. }
    assert (Hpmin : o_pmin o = pressure_of psl (c_cape ce) (c_cape cm) (c_cape cs) (sst / o_To o)
         ((Tv_core (lev T 1) (lev r 1) + Tv_core sst rs) / 2) (3 / 4)).
    { rewrite Epmin. apply PO. rewrite Km, Ks, Krat, ETo. f_equal. unfold CKCD_SOLVER. lra. }
    assert (V0 : (0 <= o_vmax o)%R).
    { rewrite Evmax. pose proof (sqrt_pos (CKCD_SOLVER * k_rat k * Rmax 0 (k_s k - k_m k))). lra. }
    assert (LP : (0 < o_vmax o -> exp (o_lnpi o) = o_vmax o ^ 2)%R).
    { intros V. rewrite Hl1 by auto. replace (2 * ln (o_vmax o))%R with (ln (o_vmax o) + ln (o_vmax o))%R by ring.
      rewrite exp_plus, exp_ln by auto. ring. }
    assert (LE : (o_To o < sst -> exp (o_lneff o) = (sst - o_To o) / o_To o)%R).
    { intros V. rewrite ETo in *. rewrite He1 by auto. apply exp_ln. apply Rdiv_lt_0_compat; lra. }
    assert (LC : (0 < ckcd -> exp (o_lnckcd o) = ckcd)%R).
    { intros V. rewrite Elnck. unfold ckcd_log. destruct (rlt_spec 0 ckcd); [|contradiction]. cbn [fst]. apply exp_ln. auto. }
    constructor.
    + exists np, ce, cm, cs, pm0, pm. cbn zeta. fold pp. fold rs. unfold CAPE. rewrite EE. cbn [bind].
      split; [auto|]. split; [auto|]. split; [auto|]. split; [auto|]. split; [auto|].
      split; [auto|]. split; [auto|]. split; [congruence|]. split; [congruence|]. split; [congruence|]. split; [auto|].
      split; [auto|].
      split; [split; [auto|rewrite Hpm'; apply pressure_of_bounds; auto]|]. split; [auto|]. split; [auto|].
      split.
      * intros C. rewrite Hpmin, Hpm'. apply pressure_of_mono; auto. lra.
      * split; [rewrite Evmax, Km, Ks, Krat, ETo; reflexivity|auto].
    + rewrite Hpmin. apply pressure_of_bounds; auto.
    + auto.
    + split; auto.
    + split; auto. rewrite ETo. auto.
    + split; auto. intros C. rewrite Elnck. unfold ckcd_log. destruct (rlt_spec 0 ckcd); [lra|auto].
    + rewrite Hd. split.
      * intros A B C. unfold ckcd_log at 1. destruct (rlt_spec 0 ckcd); [|contradiction]. cbn [snd].
        destruct (rlt_spec 0 (o_vmax o)); [|contradiction]. rewrite ETo in B. destruct (rlt_spec (k_To k) sst); [|contradiction].
        replace (o_lnpi o - o_lneff o - fst (ckcd_log ckcd))%R with (o_lnpi o + - o_lneff o + - o_lnckcd o)%R by (rewrite Elnck; ring).
        rewrite !exp_plus, !exp_Ropp, LP, LC by auto. rewrite LE by (rewrite ETo; auto). rewrite !ETo.
        assert (sst - k_To k <> 0)%R by lra. field. repeat split; try lra.
      * intros A. unfold ckcd_log at 1. destruct (rlt_spec 0 ckcd); cbn [snd]; [|auto].
        destruct (rlt_spec 0 (o_vmax o)); [|auto]. destruct (rlt_spec (k_To k) sst); [|auto].
        exfalso. apply A. rewrite ETo. auto.
Qed.

(** Failures. *)
Lemma core_failure o : calculate_pi_core sstC psl p tc rg num ofl ckcd = Some o -> o_flag o <> 1%Z ->
  1 <= num -> sounding (kelvin tc num) p num ->
  (o_flag o = 0%Z \/ o_flag o = 2%Z) /\
  o_lnpi o = UNDEF /\ o_lneff o = UNDEF /\ o_lndiseq o = UNDEF /\
  (o_flag o = 2%Z /\ o_pmin o = UNDEF /\ o_vmax o = UNDEF /\ o_To o = UNDEF /\ o_po o = UNDEF \/
   o_pmin o = psl /\ o_vmax o = 0%R).
Proof.
  intros H F N Sd. destruct (core_open _ H N) as (n & E & ce & En & Lt & Lr & Nn & N1 & EE & Nz & Ece & D).
  assert (Sn : sounding (kelvin tc num) p n) by (eapply sounding_le; eauto).
  assert (FL : forall Tp rp pp c, cape_from_cached_environment Tp rp pp E n 0 = Some c -> c_flag c <> 1%Z -> c_flag c = 0%Z \/ c_flag c = 2%Z).
  { intros Tp rp pp c Hc Nc. destruct (cape_kernel _ _ _ _ _ _ _ _ _ _ EE N1 (proj2 (proj2 (proj2 Sn))) Hc) as [[_ ->]|[_ [->|(v & _ & Q)]]]; auto.
    apply cape_result_bounds in Q; auto. destruct Q as [Q _]. contradiction. }
  destruct D as [[Fe ->]|[Fe [lo [Elo D]]]].
  - cbn. specialize (FL _ _ _ _ Ece Fe). intuition.
  - pose proof (core_loop_some _ _ _ _ _ _ _ _ _ 202 0 970 970 0 None lo (conj eq_refl (conj eq_refl eq_refl)) Elo) as Q.
    destruct lo as [|fl last| |np pm pm0 lst].
    + contradiction.
    + subst o. cbn in *. destruct Q as (? & ? & ? & c & Q1 & <- & Q2). specialize (FL _ _ _ _ Q1 Q2). intuition.
    + subst o. cbn. intuition.
    + destruct lst as [k|]; [|contradiction]. exfalso. apply F. unfold core_finish in D.
      bnd D x Ex. bnd D sq Esq. bnd D lef Ele. bnd D lp Elp. injection D as <-. auto.
Qed.

(** The iteration limit: 201 passes always suffice. *)
Lemma core_loop_fuel E n T1 r1 ss es ce o : core_loop 201 0 E n T1 r1 ss es psl ofl ce 970 970 0 None = Some o -> o <> Lfuel.
Proof.
  intros H -> . pose proof (core_loop_some _ _ _ _ _ _ _ _ _ 201 0 970 970 0 None Lfuel (conj eq_refl (conj eq_refl eq_refl)) H) as Q.
  cbn in Q. lia.
Qed.
End Core.

(** Independence of ckcd_in. *)
Definition same_solution (o o' : pi_out) : Prop :=
  o_pmin o = o_pmin o' /\ o_vmax o = o_vmax o' /\ o_To o = o_To o' /\ o_po o = o_po o' /\
  o_lnpi o = o_lnpi o' /\ o_lneff o = o_lneff o' /\ o_flag o = o_flag o'.

Lemma core_finish_ck sst psl ce l v l' v' k o : core_finish sst psl ce l v k = Some o ->
  exists o', core_finish sst psl ce l' v' k = Some o' /\ same_solution o o'.
Proof.
  unfold core_finish. intros H. bnd H x Ex. bnd H sq Esq. bnd H lef Ele. bnd H lp Elp. injection H as <-.
  rewrite Ex. cbn [bind]. rewrite Esq. cbn [bind]. rewrite Ele. cbn [bind]. rewrite Elp. cbn [bind].
  eexists. split; [reflexivity|]. repeat split.
Qed.
Lemma core_ckcd sstC psl p tc rg num ofl c c' o : calculate_pi_core sstC psl p tc rg num ofl c = Some o ->
  exists o', calculate_pi_core sstC psl p tc rg num ofl c' = Some o' /\ same_solution o o'.
Proof.
  unfold calculate_pi_core. destruct (ckcd_log c) as [l v], (ckcd_log c') as [l' v']. intros H.
  repeat match type of H with bind ?e _ = Some _ =>
    let x := fresh "x" in let E := fresh "E" in apply bind_some in H; destruct H as [x [E H]]; rewrite E; cbn [bind]; clear E end.
  match type of H with (if ?b then _ else _) = _ => destruct b end.
  - injection H as <-. eexists. split; [reflexivity|]. repeat split.
  - apply bind_some in H. destruct H as [lo [Elo H]]. rewrite Elo. cbn [bind].
    destruct lo as [|fl last| |np pm pm0 [k|]]; try discriminate; try (injection H as <-; eexists; split; [reflexivity|]; repeat split).
    eapply core_finish_ck; eauto.
Qed.

(** Only levels 1 .. n of the profiles matter. *)
Lemma core_levels sstC psl p tc rg tc' rg' num ofl c n : effective_points p num = Some n -> 1 <= n <= num ->
  num <= length tc -> num <= length rg -> num <= length tc' -> num <= length rg' ->
  (forall k, 1 <= k <= n -> rd tc k = rd tc' k /\ rd rg k = rd rg' k) ->
  calculate_pi_core sstC psl p tc rg num ofl c = calculate_pi_core sstC psl p tc' rg' num ofl c.
Proof.
  intros En N L1 L2 L3 L4 Eq. unfold calculate_pi_core. destruct (ckcd_log c) as [l v].
  destruct (magnus sstC) as [es|]; [|reflexivity]. cbn [bind].
  rewrite !(mapM_rd_ok (fun x => Rmax (x * (1 / 1000)) 0)%R) by auto. rewrite !(mapM_rd_ok (fun x => x + KELVIN)%R) by auto.
  cbn [bind]. rewrite En. cbn [bind].
  assert (F : forall (f : R -> R) (a b : list R), num <= length a -> num <= length b -> (forall k, 1 <= k <= n -> rd a k = rd b k) ->
    forall k, 1 <= k <= n -> rd (map f (firstn num a)) k = rd (map f (firstn num b)) k).
  { intros f a b A B C k K. rewrite !lev_rd by (rewrite map_length, firstn_length; lia).
    rewrite !lev_map_firstn by lia. f_equal. f_equal. specialize (C k K). rewrite !lev_rd in C by lia. congruence. }
  assert (FT := F (fun x => x + KELVIN)%R tc tc' L1 L3 (fun k K => proj1 (Eq k K))).
  assert (Fr := F (fun x => Rmax (x * (1 / 1000)) 0)%R rg rg' L2 L4 (fun k K => proj2 (Eq k K))).
  rewrite (prepare_ext _ _ p (map (fun x => (x + KELVIN)%R) (firstn num tc')) (map (fun x => Rmax (x * (1 / 1000)) 0)%R (firstn num rg')) p n)
    by (intros k K; rewrite FT, Fr by auto; auto).
  rewrite FT, Fr by lia. reflexivity.
Qed.
