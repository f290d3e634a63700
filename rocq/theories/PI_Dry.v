(** When the CAPE kernel is defined, and its value when the whole sounding lies
    below the parcel's condensation level. *)
From Coq Require Import Reals List Arith Lia ZArith Bool Lra.
From Verif Require Import Base Buffer VH_Model VH_Proofs PI_Model PI_Spec PI_Proofs1 PI_Proofs2 PI_Proofs3.
Import ListNotations.
Local Open Scope nat_scope.

Lemma prepare_defined T r p n : n <= length T -> n <= length r -> n <= length p ->
  (forall k, (1 <= k <= n)%nat -> lev T k <> 2965 / 100 /\ 0 <= lev r k /\ 0 < lev p k)%R ->
  exists E, prepare_cape_environment T r p n = Some E.
Proof.
  intros LT Lr Lp Pos. unfold prepare_cape_environment.
  destruct (mapM_some _ _ (env_level T r p) (seq 1 n)) as [rows Er].
  { intros k K. apply in_seq in K. unfold env_level. rewrite !lev_rd by lia. cbn [bind].
    destruct (Pos k) as (A & B & _); [lia|]. rewrite virt_ok by lra. cbn [bind]. rewrite magnus_ok by (unfold KELVIN; lra). cbn. eauto. }
  rewrite Er. cbn [bind]. destruct (mapM_seq_rd _ _ _ _ Er) as [L Q].
  assert (RP : forall k, 1 <= k <= n -> rd (map (fun '(_, b, _, _) => b) rows : list R) k = Some (lev p k)).
  { intros k K. rewrite rd_map, Q by auto. destruct (@rd_Some _ rows k) as [v Ev]; [lia|]. rewrite Q in Ev by auto. rewrite Ev.
    unfold env_level in Ev. bnd Ev t Ett. bnd Ev q Eqq. bnd Ev pp Epp. bnd Ev tv Etv. bnd Ev es Ees. injection Ev as <-.
    cbn. f_equal. apply rd_lev in Epp. symmetry. apply Epp. }
  destruct (mapM_some _ _ (layer_factor (map (fun '(_, b, _, _) => b) rows)) (seq 1 n)) as [lf El].
  { intros k K. apply in_seq in K. unfold layer_factor. destruct (Nat.eqb_spec k 1); [eauto|].
    rewrite !RP by lia. cbn [bind].
    destruct (Pos k) as (_ & _ & A); [lia|]. destruct (Pos (k - 1)) as (_ & _ & B); [lia|]. rewrite rdiv_ok by lra. eauto. }
  rewrite El. cbn. eauto.
Qed.

Lemma parcel_start_ok Tp rp pp : (200 <= Tp <= 1000 -> 0 < rp -> 0 < pp ->
  parcel_start Tp rp pp = Some (s_parcel Tp rp pp, p_lcl Tp rp pp))%R.
Proof.
  intros HT Hr Hp. pose proof eps_pos as Ep. pose proof (esat_pos Tp) as Es.
  assert (V : (0 < vapour rp pp < pp)%R).
  { unfold vapour. split.
    - apply Rdiv_lt_0_compat; [apply Rmult_lt_0_compat; auto|lra].
    - apply (Rmult_lt_reg_r (eps + rp)); [lra|]. unfold Rdiv. rewrite Rmult_assoc, Rinv_l by lra.
      assert (0 < pp * eps)%R by (apply Rmult_lt_0_compat; auto). lra. }
  assert (RH : (0 < rel_hum Tp rp pp <= 1)%R).
  { unfold rel_hum. split; [|apply Rmin_r]. apply Rmin_glb_lt; [apply Rdiv_lt_0_compat; lra|lra]. }
  destruct (parcel_start Tp rp pp) as [[s l]|] eqn:H.
  - apply parcel_start_some in H. destruct H as (-> & -> & _). auto.
  - exfalso. unfold parcel_start in H. rewrite magnus_ok in H by (unfold KELVIN; lra). cbn [bind] in H.
    rewrite rdiv_ok in H by (rewrite EPS_eq; lra). cbn [bind] in H. rewrite EPS_eq in H. fold (vapour rp pp) in H.
    replace (Tp - KELVIN + 27315 / 100)%R with Tp in H by (unfold KELVIN; lra).
    rewrite rdiv_ok in H by lra. cbn [bind] in H. fold (rel_hum Tp rp pp) in H.
    rewrite rlog_ok in H by lra. cbn [bind] in H. rewrite rlog_ok in H by lra. cbn [bind] in H.
    rewrite rdiv_ok in H by lra. cbn [bind] in H. rewrite rlog_ok in H by lra. cbn [bind] in H.
    rewrite rdiv_ok in H by lra. cbn [bind] in H.
    rewrite rpow_ok in H by lra. discriminate.
Qed.

Lemma Rpower_le_1 x y : (0 < x <= 1 -> 0 <= y -> Rpower x y <= 1)%R.
Proof.
  intros X Y. unfold Rpower. assert (L : (ln x <= 0)%R).
  { destruct (Req_dec x 1) as [->|]; [rewrite ln_1; lra|]. rewrite <- ln_1. left. apply ln_increasing; lra. }
  assert (Z : (y * ln x <= 0)%R) by (assert (0 <= y * - ln x)%R by (apply Rmult_le_pos; lra); lra).
  replace (y * ln x)%R with (- (- (y * ln x)))%R by ring. apply pow_le_one. lra.
Qed.

Lemma p_lcl_le Tp rp pp : (200 <= Tp <= 1000 -> 0 < rp -> 0 < pp -> p_lcl Tp rp pp <= pp)%R.
Proof.
  intros HT Hr Hp. pose proof eps_pos as Ep. pose proof (esat_pos Tp) as Es.
  assert (RH : (0 < rel_hum Tp rp pp <= 1)%R).
  { unfold rel_hum. split; [|apply Rmin_r]. apply Rmin_glb_lt; [|lra]. apply Rdiv_lt_0_compat; [|auto].
    unfold vapour. apply Rdiv_lt_0_compat; [apply Rmult_lt_0_compat; auto|lra]. }
  unfold p_lcl. apply Rle_trans with (pp * 1)%R; [|lra]. apply Rmult_le_compat_l; [lra|]. apply Rpower_le_1; [auto|].
  left. apply Rdiv_lt_0_compat; lra.
Qed.

(** the integrals are defined *)
Lemma find_lnb_ok vtd n : n <= length vtd -> exists l, find_lnb vtd n = Some l.
Proof.
  induction n as [|n IH]; intros L; cbn [find_lnb]; [eauto|]. rewrite lev_rd by lia. cbn [bind].
  destruct (rlt 0 (lev vtd (S n))); [eauto|]. apply IH. lia.
Qed.

Lemma cape_integrals_ok (T r p : list R) n E (OK : env_ok T r p n E) pp vtd :
  1 <= n -> sounding T p n -> (0 < pp)%R -> length vtd = n -> exists o, cape_integrals E pp n vtd = Some o.
Proof.
  intros N (LT & LP & Pos & Dec) Hp L. unfold cape_integrals.
  rewrite (eo_T _ _ _ _ _ OK), (eo_p _ _ _ _ _ OK) by lia. cbn [bind].
  destruct (find_lnb_ok vtd n) as [l El]; [lia|]. rewrite El. cbn [bind].
  destruct (Nat.eqb_spec l 1) as [|L1]; [eauto|].
  destruct (find_lnb_some _ _ _ El) as [[-> _]|(B & (v & Ev & Pv) & C)]; [contradiction|].
  assert (AF : forall m k a, 2 <= k -> k + m <= S l -> exists b, foldM (area_step E vtd) (seq k m) a = Some b).
  { induction m as [|m IH]; intros k a K M; cbn [seq foldM]; [eauto|]. unfold area_step at 1.
    rewrite !lev_rd by lia. cbn [bind]. rewrite (eo_lf _ _ _ _ _ OK) by lia. cbn [bind]. apply IH; lia. }
  destruct (AF (l - 1) 2 (0%R, 0%R)) as [a Ea]; [lia|lia|]. rewrite Ea. cbn [bind]. rewrite lev_rd by lia. cbn [bind].
  destruct (Pos 1) as [_ P1]; [lia|]. rewrite rdiv_ok by lra. cbn [bind].
  assert (AB : exists x, above_lnb E vtd n l = Some x).
  { unfold above_lnb. rewrite (eo_T _ _ _ _ _ OK), (eo_p _ _ _ _ _ OK) by lia. cbn [bind].
    destruct (Nat.ltb_spec l n) as [G|G]; [|eauto].
    rewrite (eo_p _ _ _ _ _ OK), (eo_T _ _ _ _ _ OK) by lia. cbn [bind]. rewrite Ev. cbn [bind].
    destruct (C (l + 1)) as [u [Eu Pu]]; [lia|]. rewrite Eu. cbn [bind]. rewrite rdiv_ok by lra. cbn [bind].
    assert (D : (lev p (l + 1) < lev p l)%R) by (apply Dec; lia).
    destruct (Pos l) as [_ Pl]; [lia|]. destruct (Pos (l + 1)) as [_ Pu']; [lia|].
    assert (Q : (0 <= (lev p (l + 1) * v - lev p l * u) / (v - u))%R).
    { apply Rmult_le_pos; [|left; apply Rinv_0_lt_compat; lra].
      assert (0 <= lev p (l + 1) * v)%R by (apply Rmult_le_pos; lra).
      assert (0 <= lev p l * - u)%R by (apply Rmult_le_pos; lra). lra. }
    rewrite rdiv_ok by lra. cbn [bind]. rewrite rdiv_ok by lra. cbn [bind]. eauto. }
  destruct AB as [[[x y] z] EAB]. rewrite EAB. cbn [bind]. eauto.
Qed.

(** The kernel is defined if every moist level's iteration is. *)
Theorem kernel_defined T r p n E Tp rp pp sig : prepare_cape_environment T r p n = Some E -> 1 <= n ->
  sounding T p n -> (200 <= Tp <= 1000 -> 1 / 1000000 <= rp -> 0 < pp ->
  (forall k, (1 <= k <= n)%nat -> 50 <= lev p k -> lev p k < p_lcl Tp rp pp ->
     exists o, moist_diff E rp (s_parcel Tp rp pp) sig k = Some o) ->
  exists o, cape_from_cached_environment Tp rp pp E n sig = Some o)%R.
Proof.
  intros HE N Sd HT Hr Hp MD. assert (OK := prepare_ok _ _ _ _ _ HE).
  unfold cape_from_cached_environment. rewrite (eo_T _ _ _ _ _ OK), (eo_p _ _ _ _ _ OK) by lia. cbn [bind].
  destruct (rlt_spec rp (1 / 1000000)); [lra|]. destruct (rlt_spec Tp 200); [lra|]. cbn [orb].
  rewrite parcel_start_ok by lra. cbn [bind].
  destruct (mapM_some _ _ (dry_diff E Tp rp pp (p_lcl Tp rp pp)) (seq 1 n)) as [v0 E0].
  { intros k K. apply in_seq in K. unfold dry_diff. rewrite (eo_p _ _ _ _ _ OK) by lia. cbn [bind].
    destruct (andb _ _); [|eauto]. rewrite rdiv_ok by lra. cbn [bind].
    assert (P : (0 < lev p k / pp)%R) by (apply Rdiv_lt_0_compat; [apply Sd; lia|auto]).
    rewrite rpow_ok by auto. cbn [bind]. rewrite virt_ok by lra. cbn [bind]. rewrite (eo_tv _ _ _ _ _ OK) by lia. cbn. eauto. }
  rewrite E0. cbn [bind].
  assert (ML : forall m k vtd, 1 <= k -> k + m <= S n -> length vtd = n ->
    exists o, moist_loop E rp (s_parcel Tp rp pp) sig (p_lcl Tp rp pp) (seq k m) vtd = Some o /\
      match o with Some w => length w = n | None => True end).
  { induction m as [|m IH]; intros k vtd K M L; cbn [seq moist_loop]; [exists (Some vtd); auto|].
    rewrite (eo_p _ _ _ _ _ OK) by lia. cbn [bind]. destruct (rlt_spec (lev p k) P_TOP) as [A|A]; [exists (Some vtd); auto|].
    destruct (rlt_spec (lev p k) (p_lcl Tp rp pp)) as [B|B]; [|apply IH; lia].
    destruct (MD k) as [o Eo]; [lia|unfold P_TOP in A; lra|auto|]. rewrite Eo. cbn [bind]. destruct o as [d|]; [|exists None; auto].
    rewrite wrx_ok by lia. cbn [bind]. apply IH; [lia|lia|]. rewrite wr_length. auto. }
  destruct (mapM_seq_rd _ _ _ _ E0) as [L0 _].
  destruct (ML n 1 v0) as [o [Eo Lo]]; [lia|lia|auto|]. rewrite Eo. cbn [bind].
  destruct o as [w|]; [|eauto]. eapply cape_integrals_ok; eauto.
Qed.

(** A sounding wholly below the condensation level. *)
Definition dry_buoyancy (T r p : list R) (Tp rp pp : R) (k : nat) : R :=
  (Tdens (Tp * Rpower (lev p k / pp) (28704 / 100570)) rp rp - Tdens (lev T k) (lev r k) (lev r k))%R.

Lemma cape_result_ext T p n pp v w o : 1 <= n -> (forall k, 1 <= k <= n -> v k = w k) -> cape_result T p n pp v o -> cape_result T p n pp w o.
Proof.
  intros N H [[A B]|(l & area & L & P & Q & F & C & D)].
  - left. split; [|auto]. intros k K. rewrite <- H by lia. apply A. auto.
  - right. exists l, area. split; [auto|]. split; [rewrite <- H by lia; auto|].
    split; [intros k K; rewrite <- H by lia; apply Q; auto|]. split; [auto|].
    assert (W : forall m, m <= n -> work p v m = work p w m).
    { induction m as [|[|m] IH]; intros M; auto. rewrite !work_S, IH by lia. rewrite !H by lia. auto. }
    split; [rewrite C, W, (H 1) by lia; auto|].
    destruct D as [D|(Ln & lam & A1 & A2 & A3 & A4 & A5)]; [auto|right]. split; [auto|]. exists lam.
    split; [auto|]. rewrite <- !H by lia. auto.
Qed.

Theorem kernel_dry T r p n E Tp rp pp sig : prepare_cape_environment T r p n = Some E -> 1 <= n ->
  sounding T p n -> (200 <= Tp <= 1000 -> 1 / 1000000 <= rp -> 0 < pp ->
  (forall k, (1 <= k <= n)%nat -> 50 <= lev p k /\ p_lcl Tp rp pp <= lev p k) ->
  exists o, cape_from_cached_environment Tp rp pp E n sig = Some o /\
    cape_result T p n pp (dry_buoyancy T r p Tp rp pp) o)%R.
Proof.
  intros HE N Sd HT Hr Hp Dry.
  destruct (kernel_defined T r p n E Tp rp pp sig HE N Sd HT Hr Hp) as [o Eo].
  { intros k K A B. destruct (Dry k K). lra. }
  exists o. split; [auto|]. 
  assert (Dec := proj2 (proj2 (proj2 Sd))).
  destruct (cape_kernel _ _ _ _ _ _ _ _ _ _ HE N Dec Eo) as [[A _]|[_ [Q|(v & Bv & Q)]]]; [lra| |].
  - exfalso. (* no moist level, so no failure of the iteration *)
    assert (OK := prepare_ok _ _ _ _ _ HE).
    unfold cape_from_cached_environment in Eo. rewrite (eo_T _ _ _ _ _ OK), (eo_p _ _ _ _ _ OK) in Eo by lia. cbn [bind] in Eo.
    destruct (rlt_spec rp (1 / 1000000)); [lra|]. destruct (rlt_spec Tp 200); [lra|]. cbn [orb] in Eo.
    rewrite parcel_start_ok in Eo by lra. cbn [bind] in Eo. bnd Eo v0 E0.
    assert (ML : forall m k vtd, 1 <= k -> k + m <= S n ->
      moist_loop E rp (s_parcel Tp rp pp) sig (p_lcl Tp rp pp) (seq k m) vtd = Some (Some vtd)).
    { induction m as [|m IH]; intros k vtd K M; cbn [seq moist_loop]; [auto|].
      rewrite (eo_p _ _ _ _ _ OK) by lia. cbn [bind]. destruct (rlt_spec (lev p k) P_TOP) as [A|A]; [auto|].
      destruct (rlt_spec (lev p k) (p_lcl Tp rp pp)) as [B|B]; [destruct (Dry k); [lia|lra]|]. apply IH; lia. }
    rewrite ML in Eo by lia. cbn [bind] in Eo.
    destruct (mapM_seq_rd _ _ _ _ E0) as [L0 _].
    apply (cape_integrals_some _ _ _ _ _ OK) in Eo; auto; [|intros; apply lev_rd; lia].
    apply cape_result_bounds in Eo; auto. destruct Eo as [F _]. subst o. discriminate.
  - eapply cape_result_ext; [auto| |exact Q]. intros k K. specialize (Bv k K). destruct (Dry k K) as [D1 D2].
    inversion Bv as [? ? E1|t a ? ? |]; [unfold dry_buoyancy; auto|lra|lra].
Qed.
