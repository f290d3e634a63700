(** Lemmas about the partial operations, the environment and the CAPE kernel. *)
From Coq Require Import Reals List Arith Lia ZArith Bool Lra.
From Verif Require Import Base Buffer VH_Model VH_Proofs PI_Model PI_Spec.
Import ListNotations.
Local Open Scope nat_scope.

Lemma rlt_spec x y : reflect (x < y)%R (rlt x y).
Proof. unfold rlt. destruct (Rlt_dec x y); constructor; auto. Qed.
Lemma rle_spec x y : reflect (x <= y)%R (rle x y).
Proof. unfold rle. destruct (Rle_dec x y); constructor; auto. Qed.
Lemma req_spec x y : reflect (x = y)%R (req x y).
Proof. unfold req. destruct (Req_EM_T x y); constructor; auto. Qed.
Lemma rdiv_some x y q : rdiv x y = Some q -> (y <> 0 /\ q = x / y)%R.
Proof. unfold rdiv. destruct (Req_EM_T y 0); [discriminate|]. intros [= <-]. auto. Qed.
Lemma rdiv_ok x y : (y <> 0)%R -> rdiv x y = Some (x / y)%R.
Proof. unfold rdiv. destruct (Req_EM_T y 0); [contradiction|auto]. Qed.
Lemma rlog_some x q : rlog x = Some q -> (0 < x /\ q = ln x)%R.
Proof. unfold rlog. destruct (Rlt_dec 0 x); [|discriminate]. intros [= <-]. auto. Qed.
Lemma rlog_ok x : (0 < x)%R -> rlog x = Some (ln x).
Proof. unfold rlog. destruct (Rlt_dec 0 x); [auto|contradiction]. Qed.
Lemma rpow_some x y q : rpow x y = Some q -> (0 < x /\ q = Rpower x y)%R.
Proof. unfold rpow. destruct (Rlt_dec 0 x); [|discriminate]. intros [= <-]. auto. Qed.
Lemma rpow_ok x y : (0 < x)%R -> rpow x y = Some (Rpower x y).
Proof. unfold rpow. destruct (Rlt_dec 0 x); [auto|contradiction]. Qed.
Lemma rsqrt_some x q : rsqrt x = Some q -> (0 <= x /\ q = sqrt x)%R.
Proof. unfold rsqrt. destruct (Rle_dec 0 x); [|discriminate]. intros [= <-]. auto. Qed.
Lemma rsqrt_ok x : (0 <= x)%R -> rsqrt x = Some (sqrt x).
Proof. unfold rsqrt. destruct (Rle_dec 0 x); [auto|contradiction]. Qed.

(** inversion of one bind in a hypothesis *)
Ltac bnd H x E := apply bind_some in H; destruct H as [x [E H]].

Lemma rd_lev (l : list R) k x : rd l k = Some x -> lev l k = x /\ 1 <= k <= length l.
Proof.
  intros H. pose proof (rd_Some_bounds _ _ H) as B. split; [|auto].
  destruct k; [lia|]. cbn in H. unfold lev. replace (S k - 1) with k by lia. apply nth_error_nth; auto.
Qed.
Lemma lev_rd (l : list R) k : 1 <= k <= length l -> rd l k = Some (lev l k).
Proof.
  intros H. destruct (rd_Some l H) as [v E]. rewrite E. destruct (rd_lev _ _ _ E) as [<- _]. auto.
Qed.

Lemma mapM_seq_rd (A : Type) (f : nat -> option A) n r : mapM f (seq 1 n) = Some r ->
  length r = n /\ forall k, 1 <= k <= n -> rd r k = f k.
Proof.
  intros M. split; [rewrite (mapM_length _ _ _ _ _ M), seq_length; auto|].
  intros k K. assert (E : nth_error (seq 1 n) (k - 1) = Some k).
  { rewrite (nth_error_nth' _ 0) by (rewrite seq_length; lia). rewrite seq_nth by lia. f_equal. lia. }
  destruct (mapM_nth _ _ _ _ _ _ _ M E) as [y [E1 E2]]. rewrite E1.
  destruct k; [lia|]. cbn. replace (S k - 1) with k in E2 by lia. auto.
Qed.

(** constants *)
Lemma EPS_eq : EPS = eps. Proof. unfold EPS, RD, RV, eps. field. Qed.
Lemma eps_pos : (0 < eps)%R. Proof. unfold eps. lra. Qed.

Lemma magnus_some t q : magnus t = Some q -> q = esat (t + 27315 / 100) /\ (t + 27315 / 100 <> 2965 / 100)%R.
Proof.
  unfold magnus. intros H. bnd H x E. injection H as <-. apply rdiv_some in E. destruct E as [N ->].
  unfold esat. split; [|lra]. replace (t + 27315 / 100 - 27315 / 100)%R with t by lra.
  replace (t + 27315 / 100 - 2965 / 100)%R with (2435 / 10 + t)%R by lra. reflexivity.
Qed.
Lemma magnus_ok t : (t + 2435 / 10 <> 0)%R -> magnus t = Some (esat (t + 27315 / 100)).
Proof.
  intros N. destruct (magnus t) eqn:E; [apply magnus_some in E; destruct E as [-> _]; auto|].
  unfold magnus in E. rewrite rdiv_ok in E by lra. discriminate.
Qed.
Lemma magnusK_some T q : magnus (T - KELVIN) = Some q -> q = esat T.
Proof. intros H. apply magnus_some in H. destruct H as [-> _]. f_equal. unfold KELVIN. lra. Qed.
Lemma esat_pos T : (0 < esat T)%R.
Proof. unfold esat. pose proof (exp_pos (1767 / 100 * (T - 27315 / 100) / (T - 2965 / 100))). lra. Qed.

Lemma virt_some T r rt q : virt T r rt = Some q -> q = Tdens T r rt /\ (1 + rt <> 0)%R.
Proof.
  unfold virt. intros H. apply rdiv_some in H. destruct H as [N ->]. split; auto.
  unfold Tdens. f_equal. f_equal. f_equal. unfold INV_EPS. rewrite EPS_eq. field. pose proof eps_pos. lra.
Qed.
Lemma virt_ok T r rt : (1 + rt <> 0)%R -> virt T r rt = Some (Tdens T r rt).
Proof.
  intros N. destruct (virt T r rt) eqn:E; [apply virt_some in E; destruct E as [-> _]; auto|].
  unfold virt in E. rewrite rdiv_ok in E by auto. discriminate.
Qed.

(** ** The prepared environment *)
Record env_ok (T r p : list R) (n : nat) (E : env) : Prop := {
  eo_T : forall k, 1 <= k <= n -> rd (e_T E) k = Some (lev T k);
  eo_p : forall k, 1 <= k <= n -> rd (e_p E) k = Some (lev p k);
  eo_tv : forall k, 1 <= k <= n -> rd (e_tv E) k = Some (Tdens (lev T k) (lev r k) (lev r k));
  eo_es : forall k, 1 <= k <= n -> rd (e_es E) k = Some (esat (lev T k));
  eo_lf : forall k, 2 <= k <= n -> rd (e_lf E) k =
     Some (28704 / 100 * (lev p (k - 1) - lev p k) / (lev p (k - 1) + lev p k))%R;
  eo_T0 : forall k, n < k -> rd (e_T E) k = None;
  eo_p0 : forall k, n < k -> rd (e_p E) k = None;
  eo_len : n <= length T /\ n <= length r /\ n <= length p;
}.

Lemma prepare_ok T r p n E : prepare_cape_environment T r p n = Some E -> env_ok T r p n E.
Proof.
  unfold prepare_cape_environment. intros H. bnd H rows ER. bnd H lf EL. injection H as <-.
  destruct (mapM_seq_rd _ _ _ _ ER) as [L1 R1]. destruct (mapM_seq_rd _ _ _ _ EL) as [L2 R2].
  assert (A : forall k, 1 <= k <= n -> exists t q pp tv es, rd rows k = Some (t, pp, tv, es) /\
    rd T k = Some t /\ rd r k = Some q /\ rd p k = Some pp /\ tv = Tdens t q q /\ es = esat t).
  { intros k K. specialize (R1 k K). destruct (@rd_Some _ rows k) as [v Ev]; [lia|].
    rewrite Ev in R1. symmetry in R1. unfold env_level in R1.
    bnd R1 t Ett. bnd R1 q Eqq. bnd R1 pp Ep. bnd R1 tv Etv. bnd R1 es Ees. injection R1 as <-.
    apply virt_some in Etv. apply magnusK_some in Ees. exists t, q, pp, tv, es. intuition. }
  assert (RP : forall k, 1 <= k <= n -> rd (map (fun '(_, b, _, _) => b) rows : list R) k = Some (lev p k)).
  { intros k K. destruct (A k K) as (t & q & pp & tv & es & H1 & H2 & H3 & H4 & H5 & H6).
    rewrite rd_map, H1. cbn. f_equal. apply rd_lev in H4. symmetry. apply H4. }
  constructor; cbn [e_T e_p e_tv e_es e_lf].
  - intros k K. destruct (A k K) as (t & q & pp & tv & es & H1 & H2 & H3 & H4 & H5 & H6).
    rewrite rd_map, H1. cbn. f_equal. apply rd_lev in H2. symmetry. apply H2.
  - exact RP.
  - intros k K. destruct (A k K) as (t & q & pp & tv & es & H1 & H2 & H3 & H4 & H5 & H6).
    rewrite rd_map, H1. cbn. f_equal. apply rd_lev in H2. apply rd_lev in H3. destruct H2 as [-> _], H3 as [-> _]. auto.
  - intros k K. destruct (A k K) as (t & q & pp & tv & es & H1 & H2 & H3 & H4 & H5 & H6).
    rewrite rd_map, H1. cbn. f_equal. apply rd_lev in H2. destruct H2 as [-> _]. auto.
  - intros k K. rewrite R2 by lia. destruct (@rd_Some _ lf k) as [v Ev]; [lia|]. rewrite R2 in Ev by lia.
    rewrite Ev. unfold layer_factor in Ev. destruct (Nat.eqb_spec k 1); [lia|].
    rewrite RP in Ev by lia. rewrite RP in Ev by lia. cbn [bind] in Ev. apply rdiv_some in Ev.
    destruct Ev as [_ ->]. f_equal. unfold RD. f_equal. lra.
  - intros k K. apply rd_None. rewrite map_length. lia.
  - intros k K. apply rd_None. rewrite map_length. lia.
  - destruct n; [lia|]. destruct (A (S n)) as (t & q & pp & tv & es & H1 & H2 & H3 & H4 & _); [lia|].
    apply rd_lev in H2, H3, H4. lia.
Qed.

(** levels beyond n do not matter *)
Lemma prepare_ext T r p T' r' p' n : (forall k, 1 <= k <= n -> rd T k = rd T' k /\ rd r k = rd r' k /\ rd p k = rd p' k) ->
  prepare_cape_environment T r p n = prepare_cape_environment T' r' p' n.
Proof.
  intros H. unfold prepare_cape_environment.
  replace (mapM (env_level T' r' p') (seq 1 n)) with (mapM (env_level T r p) (seq 1 n)); auto.
  apply mapM_ext_in. intros k K. apply in_seq in K. unfold env_level. destruct (H k) as (-> & -> & ->); [lia|]. auto.
Qed.

(** ** The moist iteration *)
Lemma newton_some rp s p it T r tn : newton_step rp s p it T r = Some tn ->
  exists a, (a = 3 / 10 \/ a = 1)%R /\ (0 < T)%R /\ (s_rate rp T r <> 0)%R /\
    tn = (T + a * (s - s_moist rp p T r) / s_rate rp T r)%R.
Proof.
  unfold newton_step. intros H. bnd H a Ea. bnd H rate Er. bnd H e Ee. bnd H lnt Elt. bnd H lp Elp.
  bnd H lr Elr. bnd H d Ed. injection H as <-.
  apply rdiv_some in Ea, Er, Ee, Elr, Ed. apply rlog_some in Elt, Elp.
  destruct Ea as [N1 ->], Er as [N2 ->], Ee as [N3 ->], Elr as [N4 ->], Ed as [N5 ->], Elt as [P1 ->], Elp as [P2 ->].
  exists (if it <? 3 then 3 / 10 else 1)%R. split; [destruct (it <? 3); auto|]. split; [auto|].
  assert (RT : s_rate rp T r = ((CPD + rp * CL + (ALV0 + CPVMCL * (T - KELVIN)) * (ALV0 + CPVMCL * (T - KELVIN)) * r * INV_RV / (T * T)) / T)%R).
  { unfold s_rate, Lv, CPD, CL, ALV0, CPVMCL, KELVIN, INV_RV, RV. field. lra. }
  rewrite RT. split; [auto|]. f_equal. f_equal. f_equal. f_equal.
  unfold s_moist, Lv, vapour. rewrite EPS_eq. unfold CPD, CL, RD, ALV0, CPVMCL, KELVIN. field. lra.
Qed.

Lemma moist_iter_some fuel : forall rp s p it T r t q,
  moist_iter fuel rp s p it T r = Some (Some (t, q)) -> r = wsat p T ->
  q = wsat p t /\ (0 < t)%R /\ (t = T \/ (esat t <= p - 1)%R) /\
  exists a, (a = 3 / 10 \/ a = 1)%R /\
    (a * Rabs (s - s_moist rp p t q) <= 1 / 1000 * Rabs (s_rate rp t q))%R.
Proof.
  induction fuel as [|fuel IH]; intros rp s p it T r t q H W; cbn [moist_iter] in H; [discriminate|].
  bnd H tn En. destruct (rle_spec (Rabs (tn - T)) (1 / 1000)) as [C|C].
  - injection H as <- <-. apply newton_some in En. destruct En as (a & Ha & Pt & Nz & ->).
    split; [auto|]. split; [auto|]. split; [auto|]. exists a. split; [auto|].
    replace (T + a * (s - s_moist rp p T r) / s_rate rp T r - T)%R
      with (a * (s - s_moist rp p T r) * / s_rate rp T r)%R in C by (unfold Rdiv; ring).
    rewrite !Rabs_mult, Rabs_inv in C. assert (Aa : Rabs a = a) by (apply Rabs_pos_eq; destruct Ha; lra).
    rewrite Aa in C. apply Rabs_pos_lt in Nz.
    apply (Rmult_le_compat_r (Rabs (s_rate rp T r))) in C; [|lra].
    rewrite Rmult_assoc, Rinv_l in C by lra. lra.
  - bnd H es Ees. destruct (orb (MAX_IT <? S it) (rlt (p - 1) es)) eqn:B; [discriminate|].
    apply orb_false_iff in B. destruct B as [_ B]. destruct (rlt_spec (p - 1) es) as [|B']; [discriminate|].
    bnd H rn Ern. apply magnusK_some in Ees. subst es. apply rdiv_some in Ern. destruct Ern as [N ->].
    apply IH in H; [|unfold wsat; rewrite EPS_eq; auto]. destruct H as (H1 & H2 & H3 & H4).
    split; [auto|]. split; [auto|]. split; [|auto]. right. destruct H3 as [->|]; lra.
Qed.

(** ** The parcel *)
Lemma parcel_start_some Tp rp pp s plcl : parcel_start Tp rp pp = Some (s, plcl) ->
  s = s_parcel Tp rp pp /\ plcl = p_lcl Tp rp pp /\ (0 < Tp)%R /\ (0 < rel_hum Tp rp pp)%R /\
  (vapour rp pp < pp)%R.
Proof.
  unfold parcel_start. intros H. bnd H es Ees. bnd H e Ee. bnd H rh0 Erh. bnd H lnt Elt. bnd H lp Elp. bnd H q Eqq.
  bnd H lrh Elrh. bnd H chi Echi. bnd H w Ew. injection H as <- <-.
  apply magnusK_some in Ees. apply rdiv_some in Ee, Erh, Eqq, Echi. apply rlog_some in Elt, Elp, Elrh. apply rpow_some in Ew.
  destruct Ee as [N1 ->], Erh as [N2 ->], Eqq as [N3 ->], Echi as [N4 ->], Elt as [P1 ->], Elp as [P2 ->], Elrh as [P3 ->], Ew as [P4 ->].
  subst es. rewrite EPS_eq in *. fold (vapour rp pp) in *. fold (rel_hum Tp rp pp) in *.
  split; [|split; [reflexivity|split; [auto|split; [auto|lra]]]].
  unfold s_parcel, s_moist, Lv, CPD, CL, RD, ALV0, CPVMCL, KELVIN, RV. field. lra.
Qed.

(** ** The buoyancy of the levels *)
Section Levels.
Variables (T r p : list R) (n : nat) (E : env).
Hypothesis OK : env_ok T r p n E.
Variables (Tp rp pp sig s plcl : R).
Hypothesis Hs : s = s_parcel Tp rp pp.
Hypothesis Hl : plcl = p_lcl Tp rp pp.
Hypothesis Dec : forall i j, 1 <= i < j -> j <= n -> (lev p j < lev p i)%R.

Lemma dry_diff_some k v : 1 <= k <= n -> dry_diff E Tp rp pp plcl k = Some v ->
  (lev p k < 50)%R /\ v = 0%R \/ (50 <= lev p k)%R /\ (lev p k < plcl)%R \/
  (50 <= lev p k)%R /\ (plcl <= lev p k)%R /\ buoyancy T r p Tp rp pp sig k v.
Proof.
  intros K. unfold dry_diff. rewrite (eo_p _ _ _ _ _ OK) by auto. cbn [bind]. intros H.
  destruct (rle_spec P_TOP (lev p k)) as [A|A], (rle_spec plcl (lev p k)) as [B|B]; cbn [andb] in H; unfold P_TOP in *.
  - right; right. split; [auto|]. split; [auto|].
    bnd H x Ex. bnd H w Ew. bnd H tv Etv. rewrite (eo_tv _ _ _ _ _ OK) in H by auto. cbn [bind] in H.
    injection H as <-. apply rdiv_some in Ex. apply rpow_some in Ew. apply virt_some in Etv.
    destruct Ex as [N ->], Ew as [P ->], Etv as [-> _]. 
    replace (RD / CPD)%R with (28704 / 100570)%R by (unfold RD, CPD; field).
    apply B_dry; [auto|]. rewrite <- Hl. auto.
  - right; left. split; lra.
  - left. split; [lra|congruence].
  - left. split; [lra|congruence].
Qed.

Lemma moist_diff_some k v : 1 <= k <= n -> (50 <= lev p k)%R -> (lev p k < plcl)%R ->
  moist_diff E rp s sig k = Some (Some v) -> buoyancy T r p Tp rp pp sig k v.
Proof.
  intros K A B H. unfold moist_diff in H. rewrite (eo_p _ _ _ _ _ OK), (eo_T _ _ _ _ _ OK), (eo_es _ _ _ _ _ OK) in H by auto.
  cbn [bind] in H. bnd H r0 Er. bnd H o Eo. destruct o as [[t q]|]; [|discriminate].
  bnd H tv Etv. rewrite (eo_tv _ _ _ _ _ OK) in H by auto. cbn [bind] in H. injection H as <-.
  apply rdiv_some in Er. destruct Er as [_ ->]. rewrite EPS_eq in Eo.
  apply moist_iter_some in Eo; [|reflexivity]. destruct Eo as (-> & P & C & a & Ha & Hb).
  apply virt_some in Etv. destruct Etv as [-> _]. subst s plcl. eapply B_moist; eauto.
Qed.

Lemma moist_loop_some : forall m k0 vtd w, k0 + m = S n -> 1 <= k0 -> length vtd = n ->
  (forall k, k0 <= k <= n -> exists v, rd vtd k = Some v /\ dry_diff E Tp rp pp plcl k = Some v) ->
  (forall k, 1 <= k < k0 -> exists v, rd vtd k = Some v /\ buoyancy T r p Tp rp pp sig k v) ->
  moist_loop E rp s sig plcl (seq k0 m) vtd = Some (Some w) ->
  length w = n /\ forall k, 1 <= k <= n -> exists v, rd w k = Some v /\ buoyancy T r p Tp rp pp sig k v.
Proof.
  induction m as [|m IH]; intros k0 vtd w Hk K0 L Hd Hb H; cbn [seq moist_loop] in H.
  - injection H as <-. split; [auto|]. intros k K. apply Hb. lia.
  - rewrite (eo_p _ _ _ _ _ OK) in H by lia. cbn [bind] in H.
    destruct (rlt_spec (lev p k0) P_TOP) as [A|A]; unfold P_TOP in A.
    + injection H as <-. split; [auto|]. intros k K. destruct (le_lt_dec k0 k) as [G|G]; [|apply Hb; lia].
      destruct (Hd k) as [v [E1 E2]]; [lia|]. exists v. split; [auto|].
      assert (Q : (lev p k < 50)%R).
      { destruct (Nat.eq_dec k k0) as [->|]; [auto|]. assert (lev p k < lev p k0)%R by (apply Dec; lia). lra. }
      apply dry_diff_some in E2; [|lia]. destruct E2 as [[_ ->]|[[Q' _]|[Q' _]]]; [|lra|lra]. apply B_top. auto.
    + destruct (rlt_spec (lev p k0) plcl) as [B|B].
      * bnd H o Eo. destruct o as [d|]; [|discriminate]. bnd H vtd' Ew.
        assert (Hlen : 1 <= k0 <= length vtd) by lia.
        rewrite wrx_ok in Ew by auto. injection Ew as <-.
        apply (IH (S k0)) in H; auto; try lia; [rewrite wr_length; auto| |].
        -- intros k K. rewrite rd_wr_neq by lia. apply Hd. lia.
        -- intros k K. destruct (Nat.eq_dec k k0) as [->|N].
           ++ exists d. split; [apply rd_wr_eq; auto|]. apply moist_diff_some; auto; [lia|lra].
           ++ rewrite rd_wr_neq by auto. apply Hb. lia.
      * apply (IH (S k0)) in H; auto; try lia; [intros k K; apply Hd; lia|].
        intros k K. destruct (Nat.eq_dec k k0) as [->|N]; [|apply Hb; lia].
        destruct (Hd k0) as [v [E1 E2]]; [lia|]. exists v. split; [auto|].
        apply dry_diff_some in E2; [|lia]. destruct E2 as [[Q _]|[[_ Q]|(_ & _ & Q)]]; [lra|lra|auto].
Qed.
End Levels.

(** ** The integrals *)
Lemma find_lnb_some vtd : forall n l, find_lnb vtd n = Some l ->
  (l = 1 /\ forall k, 1 <= k <= n -> exists v, rd vtd k = Some v /\ (v <= 0)%R) \/
  (1 <= l <= n /\ (exists v, rd vtd l = Some v /\ (0 < v)%R) /\
   forall k, l < k <= n -> exists v, rd vtd k = Some v /\ (v <= 0)%R).
Proof.
  induction n as [|n IH]; intros l H; cbn [find_lnb] in H.
  - injection H as <-. left. split; [auto|]. intros. lia.
  - bnd H v Ev. destruct (rlt_spec 0 v) as [P|P].
    + injection H as <-. right. split; [lia|]. split; [eauto|]. intros. lia.
    + destruct (IH l H) as [[-> Q]|(Q1 & Q2 & Q3)].
      * left. split; [auto|]. intros k K. destruct (Nat.eq_dec k (S n)) as [->|]; [exists v; split; [auto|lra]|apply Q; lia].
      * right. split; [lia|]. split; [auto|]. intros k K.
        destruct (Nat.eq_dec k (S n)) as [->|]; [exists v; split; [auto|lra]|apply Q3; lia].
Qed.

Lemma work_S p v m : work p v (S (S m)) = (work p v (S m) +
  (v (S (S m)) + v (S m)) * (28704 / 100 * (lev p (S m) - lev p (S (S m))) / (lev p (S m) + lev p (S (S m)))))%R.
Proof. reflexivity. Qed.

Lemma area_fold (T r p : list R) n E (OK : env_ok T r p n E) vtd :
  forall m a b, (forall k, 1 <= k <= n -> exists v, rd vtd k = Some v) -> 1 + m <= n ->
  foldM (area_step E vtd) (seq 2 m) a = Some b ->
  (fst b - snd b = fst a - snd a + work p (lev vtd) (1 + m))%R.
Proof.
  intros m. induction m as [|m IH]; intros a b V M H.
  - cbn in H. injection H as <-. cbn. lra.
  - replace (S m) with (m + 1) in H by lia. rewrite seq_app in H.
    assert (X : forall l1 l2 s0, foldM (area_step E vtd) (l1 ++ l2) s0 =
      bind (foldM (area_step E vtd) l1 s0) (foldM (area_step E vtd) l2)).
    { clear. induction l1; intros; cbn; auto. destruct (area_step E vtd s0 a); cbn; auto. }
    rewrite X in H. bnd H c Ec. apply IH in Ec; [|auto|lia].
    cbn [seq foldM] in H. bnd H d Ed. injection H as <-. unfold area_step in Ed.
    bnd Ed v Ev. bnd Ed w Ew. rewrite (eo_lf _ _ _ _ _ OK) in Ed by lia. cbn [bind] in Ed. injection Ed as <-.
    cbn [fst snd]. apply rd_lev in Ev, Ew. destruct Ev as [Ev _], Ew as [Ew _].
    replace (1 + S m) with (S (S m)) by lia. rewrite work_S.
    replace (2 + m) with (S (S m)) in Ev by lia. replace (2 + m - 1) with (S m) in Ew by lia.
    replace (2 + m) with (S (S m)) by lia. replace (S (S m) - 1) with (S m) by lia.
    change (work p (lev vtd) (1 + m)) with (work p (lev vtd) (S m)) in Ec. rewrite Ev, Ew.
    set (F := ((v + w) * (28704 / 100 * (lev p (S m) - lev p (S (S m))) / (lev p (S m) + lev p (S (S m)))))%R) in *.
    assert (MM : (Rmax F 0 + Rmin F 0 = F)%R) by (unfold Rmax, Rmin; destruct (Rle_dec F 0); lra).
    lra.
Qed.

Lemma above_lnb_some (T r p : list R) n E (OK : env_ok T r p n E) vtd l area tn pn :
  (forall k, 1 <= k <= n -> rd vtd k = Some (lev vtd k)) ->
  (forall i j, 1 <= i < j -> j <= n -> (lev p j < lev p i)%R) ->
  1 <= l <= n -> (0 < lev vtd l)%R -> (l < n -> (lev vtd (l + 1) <= 0)%R) ->
  above_lnb E vtd n l = Some (area, tn, pn) ->
  (l = n /\ area = 0%R /\ tn = lev T n /\ pn = lev p n) \/
  (l < n /\ exists lam, (0 < lam <= 1)%R /\ ((1 - lam) * lev vtd l + lam * lev vtd (l + 1)%nat = 0)%R /\
     pn = ((1 - lam) * lev p l + lam * lev p (l + 1))%R /\ tn = ((1 - lam) * lev T l + lam * lev T (l + 1))%R /\
     area = (28704 / 100 * lev vtd l * (lev p l - pn) / (lev p l + pn))%R).
Proof.
  intros V Dec L P U H. unfold above_lnb in H. rewrite (eo_T _ _ _ _ _ OK), (eo_p _ _ _ _ _ OK) in H by auto.
  cbn [bind] in H. destruct (Nat.ltb_spec l n) as [G|G].
  - right. split; [auto|]. rewrite (eo_p _ _ _ _ _ OK), (eo_T _ _ _ _ _ OK), !V in H by lia. cbn [bind] in H.
    bnd H q Eqq. bnd H ar Ea. bnd H t Ett. injection H as <- <- <-.
    apply rdiv_some in Eqq, Ea, Ett. destruct Eqq as [N1 Eqq], Ea as [N2 Ea], Ett as [N3 Ett].
    specialize (U G). assert (D : (lev p (l + 1) < lev p l)%R) by (apply Dec; lia).
    exists (lev vtd l / (lev vtd l - lev vtd (l + 1)))%R.
    assert (Q : (0 < lev vtd l - lev vtd (l + 1))%R) by lra.
    split; [split|].
    + apply Rdiv_lt_0_compat; lra.
    + apply (Rmult_le_reg_r (lev vtd l - lev vtd (l + 1))); [lra|]. unfold Rdiv. rewrite Rmult_assoc, Rinv_l by lra. lra.
    + split; [field; lra|]. split; [subst q; field; lra|]. split; [subst t q; field; lra|]. subst ar. unfold RD. auto.
  - injection H as <- <- <-. left. assert (l = n) by lia. subst l. auto.
Qed.

Lemma cape_integrals_some (T r p : list R) n E (OK : env_ok T r p n E) pp vtd o :
  1 <= n -> (forall k, 1 <= k <= n -> rd vtd k = Some (lev vtd k)) ->
  (forall i j, 1 <= i < j -> j <= n -> (lev p j < lev p i)%R) ->
  cape_integrals E pp n vtd = Some o -> cape_result T p n pp (lev vtd) o.
Proof.
  intros N V Dec H. unfold cape_integrals in H.
  rewrite (eo_T _ _ _ _ _ OK), (eo_p _ _ _ _ _ OK) in H by lia. cbn [bind] in H. bnd H l El.
  apply find_lnb_some in El. destruct (Nat.eqb_spec l 1) as [L1|L1].
  - injection H as <-. left. split; [|auto]. intros k K. 
    destruct El as [[_ Q]|(_ & _ & Q)]; destruct (Q k) as [v [E1 E2]]; try lia; apply rd_lev in E1; destruct E1 as [-> _]; auto.
  - destruct El as [[-> _]|(Q1 & [v [Q2 Q3]] & Q4)]; [contradiction|].
    right. bnd H a Ea. rewrite V in H by lia. cbn [bind] in H. bnd H pf Ep. bnd H ab Eab. destruct ab as [[area tn] pn].
    injection H as <-. exists l, area. split; [lia|]. apply rd_lev in Q2. destruct Q2 as [Q2 _].
    split; [lra|]. 
    assert (Q5 : forall k, l < k <= n -> (lev vtd k <= 0)%R).
    { intros k K. destruct (Q4 k K) as [x [E1 E2]]. apply rd_lev in E1. destruct E1 as [-> _]. auto. }
    split; [auto|]. cbn [c_flag c_cape c_p c_T]. split; [auto|].
    assert (V' : forall k, 1 <= k <= n -> exists v, rd vtd k = Some v) by (intros; rewrite V; eauto).
    apply (area_fold _ _ _ _ _ OK) in Ea; [|auto|lia]. cbn [fst snd] in Ea. replace (1 + (l - 1)) with l in Ea by lia.
    apply rdiv_some in Ep. destruct Ep as [_ ->].
    split.
    + f_equal. set (F := (RD * (pp - lev p 1) / (pp + lev p 1))%R).
      assert (F' : (28704 / 100 * (pp - lev p 1) / (pp + lev p 1))%R = F) by reflexivity. rewrite F'.
      assert (MM : (F * Rmax (lev vtd 1) 0 + F * Rmin (lev vtd 1) 0 = F * lev vtd 1)%R)
        by (unfold Rmax, Rmin; destruct (Rle_dec (lev vtd 1) 0); lra).
      lra.
    + apply (above_lnb_some _ _ _ _ _ OK) in Eab; auto; [lra|]. intros. apply Q5. lia.
Qed.

(** ** The kernel *)
Theorem cape_kernel (T r p : list R) n E Tp rp pp sig o :
  prepare_cape_environment T r p n = Some E -> 1 <= n ->
  (forall i j, 1 <= i < j -> j <= n -> (lev p j < lev p i)%R) ->
  cape_from_cached_environment Tp rp pp E n sig = Some o ->
  ((rp < 1 / 1000000 \/ Tp < 200)%R /\ o = mkcape 0 (lev T 1) (lev p 1) 0) \/
  ((1 / 1000000 <= rp /\ 200 <= Tp)%R /\
   (o = mkcape 0 (lev T 1) (lev p 1) 2 \/
    exists v, (forall k, 1 <= k <= n -> buoyancy T r p Tp rp pp sig k (v k)) /\ cape_result T p n pp v o)).
Proof.
  intros HE N Dec H. apply prepare_ok in HE. rename HE into OK.
  unfold cape_from_cached_environment in H. rewrite (eo_T _ _ _ _ _ OK), (eo_p _ _ _ _ _ OK) in H by lia. cbn [bind] in H.
  destruct (rlt_spec rp (1 / 1000000)) as [A|A], (rlt_spec Tp 200) as [B|B]; cbn [orb] in H;
    try (injection H as <-; left; split; [auto|auto]).
  right. split; [lra|]. bnd H sp Es. destruct sp as [s plcl]. bnd H vtd0 E0. bnd H w Ew.
  apply parcel_start_some in Es. destruct Es as (Es & El & _).
  destruct w as [w|]; [|injection H as <-; auto].
  right. destruct (mapM_seq_rd _ _ _ _ E0) as [L0 R0].
  destruct (moist_loop_some T r p n E OK Tp rp pp sig s plcl Es El Dec n 1 vtd0 w) as [Lw Bw]; auto; try lia.
  - intros k K. destruct (@rd_Some _ vtd0 k) as [v Ev]; [lia|]. exists v. split; [auto|]. rewrite <- R0; auto.
  - assert (V : forall k, 1 <= k <= n -> rd w k = Some (lev w k)) by (intros; apply lev_rd; lia).
    exists (lev w). split.
    + intros k K. destruct (Bw k K) as [v [E1 E2]]. rewrite V in E1 by auto. injection E1 as <-. auto.
    + apply (cape_integrals_some T r p n E OK); auto.
Qed.
