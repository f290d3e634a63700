(** C83, continued: the logarithmic decomposition, what the Python layer gets
    wrong, and a call on which everything above applies. *)
From Coq Require Import Reals List Arith Lia ZArith Bool Permutation Lra String.
From Verif Require SH_Proofs.
From Verif Require Import Base Buffer VH_Model VH_Proofs PI_Model PI_Model2 PI_Spec PI_Proofs1 PI_Proofs2 PI_Proofs3 PI_Proofs4 PI_Dry PI_Wit PI_Wit2 PI_Props1 PI_Props2 PI_Props3 PI_Py PI_PySpec PI_PyProofs PI_PyProofs2 PI_PyProps PI_PyProps2 PI_PyProps3.
Import ListNotations.
Local Open Scope nat_scope.

(** positive and within any floating-point range *)
Definition in_range (x : R) : Prop := (exp (- 10 ^ 30) <= x <= exp (10 ^ 30))%R.
Lemma ln_range x : in_range x -> (- 10 ^ 30 <= ln x <= 10 ^ 30)%R /\ (0 < x)%R.
Proof.
  intros [A B]. assert (P : (0 < exp (- 10 ^ 30))%R) by apply exp_pos. split; [|lra]. split.
  - rewrite <- (ln_exp (- 10 ^ 30)). destruct A as [A|A]; [left; apply ln_increasing; auto|right; f_equal; auto].
  - rewrite <- (ln_exp (10 ^ 30)). destruct B as [B|B]; [left; apply ln_increasing; lra|right; f_equal; auto].
Qed.
Lemma post_keep x : (- 9 * 10 ^ 33 <= x)%R -> post x = Some x.
Proof. apply (C83_outputs x). Qed.
Lemma post_undef : post UNDEF = None.
Proof. apply (C83_outputs 0). Qed.
Lemma exp_inj_ln a b : exp a = b -> a = ln b.
Proof. intros <-. rewrite ln_exp. auto. Qed.

Theorem C83_log_decompose : forall sst psl P tc rg num ofl ck o,
  calculate_pi_core (to_C sst) psl P tc rg num ofl ck = Some o -> o_flag o = 1%Z ->
  1 <= num -> (0 < psl)%R -> sounding (kelvin tc num) P num ->
  in_range ck -> (o_vmax o = 0%R \/ in_range (o_vmax o)) -> ((sst <= o_To o)%R \/ in_range ((sst - o_To o) / o_To o)) ->
  log_decompose (post (o_vmax o)) (Some sst) (post (o_To o)) ck =
    (post (o_lnpi o), post (o_lneff o), post (o_lndiseq o), o_lnckcd o) /\
  post (o_lnckcd o) = Some (ln ck).
Proof.
  intros sst psl P tc rg num ofl ck o H F N Pp Sd Rc Rv Re.
  destruct (core_success _ _ _ _ _ _ _ _ _ H F N Pp Sd) as (top & _ & S).
  destruct (ln_range _ Rc) as [Lc Pc].
  assert (ES : (to_C sst + 27315 / 100)%R = sst) by (unfold to_C; lra). rewrite ES in S.
  assert (To : (0 < o_To o)%R). { destruct (ps_state _ _ _ _ _ _ _ _ _ S) as (np & ce & cm & cs & pm0 & pm & Q). cbv zeta in Q. tauto. }
  assert (V0 := ps_vmax _ _ _ _ _ _ _ _ _ S).
  destruct (ps_lnpi _ _ _ _ _ _ _ _ _ S) as [L1 L2], (ps_lneff _ _ _ _ _ _ _ _ _ S) as [E1 E2], (ps_lnckcd _ _ _ _ _ _ _ _ _ S) as [C1 _], (ps_lndiseq _ _ _ _ _ _ _ _ _ S) as [D1 D2].
  rewrite (exp_inj_ln _ _ (C1 Pc)). split; [|apply post_keep; lra].
  rewrite (post_keep (o_vmax o)), (post_keep (o_To o)) by lra. unfold log_decompose.
  destruct (req_spec (o_To o) 0); [lra|].
  assert (EF : (if rlt 0 ((sst - o_To o) / o_To o) then Some (ln ((sst - o_To o) / o_To o)) else None) = post (o_lneff o) /\
    (o_To o < sst -> - 10 ^ 30 <= o_lneff o <= 10 ^ 30)%R).
  { destruct (rlt_spec 0 ((sst - o_To o) / o_To o)) as [A|A].
    - assert (B : (o_To o < sst)%R).
      { destruct (Rlt_dec (o_To o) sst) as [B|B]; auto. exfalso. assert (Q : ((sst - o_To o) / o_To o <= 0)%R); [|lra].
        unfold Rdiv. assert (0 < / o_To o)%R by (apply Rinv_0_lt_compat; auto). nra. }
      destruct Re as [Re|Re]; [lra|]. destruct (ln_range _ Re) as [L _]. rewrite (exp_inj_ln _ _ (E1 B)). rewrite post_keep by lra. auto.
    - assert (B : (sst <= o_To o)%R).
      { destruct (Rlt_dec (o_To o) sst) as [B|B]; [|lra]. exfalso. apply A. apply Rdiv_lt_0_compat; lra. }
      rewrite E2, post_undef by auto. split; auto. intros; lra. }
  destruct EF as [-> EF].
  assert (PF : (if rlt 0 (o_vmax o) then Some (2 * ln (o_vmax o))%R else None) = post (o_lnpi o) /\
    (0 < o_vmax o -> - 2 * 10 ^ 30 <= o_lnpi o <= 2 * 10 ^ 30)%R).
  { destruct (rlt_spec 0 (o_vmax o)) as [A|A].
    - destruct Rv as [Rv|Rv]; [lra|]. destruct (ln_range _ Rv) as [L _].
      assert (Q : o_lnpi o = (2 * ln (o_vmax o))%R).
      { rewrite (exp_inj_ln _ _ (L1 A)). replace (o_vmax o ^ 2)%R with (o_vmax o * o_vmax o)%R by ring. rewrite ln_mult by auto. ring. }
      rewrite Q, post_keep by lra. split; auto. intros; lra.
    - rewrite L2, post_undef by lra. split; auto. intros; lra. }
  destruct PF as [-> PF].
  destruct (Rlt_dec 0 (o_vmax o)) as [A|A]; [|rewrite (L2 ltac:(lra)), (D2 ltac:(lra)), post_undef; auto].
  destruct (Rlt_dec (o_To o) sst) as [B|B]; [|rewrite (E2 ltac:(lra)), (D2 ltac:(lra)), post_undef; destruct (post (o_lnpi o)); auto].
  assert (EQ : o_lndiseq o = (o_lnpi o - o_lneff o - ln ck)%R).
  { specialize (D1 A B Pc). rewrite <- (E1 B), <- (L1 A), <- (exp_ln ck Pc) in D1 at 1. rewrite <- !exp_plus in D1. apply exp_inv in D1. lra. }
  specialize (PF A). specialize (EF B). rewrite EQ, !post_keep by lra. auto.
Qed.

(** A sea-surface temperature in Celsius is turned back by what the compiled
    code subtracts; other units are rejected. *)
Theorem C83_units : forall units sst,
  ((units = "K" \/ units = "k")%string -> sst_to_kelvin units sst = Ret sst) /\
  ((units = "C" \/ units = "c")%string -> sst_to_kelvin units (to_C sst) = Ret sst) /\
  (sst_to_kelvin units sst = Raise <-> ~ In units ["K"; "k"; "C"; "c"]%string).
Proof.
  intros units sst. unfold sst_to_kelvin. repeat split.
  - intros [-> | ->]; auto.
  - intros [-> | ->]; cbn; f_equal; unfold to_C; lra.
  - destruct (String.eqb_spec units "K"), (String.eqb_spec units "k"), (String.eqb_spec units "C"), (String.eqb_spec units "c"); cbn [orb]; intros H; try discriminate.
    cbn. intros I. repeat (destruct I as [I|I]; [congruence|]). auto.
  - intros I. destruct (String.eqb_spec units "K"); [exfalso; apply I; subst; cbn; auto|]. destruct (String.eqb_spec units "k"); [exfalso; apply I; subst; cbn; auto|].
    destruct (String.eqb_spec units "C"); [exfalso; apply I; subst; cbn; auto|]. destruct (String.eqb_spec units "c"); [exfalso; apply I; subst; cbn; auto 6|]. auto.
Qed.
Example C83_units_example : sst_to_kelvin "C" (to_C 300) = Ret 300%R /\ sst_to_kelvin "F" 80 = Raise.
Proof. split; [apply (C83_units "C" 300); auto|reflexivity]. Qed.

(** the witness column as arrays *)
Definition wP : list (option R) := map Some wit_p.
Definition wT : list (option R) := map Some colT.
Definition wr : list (option R) := map Some colr.
(** the lowest level missing *)
Definition lP : list (option R) := Some 1010%R :: wP.
Definition lT : list (option R) := None :: wT.
Definition lr : list (option R) := None :: wr.
Lemma l_surface : surface_first lP.
Proof.
  split.
  - intros x I. unfold lP, wP, wit_p in I. cbn in I. repeat destruct I as [<-|I]; try contradiction; eexists; (split; [reflexivity|]); unfold UNDEF; lra.
  - intros k k' a b L A B. unfold lP, wP, wit_p in A, B. cbn in A, B.
    do 4 (destruct k as [|k]; [cbn in A; injection A as <-; do 4 (destruct k' as [|k']; [try lia; cbn in B; injection B as <-; lra|]); destruct k'; discriminate|]).
    destruct k; discriminate.
Qed.
(** ** Fewer levels of a profile *)
Lemma rd_firstn (l : list R) n i : i <= n -> rd (firstn n l) i = rd l i.
Proof.
  intros H. destruct i as [|i]; [reflexivity|]. cbn [rd]. revert l i H. induction n as [|n IH]; intros l i H; [lia|].
  destruct l as [|a l]; [cbn; destruct i; auto|]. destruct i as [|i]; [reflexivity|]. cbn [firstn nth_error]. apply IH. lia.
Qed.
Lemma find_top_firstn p n : forall l top d, (forall i, In i l -> i <= n) -> find_top (firstn n p) l top d = find_top p l top d.
Proof.
  induction l as [|i l IH]; intros top d H; cbn [find_top]; [auto|]. rewrite rd_firstn by (apply H; left; auto).
  destruct (rd p i) as [x|]; cbn [bind]; [|auto]. destruct (rlt (Rabs (x - 50)) d); apply IH; intros; apply H; right; auto.
Qed.
Lemma core_firstn sst psl p tc rg num ofl ck : 1 <= num <= List.length p ->
  calculate_pi_core sst psl (firstn num p) (firstn num tc) (firstn num rg) num ofl ck = calculate_pi_core sst psl p tc rg num ofl ck.
Proof.
  intros H. unfold calculate_pi_core. destruct (ckcd_log ck) as [lnck vck]. destruct (magnus sst) as [es|]; cbn [bind]; [|auto].
  replace (mapM (fun i => let* x := rd (firstn num rg) i in Some (Rmax (x * (1 / 1000)) 0)%R) (seq 1 num)) with (mapM (fun i => let* x := rd rg i in Some (Rmax (x * (1 / 1000)) 0)%R) (seq 1 num)).
  2:{ apply mapM_ext_in. intros i I. apply in_seq in I. rewrite rd_firstn by lia. auto. }
  destruct (mapM _ _) as [r|]; cbn [bind]; [|auto].
  replace (mapM (fun i => let* x := rd (firstn num tc) i in Some (x + KELVIN)%R) (seq 1 num)) with (mapM (fun i => let* x := rd tc i in Some (x + KELVIN)%R) (seq 1 num)).
  2:{ apply mapM_ext_in. intros i I. apply in_seq in I. rewrite rd_firstn by lia. auto. }
  destruct (mapM _ _) as [T|]; cbn [bind]; [|auto].
  assert (EE : effective_points (firstn num p) num = effective_points p num).
  { unfold effective_points. rewrite rd_firstn by lia. destruct (rd p 1) as [p1|]; cbn [bind]; [|auto].
    rewrite find_top_firstn; [auto|]. intros i I. apply in_seq in I. lia. }
  rewrite EE. destruct (effective_points p num) as [n|] eqn:En; cbn [bind]; [|auto].
  assert (N : 1 <= num) by lia. destruct (effective_some _ _ _ N En) as (top & (Bt & _) & ->).
  assert (PE : prepare_cape_environment T r (firstn num p) (Nat.max 1 (top - 1)) = prepare_cape_environment T r p (Nat.max 1 (top - 1))).
  { apply prepare_ext. intros k K. repeat split; auto. apply rd_firstn. lia. }
  rewrite PE. destruct (prepare_cape_environment T r p _) as [E|]; cbn [bind]; [|auto].
  destruct (rd T 1); cbn [bind]; [|auto]. destruct (rd r 1); cbn [bind]; [|auto]. rewrite rd_firstn by lia. auto.
Qed.
Lemma surface_firstn P n : surface_first P -> upside_down (map nan_undef (firstn n P)) = false.
Proof.
  intros [C D]. rewrite <- (surface_not_upside (firstn n P) 0); [reflexivity|]. split.
  - intros x I. apply C. rewrite <- (firstn_skipn n P). apply in_or_app. auto.
  - assert (F : forall k z, nth_error (firstn n P) k = Some z -> nth_error P k = Some z).
    { intros k z E. rewrite <- (firstn_skipn n P). rewrite nth_error_app1; [auto|]. apply nth_error_Some. congruence. }
    intros k k' a b L E1 E2. apply (D k k' a b L); auto.
Qed.
(** [actual_levels] = n is the call on the lowest n levels. *)
Theorem C83_actual_levels : forall sched junk flag0 diag s p P Tc rc n, surface_first P ->
  List.length Tc = List.length P -> List.length rc = List.length P -> 1 <= n <= List.length P ->
  pi_call sched junk flag0 diag (scalar (Some s)) (scalar (Some p)) P (vec Tc) (vec rc) (Some (Z.of_nat n)) =
  pi_call sched junk flag0 diag (scalar (Some s)) (scalar (Some p)) (firstn n P) (vec (firstn n Tc)) (vec (firstn n rc)) None.
Proof.
  intros sched junk flag0 diag s p P Tc rc n SF LT Lr N.
  assert (U0 := surface_not_upside P 0 SF). cbn [skipn] in U0. assert (U1 := surface_firstn P n SF).
  assert (LP : List.length (firstn n P) = n) by (rewrite firstn_length; lia).
  assert (LT' : List.length (firstn n Tc) = n) by (rewrite firstn_length; lia).
  assert (Lr' : List.length (firstn n rc) = n) by (rewrite firstn_length; lia).
  unfold pi_call, prepare_inputs, detect_kind, py_float, prepare_profile, py_len, ensure_pressure_ordering, vec, cleaned, dimensions_ok. cbn [sh dat List.length scalar].
  rewrite U0, U1. cbn [sh dat]. rewrite !map_length, LP, LT', Lr', LT, Lr, !Nat.eqb_refl, !shape_eqb_refl. cbn [andb negb].
  destruct (Z.ltb_spec (Z.of_nat n) 1); [lia|]. destruct (Z.ltb_spec (Z.of_nat (List.length P)) (Z.of_nat n)); [lia|]. rewrite Z.ltb_irrefl. cbn [orb].
  rewrite Nat2Z.id. cbn [bind].
  assert (CF : forall ofl ck, calculate_pi_core (to_C s) (to_mb p) (map nan_undef (firstn n P)) (map to_C (map nan_undef (firstn n Tc))) (map to_gkg (map nan_undef (firstn n rc))) n ofl ck =
    calculate_pi_core (to_C s) (to_mb p) (map nan_undef P) (map to_C (map nan_undef Tc)) (map to_gkg (map nan_undef rc)) n ofl ck).
  { intros ofl ck. rewrite <- !firstn_map. apply core_firstn. rewrite map_length. lia. }
  destruct diag as [[src ck]|]; unfold calc; cbn [q_kind q_T sh q_sst q_psl q_P q_r q_actual dat scalar].
  - destruct (outflow_flag src) as [o|]; [|auto]. unfold calculate_pi_profile_diagnostics. rewrite !map_length, LP.
    replace (Nat.min (Nat.max n 1) n) with n by lia. replace (Nat.min (Nat.max n 1) (List.length P)) with n by lia. rewrite CF. auto.
  - unfold calculate_pi_single_profile. rewrite CF. auto.
Qed.
Example C83_actual_example : surface_first lP /\ List.length lP = 4.
Proof. split; [apply l_surface|reflexivity]. Qed.

(** ** What goes wrong *)
Definition sch (N : nat) : list nat := seq 0 N.
Definition jnk (N : nat) : list (list R) := repeat [] N.
Notation pcall := (pi_call sch jnk 1%Z).
Lemma sch_perm N : Permutation (sch N) (seq 0 N). Proof. apply Permutation_refl. Qed.
Lemma jnk_len N : List.length (jnk N) = N. Proof. apply repeat_length. Qed.

Lemma nan_Some (l : list R) : map nan_undef (map Some l) = l.
Proof. rewrite map_map. apply map_id. Qed.
Lemma wit_down : upside_down wit_p = false.
Proof. unfold upside_down, wit_p. cbn. destruct (rlt_spec 1000 50); [lra|auto]. Qed.
Lemma good_profile diag ofl ck : settings diag ofl ck -> exists o x,
  pcall diag (scalar (Some 290%R)) (scalar (Some 97000%R)) wP (vec wT) (vec wr) None = Some (Ret x) /\
  r_flag x = 1%Z /\ elt (r_val x) [] = Some (map post (fields (is_diag diag) o)) /\ (960 <= o_pmin o <= 970)%R /\ (0 < o_vmax o)%R.
Proof.
  intros HS. destruct (good_core ofl ck) as (o & A & F & Pm & V). exists o.
  destruct (profile_call sch jnk 1%Z diag ofl ck 290 97000 wP wT wr 3 o HS) as (x & Hx & S1 & S2 & S3); auto.
  { unfold wP, wT, wr. rewrite !nan_Some. unfold ord. rewrite wit_down. unfold calculate_pi_profile_diagnostics. rewrite warm. exact A. }
  exists x. split; [exact Hx|]. split; [rewrite S3; auto|]. split; [|auto]. unfold elt. rewrite S1, S2. auto.
Qed.

Lemma eff4 : effective_points (1010 :: wit_p)%R 4 = Some 3.
Proof.
  destruct (effective_ok (1010 :: wit_p)%R 4 ltac:(cbn; lia)) as [n E]. rewrite E. f_equal.
  assert (N4 : 1 <= 4) by lia. destruct (effective_some _ _ _ N4 E) as (top & (B & C & D) & ->).
  assert (Q : top = 4); [|subst; auto]. assert (Z : top = 1 \/ top = 2 \/ top = 3 \/ top = 4) by lia.
  specialize (D 4 ltac:(lia)). destruct Z as [-> |[-> |[-> | ->]]]; auto; exfalso; unfold lev, wit_p in D; cbn in D;
    rewrite (Rabs_right (50 - 50)) in D by lra; rewrite Rabs_right in D by lra; lra.
Qed.
(** A profile whose lowest level is missing fails: pressure 970 mb (the
    sea-level pressure), wind 0, flag 0, although [C83_missing_3d] gives the
    same column as a 1 x 1 grid the value of the levels above, a positive wind. *)
Theorem C83_profile_missing_refuted :
  (exists x, pcall None (scalar (Some 290%R)) (scalar (Some 97000%R)) lP (vec lT) (vec lr) None = Some (Ret x) /\
     r_flag x = 0%Z /\ elt (r_val x) [] = Some [Some 970%R; Some 0%R]) /\
  (forall x, pcall None (mknd [1; 1] (cons (Some 290%R) nil)) (mknd [1; 1] (cons (Some 97000%R) nil)) lP (mknd [4; 1; 1] lT) (mknd [4; 1; 1] lr) None = Some (Ret x) ->
     exists p v, elt (r_val x) [0; 0] = Some [Some p; Some v] /\ (960 <= p <= 970)%R /\ (0 < v)%R).
Proof.
  split.
  - set (tc := map to_C (UNDEF :: colT)). set (rg := map to_gkg (UNDEF :: colr)).
    assert (EX : exists o, calculate_pi_core (to_C 290) (to_mb 97000) (1010 :: wit_p)%R tc rg 4 0 (9 / 10) = Some o /\ o_flag o = 0%Z /\ o_pmin o = to_mb 97000 /\ o_vmax o = 0%R).
    { assert (K : forall k, 1 <= k <= 3 -> (lev (kelvin tc 4) k <> 2965 / 100 /\ 0 <= lev (ratio rg 4) k /\ 0 < lev (1010 :: wit_p) k)%R).
      { intros k K. assert (D : k = 1 \/ k = 2 \/ k = 3) by lia. unfold lev, ratio, kelvin, tc, rg, to_gkg, to_C, colT, colr, wit_p, UNDEF, KELVIN.
        destruct D as [-> |[-> | ->]]; cbn; (split; [lra|split; [apply Rmax_r|lra]]). }
      destruct (prepare_defined (kelvin tc 4) (ratio rg 4) (1010 :: wit_p)%R 3) as [E HE]; try (cbn; lia); auto.
      destruct (dry_surface (to_C 290) (to_mb 97000) (1010 :: wit_p)%R tc rg 4 0 (9 / 10) 3 E) as (o & A); auto; try (cbn; lia); eauto.
      - unfold to_C, KELVIN. lra.
      - apply eff4.
      - unfold lev, ratio, rg, to_gkg, UNDEF. cbn. rewrite Rmax_right; lra. }
    destruct EX as (o & A & F & Pm & V).
    destruct (profile_call sch jnk 1%Z None 0%Z (9 / 10)%R 290 97000 lP lT lr 4 o) as (x & Hx & S1 & S2 & S3); auto.
    { split; auto. }
    { cbn [map nan_undef lP lT lr]. unfold wP, wT, wr. rewrite !nan_Some. unfold ord.
      replace (upside_down (1010 :: wit_p)%R) with false. 2:{ unfold upside_down, wit_p. cbn. destruct (rlt_spec 1010 50); [lra|auto]. }
      unfold calculate_pi_profile_diagnostics. rewrite warm. exact A. }
    exists x. split; [exact Hx|]. split; [rewrite S3; auto|]. unfold elt. rewrite S1, S2. cbn [offset nth_error is_diag fields map].
    rewrite Pm, V, !post_keep by (unfold to_mb; lra). do 3 f_equal. unfold to_mb. f_equal. lra.
  - intros x H.
    destruct (C83_missing_3d sch jnk 1%Z jnk_len sch_perm None _ _ lP (mknd [4; 1; 1] lT) (mknd [4; 1; 1] lr) None x 4 1 1 eq_refl ltac:(lia) (eq_refl 4) (eq_refl 4) l_surface ltac:(discriminate) H 0 0 lT lr ltac:(lia) ltac:(lia)) as [_ HM]; try (split; [reflexivity|]; intros k K; do 4 (destruct k as [|k]; [reflexivity|]); lia).
    destruct (HM 290%R 97000%R 1) as (y & Ey & EE); try reflexivity; try lia.
    { unfold UNDEF. lra. }
    { intros k K. assert (k = 0) by lia. subst. left. exists None. split; [reflexivity|left; auto]. }
    { assert (U : forall c k z, nth_error (None :: map Some c) k = Some z -> 1 <= k -> (forall v, In v c -> (0 <= v)%R) -> ~ absent z).
      { intros c k z E K Pos. destruct k as [|k]; [lia|]. cbn in E. apply nth_error_In, in_map_iff in E. destruct E as (v & <- & I).
        specialize (Pos v I). intros [Z|Z]; [discriminate|]. injection Z as ->. unfold UNDEF in Pos. lra. }
      intros k K [(z & E & Z)|(z & E & Z)]; revert Z; eapply U; try exact E; try lia; intros v I; unfold colT, colr in I; cbn in I; repeat destruct I as [<-|I]; try contradiction; lra. }
    destruct (good_profile None 0%Z (9 / 10)%R ltac:(split; auto)) as (o & y' & Ey' & _ & Eo & Pm & V).
    cbn [skipn lP lT lr] in Ey. rewrite Ey in Ey'. injection Ey' as <-. exists (o_pmin o), (o_vmax o). rewrite EE, Eo. cbn [is_diag fields map].
    rewrite !post_keep by lra. auto.
Qed.

(** A NaN in the first entry of the pressures turns a surface-first column
    upside down: the compiled routine receives the levels from the top. *)
Theorem C83_pressure_nan_refuted : exists P T, surface_first (skipn 1 P) /\ nth_error P 0 = Some None /\
  exists P' T' r', ensure_pressure_ordering (map nan_undef P) (cleaned (vec T)) (cleaned (vec T)) = Ret (P', T', r') /\
    P' = [50; 980; 1000; UNDEF]%R /\ dat T' = rev (map nan_undef T).
Proof.
  exists (None :: wP), (Some 279%R :: wT). split; [|split; [reflexivity|]].
  - cbn [skipn]. split.
    + intros x I. apply l_surface. right. auto.
    + intros k k' a b L A B. apply (proj2 l_surface (S k) (S k') a b); auto. lia.
  - unfold ensure_pressure_ordering. cbn [map nan_undef wP wit_p].
    assert (U : upside_down (UNDEF :: 1000 :: 980 :: 50 :: nil)%R = true).
    { unfold upside_down. cbn. destruct (rlt_spec UNDEF 50) as [|Q]; auto. exfalso. apply Q. unfold UNDEF. lra. }
    rewrite U. cbn. do 3 eexists. split; [reflexivity|]. split; reflexivity.
Qed.

(** ** Examples *)
(** the call of [C83_profile_missing_refuted] on a complete 1 x 1 grid: all the
    theorems about complete grids apply *)
Example C83_grid_example : exists x p v,
  pcall None (mknd [1; 1] (cons (Some 290%R) nil)) (mknd [1; 1] (cons (Some 97000%R) nil)) wP (mknd [3; 1; 1] wT) (mknd [3; 1; 1] wr) None = Some (Ret x) /\
  elt (r_val x) [0; 0] = Some [Some p; Some v] /\ (960 <= p <= 970)%R /\ (0 < v)%R.
Proof.
  destruct (good_core 0 (9 / 10)) as (o & A & F & Pm & V). do 3 eexists. split.
  - unfold pi_call, prepare_inputs, detect_kind. cbn [sh List.length bind]. unfold prepare_gridded, ensure_pressure_ordering.
    unfold wP. rewrite nan_Some, wit_down. unfold dimensions_ok, cleaned. cbn [sh dat List.length wit_p Nat.eqb andb]. rewrite !shape_eqb_refl. cbn [andb].
    unfold calc. cbn [q_kind q_T sh q_missing q_sst q_psl q_P q_r dat].
    assert (M : existsb has_missing [cons (Some 290%R) nil; cons (Some 97000%R) nil; map Some wit_p; wT; wr] = false).
    { assert (MM : forall c, (forall v, In v c -> (0 <= v)%R) -> has_missing (map Some c) = false).
      { intros c Pos. unfold has_missing. apply not_true_is_false. intros E. apply existsb_exists in E. destruct E as (z & I & E). apply in_map_iff in I. destruct I as (v & <- & I).
        specialize (Pos v I). cbn in E. destruct (req_spec v UNDEF); [unfold UNDEF in *; lra|discriminate]. }
      change (cons (Some 290%R) nil) with (map Some (cons 290%R nil)). change (cons (Some 97000%R) nil) with (map Some (cons 97000%R nil)). unfold wT, wr.
      cbn [existsb]. rewrite !MM; auto; intros v I; unfold colT, colr, wit_p in I; cbn in I; repeat destruct I as [<-|I]; try contradiction; lra. }
    change [1000%R; 980%R; 50%R] with wit_p. rewrite M. unfold run_grid. unfold wT, wr. rewrite !nan_Some.
    unfold calculate_pi_gridded_data, grid_loop, point. cbn [order3 seq flat_map map app plus Nat.mul foldM g_sst g_psl g_T g_r g_P rd nth_error bind nan_undef].
    assert (C0 : column3 3 colT 0 = Some colT) by reflexivity. assert (C3 : column3 3 colr 0 = Some colr) by reflexivity.
    rewrite C0, C3. cbn [bind]. unfold plain_cell. rewrite warm, A. cbn. reflexivity.
  - unfold elt. cbn [r_val sh dat offset nth_error plus Nat.mul]. split; [cbn; rewrite !post_keep by lra; reflexivity|]. auto.
Qed.
(** the profile call exists and succeeds, from the surface up and reversed *)
Example C83_profile_example : exists x y,
  pcall (Some ("cape_star"%string, (9 / 10)%R)) (scalar (Some 290%R)) (scalar (Some 97000%R)) wP (vec wT) (vec wr) None = Some (Ret x) /\
  pcall (Some ("cape_star"%string, (9 / 10)%R)) (scalar (Some 290%R)) (scalar (Some 97000%R)) (rev wP) (vec (rev wT)) (vec (rev wr)) None = Some (Ret y) /\
  r_flag x = 1%Z /\ r_flag y = 1%Z.
Proof.
  destruct (good_core 0 (9 / 10)) as (o & A & F & _ & _).
  destruct (good_profile (Some ("cape_star"%string, (9 / 10)%R)) 0%Z (9 / 10)%R ltac:(split; auto)) as (o' & x & Ex & Fx & _).
  destruct (profile_call sch jnk 1%Z (Some ("cape_star"%string, (9 / 10)%R)) 0%Z (9 / 10)%R 290 97000 (rev wP) (rev wT) (rev wr) 3 o) as (y & Ey & _ & _ & Fy); auto.
  { split; auto. }
  { unfold wP, wT, wr. rewrite <- !map_rev, !nan_Some. unfold ord.
    replace (upside_down (rev wit_p)) with true. 2:{ unfold upside_down, wit_p. cbn. destruct (rlt_spec 50 1000); [auto|lra]. }
    rewrite !rev_involutive. unfold calculate_pi_profile_diagnostics. rewrite warm. exact A. }
  exists x, y. repeat split; auto. rewrite Fy. auto.
Qed.
Example C83_log_example : exists o, calculate_pi_core (to_C 290) (to_mb 97000) wit_p (map to_C colT) (map to_gkg colr) 3 0 (9 / 10) = Some o /\
  o_flag o = 1%Z /\ (0 < o_vmax o)%R.
Proof. destruct (good_core 0 (9 / 10)) as (o & A & F & _ & V). eauto. Qed.

(** The diagnostic call takes the outflow of the saturated parcel for
    "cape_star" and that of the parcel at the radius of maximum wind for
    "cape_env" (the compiled flags 0 and 1, see C81_success). *)
Theorem C83_outflow : forall s p (P T r : list R) nl ck o, List.length P = nl -> List.length T = nl -> List.length r = nl -> 1 <= nl ->
  upside_down P = false -> (5 < to_C s)%R ->
  let call src := pcall (Some (src, ck)) (scalar (Some s)) (scalar (Some p)) (map Some P) (vec (map Some T)) (vec (map Some r)) None in
  let core ofl := calculate_pi_core (to_C s) (to_mb p) P (map to_C T) (map to_gkg r) nl ofl ck in
  (core 0%Z = Some o -> exists x, call "cape_star"%string = Some (Ret x) /\ elt (r_val x) [] = Some (map post (fields true o)) /\ r_flag x = o_flag o) /\
  (core 1%Z = Some o -> exists x, call "cape_env"%string = Some (Ret x) /\ elt (r_val x) [] = Some (map post (fields true o)) /\ r_flag x = o_flag o).
Proof.
  intros s p P T r nl ck o LP LT Lr N U W call core.
  assert (G : forall src ofl, outflow_flag src = Ret ofl -> core ofl = Some o ->
    exists x, call src = Some (Ret x) /\ elt (r_val x) [] = Some (map post (fields true o)) /\ r_flag x = o_flag o).
  { intros src ofl F H. unfold core in H. subst call. cbv beta.
    destruct (profile_call sch jnk 1%Z (Some (src, ck)) ofl ck s p (map Some P) (map Some T) (map Some r) nl o (conj F eq_refl)) as (x & Hx & S1 & S2 & S3); rewrite ?map_length; auto.
    { rewrite !nan_Some. unfold ord. rewrite U. unfold calculate_pi_profile_diagnostics. replace (Nat.min (Nat.max nl 1) nl) with nl by lia.
      destruct (rle_spec (to_C s) 5); [lra|]. exact H. }
    exists x. split; [exact Hx|]. split; [|auto]. unfold elt. rewrite S1, S2. auto. }
  split; apply G; reflexivity.
Qed.
(** the two settings give different outflow temperatures on one column *)
Example C83_outflow_example : exists x y,
  pcall (Some ("cape_star"%string, (9 / 10)%R)) (scalar (Some 290%R)) (scalar (Some 97000%R)) wP (vec wT) (vec wr) None = Some (Ret x) /\
  pcall (Some ("cape_env"%string, (9 / 10)%R)) (scalar (Some 290%R)) (scalar (Some 97000%R)) wP (vec wT) (vec wr) None = Some (Ret y) /\
  (exists l, elt (r_val x) [] = Some l /\ nth 2 l None = Some 282%R) /\ (exists l, elt (r_val y) [] = Some l /\ nth 2 l None = Some 280%R).
Proof.
  assert (W : (5 < to_C 290)%R) by (unfold to_C; lra).
  assert (K : forall ofl, exists o, calculate_pi_core (to_C 290) (to_mb 97000) wit_p (map to_C colT) (map to_gkg colr) 3 ofl (9 / 10) = Some o /\
    o_To o = (if (ofl =? 1)%Z then 280 else 282)%R).
  { intros ofl. destruct to_C_lev, to_gkg_lev. destruct (wit_core (to_C 290) (to_mb 97000) wit_p (map to_C colT) (map to_gkg colr) 3 ofl (9 / 10)) as (o & A & B & C & D & F); auto; try (cbn; lia);
      [unfold to_C, KELVIN; lra|unfold to_mb; lra|apply eff_wit|exists o; split; [exact A|exact C]]. }
  destruct (K 0%Z) as (o0 & A0 & T0), (K 1%Z) as (o1 & A1 & T1).
  destruct (C83_outflow 290 97000 wit_p colT colr 3 (9 / 10) o0) as [H0 _]; auto; [apply wit_down|].
  destruct (C83_outflow 290 97000 wit_p colT colr 3 (9 / 10) o1) as [_ H1]; auto; [apply wit_down|].
  destruct (H0 A0) as (x & Hx & Ex & _), (H1 A1) as (y & Hy & Ey & _). exists x, y. split; [exact Hx|]. split; [exact Hy|].
  split; eexists; (split; [eassumption|]); cbn [fields map nth]; rewrite ?T0, ?T1; cbn [Z.eqb Pos.eqb]; apply post_keep; lra.
Qed.

Print Assumptions C83_outputs.
Print Assumptions C83_reversed.
Print Assumptions C83_shapes.
Print Assumptions C83_grid_3d.
Print Assumptions C83_grid_4d.
Print Assumptions C83_missing_3d.
Print Assumptions C83_missing_4d.
Print Assumptions C83_log_decompose.
Print Assumptions C83_profile_missing_refuted.
Print Assumptions C83_pressure_nan_refuted.
Print Assumptions C83_units.
Print Assumptions C83_actual_levels.
Print Assumptions C83_outflow.
