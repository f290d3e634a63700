(** C84: the regression of the emergent-constraint functions is the
    least-squares line of the complete pairs of models. *)
From Coq Require Import Reals List Arith Lia Bool Lra Permutation.
From Verif Require Import Base Buffer VH_Model VH_Proofs EC_Model EC_Spec EC_Proofs.
Import ListNotations.
Local Open Scope R_scope.

(** three models, one of them incomplete, and two on a common abscissa *)
Definition xs_w : list (option R) := [Some 0; None; Some 1; Some 2; Some 3].
Definition ys_w : list (option R) := [Some 0; Some 7; Some 2; None; Some 1].
Definition ps_w : list (R * R) := [(0, 0); (1, 2); (3, 1)].
Example kept_w : kept xs_w ys_w ps_w.
Proof.
  unfold xs_w, ys_w, ps_w. apply K_both. apply K_drop; [auto|]. apply K_both. apply K_drop; [auto|]. apply K_both. constructor.
Qed.
Example fit_w : fit_linear xs_w ys_w = Some (fit_of ps_w).
Proof. apply fit_kept; [apply kept_w|discriminate]. Qed.

Theorem C84_defined : forall xs ys,
  (fit_linear xs ys = None <-> (length xs <> length ys \/ kept xs ys [])) /\
  (forall ps, kept xs ys ps -> ps <> [] -> exists f, fit_linear xs ys = Some f /\ f_n f = length ps).
Proof.
  intros xs ys. split; [split|].
  - intros H. destruct (Nat.eq_dec (length xs) (length ys)) as [L|L]; [right|left; auto].
    destruct (kept_exists xs ys L) as [ps K]. destruct ps as [|p ps]; [auto|].
    rewrite (fit_kept _ _ _ K) in H; discriminate.
  - intros [L|K]; unfold fit_linear.
    + destruct (Nat.eqb_spec (length xs) (length ys)); [contradiction|auto].
    + rewrite (kept_length _ _ _ K), Nat.eqb_refl, (kept_paired _ _ _ K). auto.
  - intros ps K N. exists (fit_of ps). split; [apply fit_kept; auto|reflexivity].
Qed.
Example C84_defined_ex : fit_linear [Some 1; None] [None; Some 2] = None /\ fit_linear [Some 1] [] = None.
Proof.
  split; apply C84_defined; [right; repeat (apply K_drop; [auto|]); constructor|left; cbn; lia].
Qed.
Print Assumptions C84_defined.

Lemma kept_fun xs ys ps ps' : kept xs ys ps -> kept xs ys ps' -> ps = ps'.
Proof. intros A B. rewrite <- (kept_paired _ _ _ A), <- (kept_paired _ _ _ B). auto. Qed.
Lemma fit_kept_inv xs ys ps f : fit_linear xs ys = Some f -> kept xs ys ps -> ps <> [] /\ f = fit_of ps.
Proof. intros H K. apply fit_iff in H. destruct H as (ps' & K' & N & E). rewrite (kept_fun _ _ _ _ K K'). auto. Qed.

(** n - 2 degrees of freedom from three pairs on, n below *)
Definition freedom (n : nat) : R := if (n <=? 2)%nat then INR n else INR n - 2.
Lemma freedom_eq n : freedom n = INR (if (2 <? n)%nat then n - 2 else n).
Proof. unfold freedom. destruct (Nat.leb_spec n 2), (Nat.ltb_spec 2 n); try lia; auto. rewrite minus_INR by lia. cbn. lra. Qed.

Theorem C84_least_squares : forall xs ys ps f, fit_linear xs ys = Some f -> kept xs ys ps ->
  f_xm f * INR (length ps) = total (map fst ps) /\ f_ssx f = spread (f_xm f) ps /\
  (forall a b, misfit (f_icpt f) (f_slope f) ps <= misfit a b ps) /\
  ((exists p q, In p ps /\ In q ps /\ fst p <> fst q) ->
     forall a b, misfit a b ps <= misfit (f_icpt f) (f_slope f) ps -> a = f_icpt f /\ b = f_slope f) /\
  ((forall p q, In p ps -> In q ps -> fst p = fst q) ->
     f_slope f = 0 /\ f_icpt f * INR (length ps) = total (map snd ps)) /\
  0 <= f_err f /\ f_err f ^ 2 * freedom (length ps) = misfit (f_icpt f) (f_slope f) ps /\
  (f_err f = 0 <-> exists a b, forall p, In p ps -> snd p = a + b * fst p).
Proof.
  intros xs ys ps f H K. destruct (fit_kept_inv _ _ _ _ H K) as [N ->]. clear H.
  pose proof (n_pos ps N) as P. pose proof (ssx_nonneg ps) as SN. pose proof (misfit_split ps N) as S.
  assert (X : forall g : R * R -> R, mean (map g ps) * INR (length ps) = total (map g ps)).
  { intros g. unfold mean. rewrite map_length. field. lra. }
  split; [apply X|]. split; [reflexivity|]. split; [|split; [|split; [|split; [|split]]]].
  - intros a b. rewrite (S a b).
    assert (0 <= INR (length ps) * (f_icpt (fit_of ps) - a + (f_slope (fit_of ps) - b) * mean (map fst ps)) ^ 2) by (apply Rmult_le_pos; [lra|apply pow2_ge_0]).
    assert (0 <= (f_slope (fit_of ps) - b) ^ 2 * spread (mean (map fst ps)) ps) by (apply Rmult_le_pos; [apply pow2_ge_0|auto]). lra.
  - intros (p & q & Ip & Iq & D) a b M. rewrite (S a b) in M.
    assert (SP : 0 < spread (mean (map fst ps)) ps).
    { destruct SN as [SN|Z]; [auto|]. exfalso. apply D. rewrite (ssx_zero ps (eq_sym Z) p Ip), (ssx_zero ps (eq_sym Z) q Iq). auto. }
    set (c := f_icpt (fit_of ps) - a + (f_slope (fit_of ps) - b) * mean (map fst ps)) in *. set (d := f_slope (fit_of ps) - b) in *.
    assert (A : 0 <= INR (length ps) * c ^ 2) by (apply Rmult_le_pos; [lra|apply pow2_ge_0]).
    assert (B : 0 <= d ^ 2 * spread (mean (map fst ps)) ps) by (apply Rmult_le_pos; [apply pow2_ge_0|auto]).
    assert (Zc : c ^ 2 = 0) by (pose proof (pow2_ge_0 c); nra).
    assert (Zd : d ^ 2 = 0) by (pose proof (pow2_ge_0 d); nra).
    rewrite <- Rsqr_pow2 in Zc, Zd. apply Rsqr_0_uniq in Zc, Zd. unfold c in Zc. rewrite Zd in Zc. unfold d in Zd. split; lra.
  - intros E. assert (Z : spread (mean (map fst ps)) ps = 0).
    { unfold spread. rewrite (total_ext _ (fun _ => 0)); [rewrite total_const; lra|]. intros p I.
      assert (M : mean (map fst ps) = fst p).
      { unfold mean. rewrite (total_ext _ (fun _ => fst p)) by (intros; apply E; auto). rewrite total_const, map_length. field. lra. }
      rewrite M. ring. }
    assert (B : f_slope (fit_of ps) = 0). { cbn [fit_of f_slope]. destruct (Rlt_dec 0 _) as [L|L]; [lra|auto]. }
    split; [auto|]. change (f_icpt (fit_of ps)) with (mean (map snd ps) - f_slope (fit_of ps) * mean (map fst ps)). rewrite B, Rmult_0_l, Rminus_0_r. apply X.
  - apply err_nonneg.
  - rewrite freedom_eq. apply err_sq; auto.
  - apply err_zero; auto.
Qed.
Print Assumptions C84_least_squares.
(** the line through the three complete pairs is 5/7 + 3/14 x *)
Example C84_least_squares_ex :
  f_slope (fit_of ps_w) = 3 / 14 /\ f_icpt (fit_of ps_w) = 5 / 7 /\ f_ssx (fit_of ps_w) = 14 / 3 /\ f_err (fit_of ps_w) = sqrt (25 / 14).
Proof.
  assert (M : mean (map fst ps_w) = 4 / 3) by (unfold mean, ps_w; cbn; field).
  assert (M' : mean (map snd ps_w) = 1) by (unfold mean, ps_w; cbn; field).
  assert (S : spread (4 / 3) ps_w = 14 / 3) by (unfold spread, ps_w; cbn; field).
  assert (B : f_slope (fit_of ps_w) = 3 / 14).
  { cbn [fit_of f_slope]. rewrite M, M', S. destruct (Rlt_dec _ _) as [L|L]; [|lra]. unfold ps_w. cbn. field. }
  assert (A : f_icpt (fit_of ps_w) = 5 / 7).
  { change (f_icpt (fit_of ps_w)) with (mean (map snd ps_w) - f_slope (fit_of ps_w) * mean (map fst ps_w)). rewrite B, M, M'. field. }
  split; [auto|]. split; [auto|]. split; [cbn [fit_of f_ssx]; rewrite M; auto|].
  change (f_err (fit_of ps_w)) with (sqrt (misfit (f_icpt (fit_of ps_w)) (f_slope (fit_of ps_w)) ps_w / INR 1)).
  rewrite A, B. f_equal. unfold misfit, ps_w. cbn. field.
Qed.

(** The order in which the models are listed does not matter. *)
Definition both (p : option R * option R) : list (R * R) := match p with (Some x, Some y) => [(x, y)]%list | _ => [] end.
Lemma paired_both : forall xs ys, length xs = length ys -> paired xs ys = flat_map both (combine xs ys).
Proof.
  induction xs as [|[x|] xs IH]; destruct ys as [|[y|] ys]; intros L; cbn in *; try lia; auto; rewrite IH by lia; auto.
Qed.
Lemma fit_of_perm ps ps' : Permutation ps ps' -> fit_of ps = fit_of ps'.
Proof.
  intros P. assert (L := Permutation_length P). unfold fit_of. cbv zeta.
  assert (Mx : mean (map fst ps) = mean (map fst ps')) by (unfold mean; rewrite !map_length, L, (total_perm fst _ _ P); auto).
  assert (My : mean (map snd ps) = mean (map snd ps')) by (unfold mean; rewrite !map_length, L, (total_perm snd _ _ P); auto).
  rewrite <- Mx, <- My, <- L. unfold spread, misfit. rewrite (total_perm (fun p => (fst p - mean (map fst ps)) ^ 2) _ _ P), (total_perm (fun p => (fst p - mean (map fst ps)) * (snd p - mean (map snd ps))) _ _ P).
  match goal with |- mkfit _ _ ?s _ _ _ = _ => set (sl := s) end.
  rewrite (total_perm (fun p => (snd p - (mean (map snd ps) - sl * mean (map fst ps) + sl * fst p)) ^ 2) _ _ P). auto.
Qed.
Lemma flat_map_perm {A B} (g : A -> list B) l l' : Permutation l l' -> Permutation (flat_map g l) (flat_map g l').
Proof. induction 1; cbn; [auto|apply Permutation_app_head; auto| |eapply Permutation_trans; eauto]. rewrite !app_assoc. apply Permutation_app_tail, Permutation_app_comm. Qed.
Theorem C84_order : forall xs ys xs' ys', length xs = length ys -> length xs' = length ys' ->
  Permutation (combine xs ys) (combine xs' ys') -> fit_linear xs ys = fit_linear xs' ys'.
Proof.
  intros xs ys xs' ys' L L' P.
  destruct (kept_exists xs ys L) as [ps K], (kept_exists xs' ys' L') as [ps' K'].
  assert (Q : Permutation ps ps').
  { rewrite <- (kept_paired _ _ _ K), <- (kept_paired _ _ _ K'), !paired_both by auto. apply flat_map_perm; auto. }
  destruct ps as [|p ps].
  - apply Permutation_nil in Q. subst ps'. transitivity (@None fit); [|symmetry]; apply C84_defined; auto.
  - rewrite (fit_kept _ _ _ K) by discriminate. rewrite (fit_kept _ _ ps'); [f_equal; apply fit_of_perm; auto|auto|].
    intros ->. apply Permutation_sym, Permutation_nil in Q. discriminate.
Qed.
Example C84_order_ex : fit_linear (rev xs_w) (rev ys_w) = Some (fit_of ps_w).
Proof.
  rewrite <- fit_w. apply C84_order; auto. unfold xs_w, ys_w. cbn [combine rev app]. apply Permutation_sym, (Permutation_rev [_; _; _; _; _]).
Qed.
Print Assumptions C84_order.

(** Changing the units of either variable: the line and the error follow. *)
Definition aff (s d : R) (v : option R) : option R := option_map (fun x => s * x + d) v.
Lemma kept_aff s d s' d' : forall xs ys ps, kept xs ys ps ->
  kept (map (aff s d) xs) (map (aff s' d') ys) (map (fun p => (s * fst p + d, s' * snd p + d')) ps).
Proof. induction 1; cbn; constructor; auto. destruct H as [-> | ->]; auto. Qed.
Lemma total_aff {A} (g : A -> R) s d l : total (map (fun x => s * g x + d) l) = s * total (map g l) + INR (length l) * d.
Proof. rewrite (total_plus (fun x => s * g x) (fun _ => d)), total_scal, total_const. auto. Qed.
Lemma fit_of_aff s d s' d' ps : ps <> [] -> s <> 0 ->
  let qs := map (fun p => (s * fst p + d, s' * snd p + d')) ps in
  f_n (fit_of qs) = f_n (fit_of ps) /\ f_xm (fit_of qs) = s * f_xm (fit_of ps) + d /\ f_ssx (fit_of qs) = s ^ 2 * f_ssx (fit_of ps) /\
  f_slope (fit_of qs) * s = s' * f_slope (fit_of ps) /\
  f_icpt (fit_of qs) + f_slope (fit_of qs) * d = s' * f_icpt (fit_of ps) + d' /\
  f_err (fit_of qs) = Rabs s' * f_err (fit_of ps).
Proof.
  intros N S qs. pose proof (n_pos ps N) as P.
  assert (Lq : length qs = length ps) by apply map_length.
  assert (Mx : mean (map fst qs) = s * mean (map fst ps) + d).
  { unfold mean, qs. rewrite map_map, !map_length. cbn [fst]. rewrite (total_aff fst). field. lra. }
  assert (My : mean (map snd qs) = s' * mean (map snd ps) + d').
  { unfold mean, qs. rewrite map_map, !map_length. cbn [snd]. rewrite (total_aff snd). field. lra. }
  assert (Sx : spread (mean (map fst qs)) qs = s ^ 2 * spread (mean (map fst ps)) ps).
  { rewrite Mx. unfold spread, qs. rewrite map_map, <- total_scal. apply total_ext. intros. cbn [fst]. ring. }
  assert (SP : 0 < s ^ 2) by (rewrite <- Rsqr_pow2; apply Rlt_0_sqr; auto).
  assert (B : f_slope (fit_of qs) * s = s' * f_slope (fit_of ps)).
  { cbn [fit_of f_slope]. rewrite Sx. destruct (Rlt_dec 0 (spread (mean (map fst ps)) ps)) as [Q|Q].
    - destruct (Rlt_dec 0 (s ^ 2 * spread (mean (map fst ps)) ps)) as [Q'|Q']; [|exfalso; apply Q', Rmult_lt_0_compat; auto].
      rewrite Mx, My. unfold qs at 1. rewrite map_map.
      rewrite (total_ext _ (fun p => (s * s') * ((fst p - mean (map fst ps)) * (snd p - mean (map snd ps))))) by (intros; cbn [fst snd]; ring).
      rewrite total_scal. field. split; auto; lra.
    - destruct (Rlt_dec 0 (s ^ 2 * spread (mean (map fst ps)) ps)) as [Q'|Q']; [|ring]. exfalso. apply Q.
      pose proof (ssx_nonneg ps) as [G|G]; [auto|]. rewrite <- G in Q'. lra. }
  assert (A : f_icpt (fit_of qs) + f_slope (fit_of qs) * d = s' * f_icpt (fit_of ps) + d').
  { change (f_icpt (fit_of qs)) with (mean (map snd qs) - f_slope (fit_of qs) * mean (map fst qs)).
    change (f_icpt (fit_of ps)) with (mean (map snd ps) - f_slope (fit_of ps) * mean (map fst ps)). rewrite Mx, My.
    replace (f_slope (fit_of qs) * (s * mean (map fst ps) + d)) with ((f_slope (fit_of qs) * s) * mean (map fst ps) + f_slope (fit_of qs) * d) by ring.
    rewrite B. ring. }
  split; [apply map_length|]. split; [exact Mx|]. split; [exact Sx|]. split; [auto|]. split; [auto|].
  assert (M : misfit (f_icpt (fit_of qs)) (f_slope (fit_of qs)) qs = s' ^ 2 * misfit (f_icpt (fit_of ps)) (f_slope (fit_of ps)) ps).
  { unfold misfit at 1, qs at 3. rewrite map_map. unfold misfit. rewrite <- total_scal. apply total_ext. intros p _. cbn [fst snd].
    replace (f_icpt (fit_of qs) + f_slope (fit_of qs) * (s * fst p + d)) with ((f_icpt (fit_of qs) + f_slope (fit_of qs) * d) + (f_slope (fit_of qs) * s) * fst p) by ring.
    rewrite A, B. ring. }
  change (f_err (fit_of qs)) with (sqrt (misfit (f_icpt (fit_of qs)) (f_slope (fit_of qs)) qs / INR (if (2 <? length qs)%nat then length qs - 2 else length qs))).
  change (f_err (fit_of ps)) with (sqrt (misfit (f_icpt (fit_of ps)) (f_slope (fit_of ps)) ps / INR (if (2 <? length ps)%nat then length ps - 2 else length ps))).
  rewrite M, Lq. pose proof (dof_pos ps N) as D. set (g := INR (if (2 <? length ps)%nat then length ps - 2 else length ps)%nat) in *.
  replace (s' ^ 2 * misfit (f_icpt (fit_of ps)) (f_slope (fit_of ps)) ps / g) with (s' ^ 2 * (misfit (f_icpt (fit_of ps)) (f_slope (fit_of ps)) ps / g)) by (field; lra).
  rewrite sqrt_mult_alt by apply pow2_ge_0. f_equal. rewrite <- Rsqr_pow2. apply sqrt_Rsqr_abs.
Qed.
Theorem C84_units : forall xs ys f s d s' d', fit_linear xs ys = Some f -> s <> 0 ->
  exists g, fit_linear (map (aff s d) xs) (map (aff s' d') ys) = Some g /\
  (forall grid, regression_line g (map (fun x => s * x + d) grid) = map (fun v => s' * v + d') (regression_line f grid)) /\
  (forall grid, prediction_std g (map (fun x => s * x + d) grid) = map (fun v => Rabs s' * v) (prediction_std f grid)).
Proof.
  intros xs ys f s d s' d' H S. apply fit_iff in H. destruct H as (ps & K & N & ->).
  exists (fit_of (map (fun p => (s * fst p + d, s' * snd p + d')) ps)). split.
  { apply fit_kept; [apply kept_aff; auto|]. destruct ps; [contradiction|discriminate]. }
  destruct (fit_of_aff s d s' d' ps N S) as (E1 & E2 & E3 & E4 & E5 & E6). cbv zeta in *.
  set (g := fit_of (map _ ps)) in *. set (f := fit_of ps) in *. split; intros grid.
  - unfold regression_line. rewrite !map_map. apply map_ext. intros x.
    replace (f_icpt g + f_slope g * (s * x + d)) with ((f_icpt g + f_slope g * d) + (f_slope g * s) * x) by ring. rewrite E4, E5. ring.
  - unfold prediction_std. destruct (Req_EM_T (f_err f) 0) as [Z|Z].
    + rewrite E6, Z, Rmult_0_r. destruct (Req_EM_T 0 0); [|contradiction]. rewrite !map_map. apply map_ext. intros. ring.
    + destruct (Req_EM_T (f_err g) 0) as [Z'|Z'].
      * assert (A0 : Rabs s' = 0). { rewrite E6 in Z'. apply Rmult_integral in Z'. tauto. } rewrite !map_map, A0. apply map_ext. intros; ring.
      * rewrite !map_map. apply map_ext. intros x. rewrite E6, E1, E2, E3, Rmult_assoc. f_equal. f_equal. f_equal. f_equal.
        assert (SP : 0 < s ^ 2) by (rewrite <- Rsqr_pow2; apply Rlt_0_sqr; auto).
        destruct (Rlt_dec 0 (f_ssx f)) as [Q|Q].
        -- destruct (Rlt_dec 0 (s ^ 2 * f_ssx f)) as [Q'|Q']; [|exfalso; apply Q', Rmult_lt_0_compat; auto]. field. split; auto; lra.
        -- destruct (Rlt_dec 0 (s ^ 2 * f_ssx f)) as [Q'|Q']; [|auto]. exfalso. apply Q. pose proof (ssx_nonneg ps) as [G|G]; [auto|].
           change (spread (mean (map fst ps)) ps) with (f_ssx f) in G. rewrite <- G in Q'. lra.
Qed.
Example C84_units_ex : exists f, fit_linear xs_w ys_w = Some f /\ f_err f <> 0.
Proof.
  exists (fit_of ps_w). split; [apply fit_w|]. destruct C84_least_squares_ex as (_ & _ & _ & ->). assert (0 < sqrt (25 / 14)) by (apply sqrt_lt_R0; lra). lra.
Qed.
Print Assumptions C84_units.

(** The predictive standard deviation: smallest at the mean of the models,
    symmetric about it, at least the error of the fit, and zero exactly when
    the models lie on a line. *)
Theorem C84_std : forall xs ys ps f x, fit_linear xs ys = Some f -> kept xs ys ps ->
  exists s, prediction_std f (cons x nil) = cons s nil /\ f_err f <= s /\
  s ^ 2 = f_err f ^ 2 * (1 + / INR (length ps) + (if Req_EM_T (f_ssx f) 0 then 0 else (x - f_xm f) ^ 2 / f_ssx f)) /\
  (0 < s <-> ~ exists a b, forall p, In p ps -> snd p = a + b * fst p) /\
  (forall y t, prediction_std f (cons y nil) = cons t nil -> Rabs (x - f_xm f) <= Rabs (y - f_xm f) -> s <= t) /\
  (forall grid, length (prediction_std f grid) = length grid /\
     forall i, (i < length grid)%nat -> nth i grid 0 = x -> nth i (prediction_std f grid) 0 = s).
Proof.
  intros xs ys ps f x H K. destruct (fit_kept_inv _ _ _ _ H K) as [N E]. pose proof (n_pos ps N) as P.
  pose proof (ssx_nonneg ps) as SN. change (spread (mean (map fst ps)) ps) with (f_ssx (fit_of ps)) in SN. pose proof (err_nonneg ps) as EN.
  pose proof (err_zero ps N) as EZ. rewrite <- E in *. assert (FN : f_n f = length ps) by (rewrite E; auto). clear E.
  set (v := fun x => if Rlt_dec 0 (f_ssx f) then (x - f_xm f) ^ 2 / f_ssx f else 0).
  set (st := fun x => if Req_EM_T (f_err f) 0 then 0 else f_err f * sqrt (1 + 1 / INR (f_n f) + v x)).
  assert (PS : forall grid, prediction_std f grid = map st grid).
  { intros grid. unfold prediction_std, st. destruct (Req_EM_T (f_err f) 0); auto. }
  assert (V : forall x, 0 <= v x).
  { intros y. unfold v. destruct (Rlt_dec 0 (f_ssx f)); [|lra]. apply Rmult_le_pos; [apply pow2_ge_0|]. left. apply Rinv_0_lt_compat; auto. }
  assert (I : 0 < 1 / INR (f_n f)). { rewrite FN. unfold Rdiv. rewrite Rmult_1_l. apply Rinv_0_lt_compat; auto. }
  assert (ST : forall y, f_err f <= st y).
  { intros y. unfold st. destruct (Req_EM_T (f_err f) 0) as [Z|Z]; [lra|]. rewrite <- (Rmult_1_r (f_err f)) at 1. apply Rmult_le_compat_l; auto.
    rewrite <- sqrt_1 at 1. apply sqrt_le_1_alt. specialize (V y). lra. }
  exists (st x). split; [apply PS|]. split; [auto|]. split; [|split; [|split]].
  - assert (VX : v x = if Req_EM_T (f_ssx f) 0 then 0 else (x - f_xm f) ^ 2 / f_ssx f).
    { unfold v. destruct (Req_EM_T (f_ssx f) 0) as [Z|Z], (Rlt_dec 0 (f_ssx f)) as [Q|Q]; auto; lra. }
    rewrite <- VX. unfold st. destruct (Req_EM_T (f_err f) 0) as [Z|Z]; [rewrite Z; ring|].
    rewrite Rpow_mult_distr. f_equal. rewrite <- Rsqr_pow2, Rsqr_sqrt by (specialize (V x); lra). rewrite FN. unfold Rdiv. ring.
  - rewrite <- EZ. split.
    + intros Q Z. unfold st in Q. destruct (Req_EM_T (f_err f) 0); lra.
    + intros Z. specialize (ST x). lra.
  - intros y t Ht L. rewrite PS in Ht. injection Ht as <-. unfold st. destruct (Req_EM_T (f_err f) 0) as [Z|Z]; [lra|].
    apply Rmult_le_compat_l; auto. apply sqrt_le_1_alt. apply Rplus_le_compat_l. unfold v. destruct (Rlt_dec 0 (f_ssx f)) as [Q|Q]; [|lra].
    apply Rmult_le_compat_r; [left; apply Rinv_0_lt_compat; auto|]. rewrite <- !Rsqr_pow2. apply Rsqr_le_abs_1. auto.
  - intros grid. rewrite PS. split; [apply map_length|]. intros i Li <-. rewrite (nth_indep _ 0 (st 0)) by (rewrite map_length; auto). apply map_nth.
Qed.
(** outside the models' mean the three-pair fit is uncertain *)
Example C84_std_ex : exists f s, fit_linear xs_w ys_w = Some f /\ prediction_std f (cons 2 nil) = cons s nil /\ 0 < s.
Proof.
  destruct (C84_std xs_w ys_w ps_w (fit_of ps_w) 2 fit_w kept_w) as (s & A & _ & _ & B & _). exists (fit_of ps_w), s. split; [apply fit_w|]. split; [auto|].
  apply B. intros (a & b & L). pose proof (L (0, 0) ltac:(cbn; auto)). pose proof (L (1, 2) ltac:(cbn; auto)). pose proof (L (3, 1) ltac:(cbn; auto)). cbn in *. lra.
Qed.
Print Assumptions C84_std.
