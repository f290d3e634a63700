(** C85: the prior and the posterior of the emergent constraint.
    C86: the spread and the mode read off a density. *)
From Coq Require Import Reals List Arith Lia Bool Lra Permutation.
From Verif Require Import Base Buffer VH_Model VH_Proofs EC_Model EC_Spec EC_Proofs EC_Props EC_Proofs2.
Import ListNotations.
Local Open Scope R_scope.

Theorem C85_gaussian : forall mu sigma x,
  (0 < sigma -> gaussian_pdf mu sigma x = Num (normal mu sigma x)) /\
  (sigma < 0 -> gaussian_pdf mu sigma x = NaN) /\
  gaussian_pdf mu 0 mu = Inf /\ (x <> mu -> gaussian_pdf mu 0 x = Num 0).
Proof.
  intros mu sigma x. unfold gaussian_pdf. repeat split.
  - intros P. destruct (Rlt_dec sigma 0); [lra|]. destruct (Req_EM_T sigma 0); [lra|]. f_equal.
    rewrite <- likelihood_normal by auto. unfold likelihood. pose proof sqrt2pi. field. lra.
  - intros P. destruct (Rlt_dec sigma 0); [auto|lra].
  - destruct (Rlt_dec 0 0); [lra|]. destruct (Req_EM_T 0 0); [|contradiction]. destruct (Req_EM_T mu mu); [auto|contradiction].
  - intros P. destruct (Rlt_dec 0 0); [lra|]. destruct (Req_EM_T 0 0); [|contradiction]. destruct (Req_EM_T x mu); [contradiction|auto].
Qed.
Example C85_gaussian_ex : gaussian_pdf 3 2 3 = Num (/ (2 * sqrt (2 * PI))).
Proof.
  destruct (C85_gaussian 3 2 3) as [H _]. rewrite H by lra. f_equal. unfold normal. replace (- (3 - 3) ^ 2 / (2 * 2 ^ 2)) with 0 by field. rewrite exp_0. unfold Rdiv. ring.
Qed.
Print Assumptions C85_gaussian.

(** one column of the prior: the normal density around the line, or, when the
    models lie on the line, one at the first nearest target *)
Definition column_of (target : list R) (line sigma : R) (col : list R) : Prop :=
  length col = length target /\
  (0 < sigma -> forall i, (i < length target)%nat -> nth i col 0 = normal line sigma (nth i target 0)) /\
  (sigma = 0 -> exists k, first_min (map (fun t => Rabs (t - line)) target) k /\
     nth k col 0 = 1 /\ forall i, (i < length target)%nat -> i <> k -> nth i col 0 = 0).
Lemma hot_nth n k i : (i < n)%nat -> nth i (hot n k) 0 = if (i =? k)%nat then 1 else 0.
Proof. intros L. unfold hot. rewrite (nth_map_R _ _ 0%nat) by (rewrite seq_length; auto). rewrite seq_nth by auto. auto. Qed.
Lemma hot_col target line k : nearest target line = Some k -> column_of target line 0 (hot (length target) k).
Proof.
  intros E. unfold nearest in E. apply argmin_iff in E. split; [unfold hot; rewrite map_length, seq_length; auto|]. split; [intros; lra|].
  intros _. exists k. assert (L : (k < length target)%nat) by (destruct E as [E _]; rewrite map_length in E; auto). split; [auto|]. split.
  - rewrite hot_nth, Nat.eqb_refl by auto. auto.
  - intros i Li D. rewrite hot_nth by auto. destruct (Nat.eqb_spec i k); [contradiction|auto].
Qed.
Lemma gauss_col target line sigma : 0 < sigma -> column_of target line sigma (map (likelihood line sigma) target).
Proof.
  intros P. split; [apply map_length|]. split; [|intros; lra]. intros _ i L. rewrite (nth_map_R _ _ 0) by auto. apply likelihood_normal; auto.
Qed.
Theorem C85_prior : forall xs ys f cgrid target, fit_linear xs ys = Some f ->
  (prior xs ys cgrid target = None <-> f_err f = 0 /\ cgrid <> [] /\ target = []) /\
  (forall cols sg line, prior xs ys cgrid target = Some (cols, sg, line) ->
     length cols = length cgrid /\ length sg = length cgrid /\ length line = length cgrid /\
     forall j, (j < length cgrid)%nat ->
       nth j line 0 = f_icpt f + f_slope f * nth j cgrid 0 /\
       prediction_std f (cons (nth j cgrid 0) nil) = cons (nth j sg 0) nil /\ 0 <= nth j sg 0 /\
       column_of target (nth j line 0) (nth j sg 0) (nth j cols [])).
Proof.
  intros xs ys f cgrid target H. rewrite (prior_columns _ _ _ _ _ H). destruct (Req_EM_T (f_err f) 0) as [Z|Z].
  - split; [split|].
    + intros E. split; [auto|]. destruct target as [|t target].
      * split; [|auto]. intros ->. discriminate.
      * exfalso. destruct (mapM_some _ _ (fun x => let* k := nearest (t :: target) (line_at f x) in Some (hot (length (t :: target)) k)) cgrid) as [r Er].
        -- intros x _. destruct (argmin_some (map (fun t0 => Rabs (t0 - line_at f x)) (t :: target))) as [k Ek]; [discriminate|].
           unfold nearest. rewrite Ek. cbn [bind]. eauto.
        -- rewrite Er in E. discriminate.
    + intros (_ & N & ->). destruct cgrid; [contradiction|reflexivity].
    + intros cols sg line E. apply bind_some in E. destruct E as (c & Ec & E). injection E as <- <- <-.
      pose proof (mapM_length _ _ _ _ _ Ec) as Lc. rewrite !map_length. split; [auto|]. split; [auto|]. split; [auto|]. intros j J.
      rewrite !(nth_map_R _ _ 0) by auto. rewrite dev_list. cbn [map]. rewrite (dev_zero f _ Z). split; [auto|]. split; [auto|]. split; [lra|].
      destruct (nth_error cgrid j) as [x|] eqn:Ex; [|apply nth_error_None in Ex; lia]. pose proof (mapM_nth _ _ _ _ _ _ _ Ec Ex) as (y & Ey & Hy).
      rewrite (nth_error_nth _ _ 0 Ex), (nth_error_nth _ _ [] Hy).
      apply bind_some in Ey. destruct Ey as (k & Ek & Ey). injection Ey as <-. apply hot_col; auto.
  - split; [split; [discriminate|tauto]|]. intros cols sg line [= <- <- <-]. rewrite !map_length. split; [auto|]. split; [auto|]. split; [auto|]. intros j J.
    rewrite !(nth_map_R _ _ 0) by auto. rewrite dev_list. assert (P : 0 < dev f (nth j cgrid 0)) by (eapply dev_pos; eauto).
    split; [auto|]. split; [auto|]. split; [lra|].
    rewrite (nth_indep _ [] (map (likelihood (line_at f 0) (dev f 0)) target)) by (rewrite map_length; auto).
    rewrite (map_nth (fun x => map (likelihood (line_at f x) (dev f x)) target)). apply gauss_col; auto.
Qed.
(** a perfect relation y = x: targets 0, 1, 2 and constraint 6/5 select target 1 *)
Definition xs_e : list (option R) := [Some 0; Some 2].
Definition ps_e : list (R * R) := [(0, 0); (2, 2)].
Example kept_e : kept xs_e xs_e ps_e.
Proof. unfold xs_e, ps_e. repeat constructor. Qed.
Lemma fit_e : f_slope (fit_of ps_e) = 1 /\ f_icpt (fit_of ps_e) = 0 /\ f_err (fit_of ps_e) = 0.
Proof.
  assert (M : mean (map fst ps_e) = 1) by (unfold mean, ps_e; cbn; field).
  assert (M' : mean (map snd ps_e) = 1) by (unfold mean, ps_e; cbn; field).
  assert (S : spread 1 ps_e = 2) by (unfold spread, ps_e; cbn; field).
  assert (B : f_slope (fit_of ps_e) = 1).
  { cbn [fit_of f_slope]. rewrite M, M', S. destruct (Rlt_dec _ _) as [L|L]; [|lra]. unfold ps_e. cbn. field. }
  split; [auto|]. split.
  - change (f_icpt (fit_of ps_e)) with (mean (map snd ps_e) - f_slope (fit_of ps_e) * mean (map fst ps_e)). rewrite B, M, M'. ring.
  - apply err_zero; [discriminate|]. exists 0, 1. unfold ps_e. intros p [<-|[<-|[]]]; cbn; ring.
Qed.
Example C85_prior_ex : exists cols sg line, prior xs_e xs_e (cons (6 / 5) nil) [0; 1; 2] = Some (cols, sg, line) /\
  column_of [0; 1; 2] (6 / 5) 0 (nth 0 cols []) /\ first_min (map (fun t => Rabs (t - 6 / 5)) [0; 1; 2]) 1.
Proof.
  destruct fit_e as (B & A & E). pose proof (fit_kept _ _ _ kept_e ltac:(discriminate)) as H.
  destruct (C85_prior xs_e xs_e _ (cons (6 / 5) nil) [0; 1; 2] H) as [D F].
  destruct (prior xs_e xs_e (cons (6 / 5) nil) [0; 1; 2]) as [[[cols sg] line]|] eqn:P.
  - exists cols, sg, line. split; [auto|]. destruct (F _ _ _ eq_refl) as (_ & _ & _ & G). destruct (G 0%nat ltac:(cbn; lia)) as (G1 & G2 & _ & G3).
    rewrite dev_list in G2. cbn [map] in G2. injection G2 as G2. rewrite dev_zero in G2 by auto. rewrite <- G2, G1, A, B in G3. cbn [nth] in G3.
    replace (0 + 1 * (6 / 5)) with (6 / 5) in G3 by ring. split; [auto|].
    assert (Q0 : Rabs (0 - 6 / 5) = 6 / 5) by (rewrite Rabs_left; lra). assert (Q1 : Rabs (1 - 6 / 5) = 1 / 5) by (rewrite Rabs_left; lra).
    assert (Q2 : Rabs (2 - 6 / 5) = 4 / 5) by (rewrite Rabs_pos_eq; lra).
    split; [cbn; lia|]. cbn [map length]. rewrite Q0, Q1, Q2. split; intros i I; [destruct i as [|[|[|i]]]|destruct i as [|i]]; cbn; try lia; lra.
  - destruct D as [D _]. destruct (D eq_refl) as (_ & _ & Q). discriminate.
Qed.
Print Assumptions C85_prior.

(** The posterior weighs the prior with the observed density times the first
    spacing of the constraint grid. *)
Theorem C85_posterior : forall xs ys f cgrid target obs dx cols sg line,
  fit_linear xs ys = Some f -> prior xs ys cgrid target = Some (cols, sg, line) -> cgrid <> [] -> target <> [] -> length obs = length cgrid ->
  exists pdf, posterior_pdf f cgrid target obs dx = Some pdf /\ length pdf = length target /\
  forall i, (i < length target)%nat ->
    nth i pdf 0 = total (map (fun j => nth i (nth j cols []) 0 * (nth j obs 0 * dx)) (seq 0 (length cgrid))).
Proof.
  intros xs ys f cgrid target obs dx cols sg line H P Nc Nt L. rewrite (posterior_joint xs ys f cgrid target obs dx H Nc L Nt).
  eexists. split; [reflexivity|]. rewrite map_length, seq_length. split; [auto|]. intros i I.
  rewrite (nth_map_R _ _ 0%nat) by (rewrite seq_length; auto). rewrite seq_nth by auto. cbn [plus]. unfold joint. apply total_ext. intros j J. apply in_seq in J. f_equal.
  destruct (C85_prior xs ys f cgrid target H) as [_ F]. destruct (F _ _ _ P) as (_ & _ & _ & G). destruct (G j ltac:(lia)) as (G1 & G2 & _ & G3 & G4 & G5).
  rewrite dev_list in G2. cbn [map] in G2. injection G2 as G2. rewrite <- G2 in *. unfold weight. destruct (Req_EM_T (f_err f) 0) as [Z|Z].
  - destruct (G5 (dev_zero f _ Z)) as (k & K1 & K2 & K3). rewrite G1 in K1. apply argmin_iff in K1. unfold nearest, line_at. rewrite K1.
    destruct (Nat.eqb_spec k i) as [->|D]; [auto|]. symmetry. apply K3; auto.
  - rewrite G4; [rewrite G1; auto|eapply dev_pos; eauto|auto].
Qed.
Print Assumptions C85_posterior.
Example C85_posterior_ex : exists pdf, posterior_pdf (fit_of ps_w) [0; 1] [0; 1; 2] [1; 3] 1 = Some pdf /\ length pdf = 3%nat.
Proof.
  pose proof (C85_prior xs_w ys_w _ [0; 1] [0; 1; 2] fit_w) as [D _].
  destruct (prior xs_w ys_w [0; 1] [0; 1; 2]) as [[[cols sg] line]|] eqn:P.
  - destruct (C85_posterior xs_w ys_w _ [0; 1] [0; 1; 2] [1; 3] 1 _ _ _ fit_w P ltac:(discriminate) ltac:(discriminate) eq_refl) as (pdf & E & L & _). eauto.
  - destruct D as [D _]. destruct (D eq_refl) as (_ & _ & Q). discriminate.
Qed.

(** What the caller gets: the density, the target at its first maximum, and the spread. *)
Theorem C85_result : forall xs ys f c0 c1 cgrid target obs,
  fit_linear xs ys = Some f -> target <> [] -> length obs = length (c0 :: c1 :: cgrid) ->
  exists pdf sd mode m, posterior xs ys (c0 :: c1 :: cgrid) target obs = Some (pdf, sd, mode) /\
    posterior_pdf f (c0 :: c1 :: cgrid) target obs (c1 - c0) = Some pdf /\
    first_max pdf m /\ (m < length target)%nat /\ mode = nth m target 0 /\ std_from_pdf (341 / 1000) target pdf = Some sd.
Proof.
  intros xs ys f c0 c1 cgrid target obs H Nt L. unfold posterior. rewrite H. cbn [bind].
  assert (Nc : c0 :: c1 :: cgrid <> []) by discriminate.
  rewrite (posterior_joint xs ys f (c0 :: c1 :: cgrid) target obs (c1 - c0) H Nc L Nt). cbn [bind].
  set (pdf := map _ (seq 0 (length target))). assert (Lp : length pdf = length target) by (unfold pdf; rewrite map_length, seq_length; auto).
  destruct (argmin_some (map Ropp pdf)) as [m Em]. { intros Q. apply (f_equal (@length R)) in Q. rewrite map_length, Lp in Q. destruct target; [contradiction|discriminate]. }
  fold (argmax pdf) in Em. assert (F := proj1 (argmax_iff _ _) Em). assert (Lm : (m < length target)%nat) by (rewrite <- Lp; apply F).
  assert (S : exists sd, std_from_pdf (341 / 1000) target pdf = Some sd).
  { unfold std_from_pdf. destruct (Rle_dec (rsum pdf) 0); [eauto|]. rewrite Em. cbn [bind]. rewrite Lp, Nat.eqb_refl. cbn [negb].
    destruct (std_loop _ _ _ _ _ _); eauto. }
  destruct S as [sd Es]. rewrite Es. cbn [bind]. rewrite Em. cbn [bind].
  rewrite (nth_error_nth' target 0 Lm). cbn [bind]. exists pdf, sd, (nth m target 0), m. auto 10.
Qed.
Example C85_result_ex : exists pdf sd mode, posterior xs_w ys_w [0; 1; 2] [0; 1] [1; 3; 1] = Some (pdf, sd, mode).
Proof.
  destruct (C85_result xs_w ys_w _ 0 1 (cons 2 nil) [0; 1] [1; 3; 1] fit_w ltac:(discriminate) eq_refl) as (pdf & sd & mode & m & E & _). eauto.
Qed.
Print Assumptions C85_result.

(** ** Sign and mass *)
Lemma weight_nonneg xs ys f target x i : fit_linear xs ys = Some f -> 0 <= weight f target x i.
Proof.
  intros H. unfold weight. destruct (Req_EM_T (f_err f) 0) as [Z|Z].
  - destruct (nearest target (line_at f x)) as [k|]; [|lra]. destruct (k =? i)%nat; lra.
  - left. apply normal_pos. eapply dev_pos; eauto.
Qed.
Lemma total_pos {A} (g : A -> R) l x : (forall y, In y l -> 0 <= g y) -> In x l -> 0 < g x -> 0 < total (map g l).
Proof.
  intros N I P. destruct (total_nonneg g l N) as [Q|Q]; [auto|]. pose proof (total_zero g l N (eq_sym Q) x I). lra.
Qed.
Theorem C85_sign : forall xs ys f cgrid target obs dx pdf,
  fit_linear xs ys = Some f -> cgrid <> [] -> target <> [] -> length obs = length cgrid ->
  posterior_pdf f cgrid target obs dx = Some pdf -> 0 <= dx -> (forall j, 0 <= nth j obs 0) ->
  (forall i, (i < length target)%nat -> 0 <= nth i pdf 0) /\
  ((exists j, (j < length cgrid)%nat /\ 0 < nth j obs 0) -> 0 < dx ->
     0 < total pdf /\ (f_err f <> 0 -> forall i, (i < length target)%nat -> 0 < nth i pdf 0)).
Proof.
  intros xs ys f cgrid target obs dx pdf H Nc Nt L E D O. rewrite (posterior_joint xs ys f cgrid target obs dx H Nc L Nt) in E. injection E as <-.
  assert (W : forall i j, 0 <= weight f target (nth j cgrid 0) i * (nth j obs 0 * dx)).
  { intros i j. apply Rmult_le_pos; [eapply weight_nonneg; eauto|]. apply Rmult_le_pos; auto. }
  assert (J : forall i, 0 <= joint f cgrid target obs dx i) by (intros i; apply total_nonneg; intros; apply W).
  assert (N : forall i, (i < length target)%nat -> nth i (map (joint f cgrid target obs dx) (seq 0 (length target))) 0 = joint f cgrid target obs dx i).
  { intros i I. rewrite (nth_map_R _ _ 0%nat) by (rewrite seq_length; auto). rewrite seq_nth by auto. auto. }
  split; [intros i I; rewrite N by auto; apply J|]. intros (j & Lj & Oj) Dp.
  assert (P : forall i, 0 < weight f target (nth j cgrid 0) i -> 0 < joint f cgrid target obs dx i).
  { intros i Wi. unfold joint. apply total_pos with j; [intros; apply W|apply in_seq; lia|]. apply Rmult_lt_0_compat; [auto|apply Rmult_lt_0_compat; auto]. }
  assert (G : f_err f <> 0 -> forall i, 0 < joint f cgrid target obs dx i).
  { intros Z i. apply P. unfold weight. destruct (Req_EM_T (f_err f) 0); [contradiction|]. apply normal_pos. eapply dev_pos; eauto. }
  split.
  - destruct (Req_EM_T (f_err f) 0) as [Z|Z].
    + destruct (argmin_some (map (fun t => Rabs (t - line_at f (nth j cgrid 0))) target)) as [k Ek]; [destruct target; [contradiction|discriminate]|].
      assert (Lk := proj1 (argmin_iff _ _) Ek). destruct Lk as [Lk _]. rewrite map_length in Lk.
      apply total_pos with k; [intros; apply J|apply in_seq; lia|]. apply P. unfold weight. destruct (Req_EM_T (f_err f) 0); [|contradiction].
      unfold nearest. rewrite Ek, Nat.eqb_refl. lra.
    + apply total_pos with 0%nat; [intros; apply J|apply in_seq; destruct target; [contradiction|cbn; lia]|]. apply G; auto.
  - intros Z i I. rewrite N by auto. apply G; auto.
Qed.
Print Assumptions C85_sign.

(** With the models on a line no probability is lost: each constraint value
    goes to exactly one target. *)
Theorem C85_mass : forall xs ys f cgrid target obs dx pdf,
  fit_linear xs ys = Some f -> f_err f = 0 -> cgrid <> [] -> target <> [] -> length obs = length cgrid ->
  posterior_pdf f cgrid target obs dx = Some pdf -> total pdf = dx * total obs.
Proof.
  intros xs ys f cgrid target obs dx pdf H Z Nc Nt L E. rewrite (posterior_joint xs ys f cgrid target obs dx H Nc L Nt) in E. injection E as <-.
  unfold joint. rewrite total_swap. replace (total obs) with (total (map (fun x => x) obs)) by (rewrite map_id; auto). rewrite (total_index (fun x => x) obs 0), L, <- total_scal. apply total_ext. intros j J.
  destruct (argmin_some (map (fun t => Rabs (t - line_at f (nth j cgrid 0))) target)) as [k Ek]; [destruct target; [contradiction|discriminate]|].
  assert (Lk := proj1 (argmin_iff _ _) Ek). destruct Lk as [Lk _]. rewrite map_length in Lk.
  rewrite (total_ext _ (fun i => (nth j obs 0 * dx) * (if (k =? i)%nat then 1 else 0))).
  - rewrite total_scal. assert (S : forall s n, total (map (fun i => if (k =? i)%nat then 1 else 0) (seq s n)) = if andb (s <=? k)%nat (k <? s + n)%nat then 1 else 0).
    { intros s n. revert s. induction n as [|n IH]; intros s; cbn [seq map total].
      - destruct (Nat.leb_spec s k), (Nat.ltb_spec k (s + 0)); cbn; try lia; auto.
      - rewrite IH. destruct (Nat.eqb_spec k s), (Nat.leb_spec (S s) k), (Nat.leb_spec s k), (Nat.ltb_spec k (S s + n)), (Nat.ltb_spec k (s + S n)); cbn; try lia; lra. }
    rewrite S. destruct (Nat.leb_spec 0 k), (Nat.ltb_spec k (0 + length target)); cbn [andb]; try lia. ring.
  - intros i _. unfold weight. destruct (Req_EM_T (f_err f) 0); [|contradiction]. unfold nearest. rewrite Ek. ring.
Qed.
Example C85_mass_ex : exists pdf, posterior_pdf (fit_of ps_e) [0; 1] [0; 5] [2; 3] 1 = Some pdf /\ total pdf = 5.
Proof.
  pose proof (fit_kept _ _ _ kept_e ltac:(discriminate)) as H. destruct fit_e as (_ & _ & Z).
  pose proof (posterior_joint xs_e xs_e _ [0; 1] [0; 5] [2; 3] 1 H ltac:(discriminate) eq_refl ltac:(discriminate)) as E.
  eexists. split; [exact E|]. rewrite (C85_mass xs_e xs_e _ [0; 1] [0; 5] [2; 3] 1 _ H Z ltac:(discriminate) ltac:(discriminate) eq_refl E). cbn. ring.
Qed.
Print Assumptions C85_mass.
Example C85_sign_ex : exists pdf, posterior_pdf (fit_of ps_w) [0; 1] [0; 5] [2; 3] 1 = Some pdf /\ 0 < nth 1 pdf 0 /\ 0 < total pdf.
Proof.
  pose proof (posterior_joint xs_w ys_w _ [0; 1] [0; 5] [2; 3] 1 fit_w ltac:(discriminate) eq_refl ltac:(discriminate)) as E.
  eexists. split; [exact E|].
  destruct (C85_sign xs_w ys_w _ [0; 1] [0; 5] [2; 3] 1 _ fit_w ltac:(discriminate) ltac:(discriminate) eq_refl E ltac:(lra)) as [_ G].
  { intros [|[|[|j]]]; cbn; lra. }
  destruct G as [G1 G2]; [exists 0%nat; cbn; split; [lia|lra]|lra|]. split; [|auto]. apply G2; [|cbn; lia].
  destruct C84_units_ex as (f & F1 & F2). rewrite fit_w in F1. injection F1 as <-. auto.
Qed.
