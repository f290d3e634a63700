(** C85, continued: units and order of the inputs of the posterior, and what
    it gets wrong. *)
From Coq Require Import Reals List Arith Lia Bool Lra Permutation.
From Verif Require Import Base Buffer VH_Model VH_Proofs EC_Model EC_Spec EC_Proofs EC_Props EC_Proofs2 EC_Props2 EC_Props3.
Import ListNotations.
Local Open Scope R_scope.

(** In other units (x to s x + d, y to s' y + d') the mode and the spread are
    those of the old units, converted.  The density converts like a density
    when the models scatter, and like a mass when they lie on a line. *)
Theorem C85_units : forall xs ys f c0 c1 cgrid target obs s d s' d' pdf sd mode,
  fit_linear xs ys = Some f -> 0 < s -> 0 < s' -> target <> [] -> length obs = length (c0 :: c1 :: cgrid) ->
  posterior xs ys (c0 :: c1 :: cgrid) target obs = Some (pdf, sd, mode) ->
  posterior (map (aff s d) xs) (map (aff s' d') ys) (map (fun x => s * x + d) (c0 :: c1 :: cgrid)) (map (fun t => s' * t + d') target) obs =
    Some (map (Rmult (if Req_EM_T (f_err f) 0 then s else s / s')) pdf, option_map (Rmult s') sd, s' * mode + d').
Proof.
  intros xs ys f c0 c1 cgrid target obs s d s' d' pdf sd mode H S S' Nt L P.
  destruct (C84_units xs ys f s d s' d' H ltac:(lra)) as (g & Hg & GL & GD).
  assert (Nc : c0 :: c1 :: cgrid <> []) by discriminate.
  assert (E1 : forall x, line_at g (s * x + d) = s' * line_at f x + d').
  { intros x. specialize (GL (cons x nil)). injection GL as GL. exact GL. }
  assert (E2 : forall x, dev g (s * x + d) = s' * dev f x).
  { intros x. specialize (GD (cons x nil)). rewrite !dev_list in GD. cbn [map] in GD. injection GD as GD. rewrite GD, (Rabs_pos_eq s') by lra. auto. }
  set (k := if Req_EM_T (f_err f) 0 then s else s / s').
  assert (K : 0 < k). { unfold k. destruct (Req_EM_T (f_err f) 0); [auto|]. apply Rdiv_lt_0_compat; auto. }
  assert (Z : f_err g = 0 <-> f_err f = 0).
  { split; intros Q.
    - destruct (Req_EM_T (f_err f) 0) as [|N]; [auto|]. exfalso. pose proof (dev_pos xs ys f 0 H N). pose proof (dev_zero g (s * 0 + d) Q) as D0. rewrite E2 in D0. nra.
    - destruct (Req_EM_T (f_err g) 0) as [|N]; [auto|]. exfalso. pose proof (dev_pos _ _ g (s * 0 + d) Hg N) as D0. rewrite E2, (dev_zero f 0 Q) in D0. lra. }
  set (target' := map (fun t => s' * t + d') target). set (cg := c0 :: c1 :: cgrid) in *. set (cg' := map (fun x => s * x + d) cg).
  assert (NR : forall l, nearest target' (s' * l + d') = nearest target l).
  { intros l. unfold nearest, target'. rewrite map_map.
    rewrite (map_ext _ (fun t => s' * Rabs (t - l))).
    - rewrite <- (map_map (fun t => Rabs (t - l)) (Rmult s')). apply argmin_scale; auto.
    - intros t. replace (s' * t + d' - (s' * l + d')) with (s' * (t - l)) by ring. rewrite Rabs_mult, (Rabs_pos_eq s') by lra. auto. }
  assert (W : forall x i, (i < length target)%nat -> weight g target' (s * x + d) i = weight f target x i * (if Req_EM_T (f_err f) 0 then 1 else / s')).
  { intros x i I. unfold weight. rewrite E1, E2. destruct (Req_EM_T (f_err f) 0) as [Q|Q], (Req_EM_T (f_err g) 0) as [Q'|Q']; try tauto.
    - rewrite NR. ring.
    - unfold target'. rewrite nth_aff by auto. apply normal_aff; auto. eapply dev_pos; eauto. }
  assert (J : forall i, (i < length target)%nat -> joint g cg' target' obs (s * c1 + d - (s * c0 + d)) i = k * joint f cg target obs (c1 - c0) i).
  { intros i I. unfold joint. rewrite <- total_scal. unfold cg' at 2. rewrite map_length. apply total_ext. intros j Hj. apply in_seq in Hj.
    unfold cg'. rewrite nth_aff by lia. rewrite W by auto. unfold k. destruct (Req_EM_T (f_err f) 0); [ring|field; lra]. }
  assert (Nt' : target' <> []) by (unfold target'; destruct target; [contradiction|discriminate]).
  assert (L' : length obs = length cg') by (unfold cg'; rewrite map_length; auto).
  assert (PJ : posterior_pdf g cg' target' obs (s * c1 + d - (s * c0 + d)) = Some (map (Rmult k) (map (joint f cg target obs (c1 - c0)) (seq 0 (length target))))).
  { rewrite (posterior_joint _ _ g cg' target' obs _ Hg) by (auto; unfold cg', cg; discriminate). f_equal. rewrite map_map. unfold target' at 2. rewrite map_length.
    apply map_ext_in. intros i Hi. apply in_seq in Hi. apply J. lia. }
  unfold posterior in *. change cg' with ((s * c0 + d) :: (s * c1 + d) :: map (fun x => s * x + d) cgrid) in PJ |- *. cbv iota. unfold cg in P. rewrite H in P. rewrite Hg. cbn [bind] in P |- *.
  rewrite (posterior_joint xs ys f (c0 :: c1 :: cgrid) target obs (c1 - c0) H Nc L Nt) in P. cbn [bind] in P.
  match type of PJ with ?a = Some _ => match goal with |- context [posterior_pdf ?x1 ?x2 ?x3 ?x4 ?x5] => change (posterior_pdf x1 x2 x3 x4 x5) with a end end.
  rewrite PJ. cbn [bind].
  set (p0 := map (joint f cg target obs (c1 - c0)) (seq 0 (length target))) in *. change (map (joint f (c0 :: c1 :: cgrid) target obs (c1 - c0)) (seq 0 (length target))) with p0 in P.
  assert (Lp : length target = length p0) by (unfold p0; rewrite map_length, seq_length; auto).
  destruct (C86_units (341 / 1000) target p0 k s' d' Lp K S') as (r & R1 & R2). fold target' in R2. rewrite R1 in P. rewrite R2. cbn [bind] in P |- *.
  rewrite argmax_scale by auto. destruct (argmax p0) as [m|] eqn:Em; [|discriminate]. cbn [bind] in P |- *.
  unfold target'. rewrite nth_error_map. destruct (nth_error target m) as [t|]; [|discriminate]. cbn [bind option_map] in P |- *. injection P as <- <- <-. auto.
Qed.
Print Assumptions C85_units.
Example C85_units_ex : exists pdf sd mode,
  posterior xs_w ys_w [0; 1] [0; 1; 2] [1; 3] = Some (pdf, sd, mode) /\
  posterior (map (aff 1 0) xs_w) (map (aff 2 5) ys_w) (map (fun x => 1 * x + 0) [0; 1]) (map (fun t => 2 * t + 5) [0; 1; 2]) [1; 3] =
    Some (map (Rmult (1 / 2)) pdf, option_map (Rmult 2) sd, 2 * mode + 5).
Proof.
  destruct (C85_result xs_w ys_w _ 0 1 [] [0; 1; 2] [1; 3] fit_w ltac:(discriminate) eq_refl) as (pdf & sd & mode & m & E & _).
  exists pdf, sd, mode. split; [auto|].
  rewrite (C85_units xs_w ys_w _ 0 1 [] [0; 1; 2] [1; 3] 1 0 2 5 pdf sd mode fit_w ltac:(lra) ltac:(lra) ltac:(discriminate) eq_refl E).
  destruct C84_units_ex as (f & F1 & F2). rewrite fit_w in F1. injection F1 as <-. destruct (Req_EM_T (f_err (fit_of ps_w)) 0); [contradiction|auto].
Qed.

(** The order of the models does not matter. *)
Theorem C85_order : forall xs ys xs' ys' cgrid target obs, length xs = length ys -> length xs' = length ys' ->
  Permutation (combine xs ys) (combine xs' ys') ->
  posterior xs ys cgrid target obs = posterior xs' ys' cgrid target obs /\ prior xs ys cgrid target = prior xs' ys' cgrid target.
Proof.
  intros xs ys xs' ys' cgrid target obs L L' P. unfold posterior, prior. rewrite (C84_order xs ys xs' ys' L L' P). auto.
Qed.
Example C85_order_ex : posterior (rev xs_w) (rev ys_w) [0; 1] [0; 1; 2] [1; 3] = posterior xs_w ys_w [0; 1] [0; 1; 2] [1; 3].
Proof. apply C85_order; auto. unfold xs_w, ys_w. cbn [combine rev app]. apply Permutation_sym, (Permutation_rev [_; _; _; _; _]). Qed.
Print Assumptions C85_order.

(** Listing a constraint grid of equal spacing the other way round turns the
    density negative. *)
Theorem C85_reversed : forall xs ys f cgrid target obs dx pdf,
  fit_linear xs ys = Some f -> cgrid <> [] -> target <> [] -> length obs = length cgrid ->
  posterior_pdf f cgrid target obs dx = Some pdf ->
  posterior_pdf f (rev cgrid) target (rev obs) (- dx) = Some (map Ropp pdf).
Proof.
  intros xs ys f cgrid target obs dx pdf H Nc Nt L E. rewrite (posterior_joint xs ys f cgrid target obs dx H Nc L Nt) in E. injection E as <-.
  rewrite (posterior_joint xs ys f (rev cgrid) target (rev obs) (- dx) H); auto; [|destruct cgrid; [contradiction|]; cbn; destruct (rev cgrid); discriminate|rewrite !rev_length; auto].
  f_equal. rewrite map_map. apply map_ext. intros i. unfold joint. rewrite rev_length.
  rewrite <- (Rmult_1_l (total (map (fun j => weight f target (nth j cgrid 0) i * (nth j obs 0 * dx)) _))), Ropp_mult_distr_l, <- total_scal.
  rewrite (total_perm _ (seq 0 (length cgrid)) (map (fun j => (length cgrid - 1 - j)%nat) (seq 0 (length cgrid)))).
  - rewrite map_map. apply total_ext. intros j J. apply in_seq in J. rewrite !rev_nth by lia. rewrite L.
    replace (length cgrid - S (length cgrid - 1 - j))%nat with j by lia. ring.
  - replace (map (fun j => (length cgrid - 1 - j)%nat) (seq 0 (length cgrid))) with (rev (seq 0 (length cgrid))); [apply Permutation_rev|].
    apply nth_ext with 0%nat 0%nat; [rewrite rev_length, map_length; auto|]. rewrite rev_length, seq_length. intros a Ha.
    rewrite rev_nth, seq_length, seq_nth by (rewrite ?seq_length; lia).
    rewrite (nth_indep _ 0%nat (length cgrid - 1 - 0)%nat) by (rewrite map_length, seq_length; auto).
    rewrite (map_nth (fun j => (length cgrid - 1 - j)%nat)), seq_nth by auto. lia.
Qed.
Example C85_reversed_ex : exists pdf, posterior_pdf (fit_of ps_w) [0; 1] [0; 1; 2] [1; 3] 1 = Some pdf /\
  posterior_pdf (fit_of ps_w) [1; 0] [0; 1; 2] [3; 1] (- (1)) = Some (map Ropp pdf).
Proof.
  pose proof (posterior_joint xs_w ys_w _ [0; 1] [0; 1; 2] [1; 3] 1 fit_w ltac:(discriminate) eq_refl ltac:(discriminate)) as E. eexists. split; [exact E|].
  exact (C85_reversed xs_w ys_w _ [0; 1] [0; 1; 2] [1; 3] 1 _ fit_w ltac:(discriminate) ltac:(discriminate) eq_refl E).
Qed.
Print Assumptions C85_reversed.
Theorem C85_decreasing_refuted : exists xs ys cgrid target obs pdf sd mode,
  posterior xs ys cgrid target obs = Some (pdf, Some sd, mode) /\
  exists pdf' mode', posterior xs ys (rev cgrid) target (rev obs) = Some (pdf', None, mode') /\ total pdf' = - total pdf /\ total pdf' < 0.
Proof.
  destruct (C85_result xs_w ys_w _ 0 1 [] [0; 1; 2] [1; 3] fit_w ltac:(discriminate) eq_refl) as (pdf & sd & mode & m & E & E1 & F & Lm & Em & Es).
  destruct (C85_result xs_w ys_w _ 1 0 [] [0; 1; 2] [3; 1] fit_w ltac:(discriminate) eq_refl) as (pdf' & sd' & mode' & m' & E' & E1' & F' & Lm' & Em' & Es').
  destruct (C85_sign xs_w ys_w _ [0; 1] [0; 1; 2] [1; 3] (1 - 0) pdf fit_w ltac:(discriminate) ltac:(discriminate) eq_refl E1 ltac:(lra)) as [G0 G].
  { intros [|[|[|j]]]; cbn; lra. }
  destruct G as [G _]; [exists 0%nat; cbn; split; [lia|lra]|lra|].
  assert (R : pdf' = map Ropp pdf).
  { pose proof (C85_reversed xs_w ys_w _ [0; 1] [0; 1; 2] [1; 3] (1 - 0) pdf fit_w ltac:(discriminate) ltac:(discriminate) eq_refl E1) as Q.
    cbn [rev app] in Q. replace (- (1 - 0)) with (0 - 1) in Q by ring. rewrite Q in E1'. injection E1'. auto. }
  assert (T : total pdf' = - total pdf).
  { rewrite R. rewrite (total_ext Ropp (fun x => (-1) * x)) by (intros; ring). rewrite (total_scal (-1) (fun x => x)), map_id. ring. }
  assert (Lp : length [0; 1; 2] = length pdf).
  { rewrite (posterior_joint xs_w ys_w _ [0; 1] [0; 1; 2] [1; 3] (1 - 0) fit_w) in E1 by (auto; discriminate). injection E1 as <-. reflexivity. }
  destruct (C86_spread (341 / 1000) [0; 1; 2] pdf' ltac:(rewrite R, map_length; auto)) as [N _]. rewrite N in Es' by lra. injection Es' as <-.
  assert (SD : exists v, sd = Some v).
  { destruct (C86_range (341 / 1000) [0; 1; 2] pdf 2 m Lp) as (v & Ev & _); auto.
    - intros i. destruct (Nat.lt_ge_cases i 3) as [I|I]; [apply G0; cbn; lia|]. rewrite nth_overflow; [lra|]. rewrite <- Lp. cbn. lia.
    - intros i I. destruct m as [|[|[|m]]]; cbn in Lm; try lia; destruct i as [|[|[|i]]]; cbn in I |- *; try lia; unfold Rabs; destruct (Rcase_abs _); lra.
    - rewrite Ev in Es. injection Es as <-. eauto. }
  destruct SD as [v ->].
  exists xs_w, ys_w, [0; 1], [0; 1; 2], [1; 3], pdf, v, mode. split; [auto|]. exists pdf', mode'. split; [exact E'|]. split; [auto|]. lra.
Qed.
Print Assumptions C85_decreasing_refuted.

(** Only the first spacing of the constraint grid enters: on the grids 0, 1, 2
    and 0, 1, 5 the same observed density gets the same mass, though its
    integral (trapezoidal rule) differs. *)
Fixpoint trapezoid (xs fs : list R) : R :=
  match xs, fs with
  | x0 :: (x1 :: _) as xs', f0 :: (f1 :: _) as fs' => (x1 - x0) * (f0 + f1) / 2 + trapezoid xs' fs'
  | _, _ => 0
  end.
Theorem C85_spacing_refuted : exists xs ys f cgrid cgrid' target obs pdf pdf',
  fit_linear xs ys = Some f /\ posterior_pdf f cgrid target obs (nth 1 cgrid 0 - nth 0 cgrid 0) = Some pdf /\
  posterior_pdf f cgrid' target obs (nth 1 cgrid' 0 - nth 0 cgrid' 0) = Some pdf' /\
  total pdf = total pdf' /\ trapezoid cgrid obs = 2 /\ trapezoid cgrid' obs = 5.
Proof.
  pose proof (fit_kept _ _ _ kept_e ltac:(discriminate)) as H. destruct fit_e as (_ & _ & Z).
  pose proof (posterior_joint xs_e xs_e _ [0; 1; 2] [0; 5] [1; 1; 1] (1 - 0) H ltac:(discriminate) eq_refl ltac:(discriminate)) as E.
  pose proof (posterior_joint xs_e xs_e _ [0; 1; 5] [0; 5] [1; 1; 1] (1 - 0) H ltac:(discriminate) eq_refl ltac:(discriminate)) as E'.
  exists xs_e, xs_e, (fit_of ps_e), [0; 1; 2], [0; 1; 5], [0; 5], [1; 1; 1]. do 2 eexists. split; [auto|]. split; [exact E|]. split; [exact E'|]. split.
  - rewrite (C85_mass xs_e xs_e _ [0; 1; 2] [0; 5] [1; 1; 1] (1 - 0) _ H Z ltac:(discriminate) ltac:(discriminate) eq_refl E).
    rewrite (C85_mass xs_e xs_e _ [0; 1; 5] [0; 5] [1; 1; 1] (1 - 0) _ H Z ltac:(discriminate) ltac:(discriminate) eq_refl E'). auto.
  - cbn. split; field.
Qed.
Print Assumptions C85_spacing_refuted.
