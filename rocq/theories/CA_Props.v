(** C46, C47, C48: skyborn.calc.calculations. *)
From Coq Require Import Lia Arith ZArith List Bool Reals Lra QArith Qcanon Permutation Sorted SpecFloat.
From Verif Require Import Base SH_Model TP_Model CA_Model CA_Spec CA_Proofs CA_Proofs2 CA_Proofs3 CA_Proofs4.
Import ListNotations.
Local Close Scope Qc_scope.
Local Open Scope nat_scope.

(** A three-dimensional array of [n] times and d1 x d2 grid points. *)
Definition is_3d (A : ol) (data : array A) (n d1 d2 : nat) : Prop :=
  a_shape data = [n; d1; d2] /\ length (a_data data) = n * (d1 * d2).
Definition arr (shape : list nat) (data : list (option R)) : array RO := @Build_array RO shape data.
(** The pairs of values present both in the predictor and at grid point [j]. *)
Definition pairs_at (data : array RO) (predictor : list (option R)) (n d1 d2 j : nat) : list (R * R) :=
  present predictor (series None n (d1 * d2) j (a_data data)).

Lemma nth_map_seq : forall X (f : nat -> X) n j d, j < n -> nth j (map f (seq 0 n)) d = f j.
Proof.
  intros X f n j d H. rewrite (nth_indep _ d (f 0)) by (rewrite map_length, seq_length; exact H).
  rewrite (map_nth f), seq_nth by exact H. reflexivity.
Qed.

(** ** C46 spatial_correlation *)
Section Corr.
Variable tcdf : R -> Z -> option R.
Notation corr := (spatial_correlation RO tcdf).

(** At every grid point: Pearson's correlation of exactly the pairs present in
    both series, undefined (NaN) when one of them is constant, or when a value is
    missing anywhere in the input and fewer than three pairs are present. *)
Theorem C46_value : forall data predictor n d1 d2, is_3d RO data n d1 d2 -> length predictor = n ->
  exists res, corr data predictor = Some res /\ length res = d1 * d2 /\
    forall j, j < d1 * d2 ->
      let l := pairs_at data predictor n d1 d2 j in
      fst (nth j res (None, None))
      = if (any_nan (a_data data) || any_nan predictor) && (length l <? 3) then None else pearson l.
Proof.
  intros data predictor n d1 d2 [Hs Hl] Hn. eexists. split; [apply (spatial_result tcdf data predictor n d1 d2 Hs Hl Hn)|].
  split; [apply map_seq_len|]. intros j Hj l.
  rewrite nth_map_seq by exact Hj. cbv zeta.
  change (present predictor (series None n (d1 * d2) j (a_data data))) with l. unfold has_nan.
  destruct ((any_nan (a_data data) || any_nan predictor) && (length l <? 3))%bool.
  - reflexivity.
  - unfold result. destruct (pearson l); reflexivity.
Qed.

(** Every correlation lies between -1 and 1, and its p-value is
    2*(1 - F(|t|)) with t = r*sqrt((m-2)/(1-r^2)), m the number of pairs and F
    Student's distribution with m-2 degrees of freedom, or 0 when |r| = 1. *)
Theorem C46_range : forall data predictor n d1 d2 res j r p, is_3d RO data n d1 d2 -> length predictor = n ->
  corr data predictor = Some res -> j < d1 * d2 -> nth j res (None, None) = (Some r, p) ->
  (-1 <= r <= 1)%R /\
  let m := length (pairs_at data predictor n d1 d2 j) in
  (((Rabs r < 1)%R /\ p = option_map (fun c => 2 * (1 - c))%R
      (tcdf (Rabs (r * R_sqrt.sqrt ((INR m - 2) / (1 - r * r))))%R (Z.of_nat m - 2)%Z))
   \/ (Rabs r = 1%R /\ p = Some 0%R)).
Proof.
  intros data predictor n d1 d2 res j r p [Hs Hl] Hn E Hj Ep.
  rewrite (spatial_result tcdf data predictor n d1 d2 Hs Hl Hn) in E. injection E as <-.
  rewrite nth_map_seq in Ep by exact Hj. cbv zeta in Ep.
  change (pairs_at data predictor n d1 d2 j) with (present predictor (series None n (d1 * d2) j (a_data data))).
  set (l := present predictor (series None n (d1 * d2) j (a_data data))).
  assert (Ep' : (if has_nan data predictor && (length l <? 3) then (None, None) else result tcdf l) = (Some r, p)) by exact Ep.
  clear Ep. rename Ep' into Ep. clearbody l.
  destruct (has_nan data predictor && (length l <? 3))%bool; [discriminate Ep|].
  unfold result in Ep. destruct (pearson l) as [r'|] eqn:Er; [|discriminate]. injection Ep as -> <-.
  pose proof (pearson_range l r Er) as B. split; [exact B|]. unfold pval. cbv zeta.
  destruct (Rlt_dec (Rabs r) 1) as [H|H]; [left; split; [exact H|reflexivity]|right; split; [|reflexivity]].
  assert (Rabs r <= 1)%R by (apply Rabs_le; lra). lra.
Qed.

(** Positive affine changes of both variables leave all results unchanged. *)
Theorem C46_affine_invariance : forall data (predictor : list (option R)) n d1 d2 a b c d, is_3d RO data n d1 d2 -> length predictor = n ->
  (0 < a)%R -> (0 < c)%R ->
  corr (arr (a_shape data) (scale_cells c d (a_data data))) (scale_cells a b predictor)
  = corr data predictor.
Proof.
  intros data predictor n d1 d2 a b c d [Hs Hl] Hn Ha Hc.
  rewrite (spatial_result tcdf data predictor n d1 d2 Hs Hl Hn).
  rewrite (spatial_result tcdf (arr (a_shape data) (scale_cells c d (a_data data))) (scale_cells a b predictor) n d1 d2);
    [|exact Hs|unfold arr; cbn [a_data]; unfold scale_cells; rewrite map_length; exact Hl|unfold scale_cells; rewrite map_length; exact Hn].
  f_equal. apply map_ext. intro j. cbv zeta. unfold has_nan, arr. cbn [a_data].
  assert (E1 : any_nan (scale_cells c d (a_data data)) = any_nan (a_data data)) by apply any_nan_scale.
  assert (E2 : any_nan (scale_cells a b predictor) = any_nan predictor) by apply any_nan_scale.
  assert (E3 : present (scale_cells a b predictor) (series None n (d1 * d2) j (scale_cells c d (a_data data)))
     = map (affine a b c d) (present predictor (series None n (d1 * d2) j (a_data data)))).
  { rewrite (series_scale c d n (d1 * d2) j (a_data data)). apply present_scale. }
  change (T (obase RO)) with R in *. rewrite E1, E2, E3, map_length.
  destruct (_ && _)%bool; [reflexivity|]. unfold result. rewrite map_length, pearson_affine by assumption. reflexivity.
Qed.
(** Reversing the sign of one variable reverses the sign of the correlation;
    exchanging the roles of the two series changes nothing. *)
Theorem C46_sign_and_symmetry : forall l a b c d, (0 < a)%R -> (c < 0)%R ->
  pearson (map (affine a b c d) l) = option_map Ropp (pearson l) /\
  pearson (map (fun e => (snd e, fst e)) l) = pearson l.
Proof. intros l a b c d Ha Hc. split; [apply pearson_negate; assumption|apply pearson_swap]. Qed.

(** With at least three common time steps the result at a grid point depends on
    nothing else: not on other grid points, not on values whose partner is
    missing. *)
Theorem C46_only_common_times : forall data data' predictor predictor' n d1 d2 d1' d2' j j' res res',
  is_3d RO data n d1 d2 -> is_3d RO data' n d1' d2' -> length predictor = n -> length predictor' = n ->
  j < d1 * d2 -> j' < d1' * d2' ->
  pairs_at data predictor n d1 d2 j = pairs_at data' predictor' n d1' d2' j' ->
  3 <= length (pairs_at data predictor n d1 d2 j) ->
  corr data predictor = Some res -> corr data' predictor' = Some res' ->
  fst (nth j res (None, None)) = fst (nth j' res' (None, None)).
Proof.
  intros data data' predictor predictor' n d1 d2 d1' d2' j j' res res' W W' Hn Hn' Hj Hj' E H3 R1 R2.
  destruct (C46_value data predictor n d1 d2 W Hn) as (r1 & Q1 & _ & V1). rewrite R1 in Q1. injection Q1 as <-.
  destruct (C46_value data' predictor' n d1' d2' W' Hn') as (r2 & Q2 & _ & V2). rewrite R2 in Q2. injection Q2 as <-.
  rewrite (V1 j Hj), (V2 j' Hj'), <- E. cbv zeta.
  destruct (Nat.ltb_spec (length (pairs_at data predictor n d1 d2 j)) 3); [lia|].
  rewrite !andb_false_r. reflexivity.
Qed.
(** Exactly linear data give correlation 1. *)
Theorem C46_linear_data : forall data predictor n d1 d2 j a b xs res, is_3d RO data n d1 d2 -> length predictor = n ->
  j < d1 * d2 -> (0 < a)%R -> pairs_at data predictor n d1 d2 j = map (fun v => (v, a * v + b)%R) xs ->
  3 <= length xs -> (0 < Sxx (pairs_at data predictor n d1 d2 j))%R ->
  corr data predictor = Some res -> fst (nth j res (None, None)) = Some 1%R.
Proof.
  intros data predictor n d1 d2 j a b xs res W Hn Hj Ha E H3 Hx R1.
  destruct (C46_value data predictor n d1 d2 W Hn) as (r1 & Q1 & _ & V1). rewrite R1 in Q1. injection Q1 as <-.
  rewrite (V1 j Hj). cbv zeta.
  destruct (Nat.ltb_spec (length (pairs_at data predictor n d1 d2 j)) 3); [rewrite E, map_length in *; lia|].
  rewrite andb_false_r. apply (pearson_linear a b xs); assumption.
Qed.
(** Exceptions: exactly a length mismatch or an array that is not 3-D. *)
Theorem C46_raises : forall data predictor,
  corr data predictor = None <-> (a_len RO data <> length predictor \/ length (a_shape data) <> 3).
Proof.
  intros data predictor. unfold spatial_correlation.
  destruct (Nat.eqb_spec (a_len RO data) (length predictor)) as [H|H]; cbn [negb]; [|tauto].
  destruct (a_shape data) as [|n [|d1 [|d2 [|? ?]]]]; cbn [length]; split; try discriminate; intros; try (right; lia); try reflexivity.
  destruct H0; [contradiction|lia].
Qed.
End Corr.

(** pearson_correlation is Pearson's correlation of the flattened arrays. *)
Theorem C46_pearson_correlation : forall x y : list R, length x = length y ->
  pearson_correlation RO x y = Some (pearson (combine x y)).
Proof. exact pearson_correlation_result. Qed.

(** A rational square root (exact on squares), to run examples. *)
Definition qsq (q : Qc) : Qc := Q2Qc (Z.sqrt (Qnum q) # Z.to_pos (Z.sqrt (Z.pos (Qden q)))).
Definition QX : ol := QO qsq.
Definition qcells (l : list (option Z)) : list (option Qc) := map (option_map qz) l.
Definition show (r : option (list (option Qc * option Qc))) : option (list (option Q)) :=
  option_map (map (fun c => option_map this (fst c))) r.
Definition qarr (shape : list nat) (data : list (option Qc)) : array QX := @Build_array QX shape data.
Definition no_p (_ : Qc) (_ : Z) : option Qc := None.
(** Two grid points, four times; the second misses one value: r = 1 and r = -1. *)
Example C46_example :
  is_3d QX (qarr [4; 1; 2] (qcells [Some 1; Some 9; Some 3; Some 7; Some 5; None; Some 7; Some 3]%Z)) 4 1 2 /\
  show (spatial_correlation QX no_p
    (qarr [4; 1; 2] (qcells [Some 1; Some 9; Some 3; Some 7; Some 5; None; Some 7; Some 3]%Z))
    (qcells [Some 0; Some 1; Some 2; Some 3]%Z)) = Some [Some 1%Q; Some (-1)%Q].
Proof. vm_compute. repeat split; reflexivity. Qed.

(** With fewer than three common times the result at a grid point does depend on
    whether a value is missing at another grid point. *)
Theorem C46_independent_of_other_points_refuted : exists (d d' : array QX) predictor,
  is_3d QX d 2 1 2 /\ is_3d QX d' 2 1 2 /\
  series None 2 2 0 (a_data d) = series None 2 2 0 (a_data d') /\
  option_map (fun l => nth 0 l None) (show (spatial_correlation QX no_p d predictor)) = Some (Some 1%Q) /\
  option_map (fun l => nth 0 l None) (show (spatial_correlation QX no_p d' predictor)) = Some None.
Proof.
  exists (qarr [2; 1; 2] (qcells [Some 1; Some 9; Some 3; Some 7]%Z)),
         (qarr [2; 1; 2] (qcells [Some 1; Some 9; Some 3; None]%Z)), (qcells [Some 0; Some 1]%Z).
  vm_compute. repeat split; reflexivity.
Qed.

(** ** C47 linear_regression *)
Section Regr.
Variable lstsq : list (R * R) -> list R -> option (R * R).
Hypothesis LS : lstsq_contract lstsq.
Variable freg : list (list R) -> list R -> option (list (option R)).
Hypothesis FR : forall cols x ps, freg cols x = Some ps -> length ps = length cols.
Notation linreg := (linear_regression RO lstsq freg).

(** Complete predictor: at every grid point without missing values the slope,
    with a suitable intercept, minimises the sum of squared residuals; grid points
    with a missing value get NaN. *)
Theorem C47_least_squares : forall data predictor n d1 d2 res, is_3d RO data n d1 d2 ->
  any_nan predictor = false -> o_result (linreg data predictor) = Some res ->
  length res = d1 * d2 /\
  forall j, j < d1 * d2 ->
    if any_nan (series None n (d1 * d2) j (a_data data)) then fst (nth j res (None, None)) = None
    else exists a b, fst (nth j res (None, None)) = Some a /\ minimises (pairs_at data predictor n d1 d2 j) a b.
Proof.
  intros data predictor n d1 d2 res [Hs Hl] Hp E.
  destruct (linreg_slopes lstsq freg data predictor n d1 d2 res Hs Hl FR E) as (Hn & Lr & V). split; [exact Lr|].
  intros j Hj. destruct (V j Hj) as ([a b] & E1 & E2).
  assert (E3 : fst (nth j res (None, None)) = (if any_nan (series None n (d1 * d2) j (a_data data) : list (option (T RO))) then None else Some a)) by exact E2.
  clear E2. rename E3 into E2.
  destruct (any_nan (series None n (d1 * d2) j (a_data data) : list (option (T RO)))) eqn:EN; [exact E2|].
  exists a, b. split; [exact E2|]. apply LS in E1; [|rewrite !zeroed_length, series_length; exact Hn].
  destruct E1 as [M _]. unfold pairs_at.
  pose proof (any_nan_zeroed predictor Hp) as Z1. pose proof (any_nan_zeroed _ EN) as Z2.
  assert (Q : present predictor (series None n (d1 * d2) j (a_data data))
     = combine (zeroed RO predictor) (zeroed RO (series None n (d1 * d2) j (a_data data)))).
  { rewrite Z1 at 1. rewrite Z2 at 1. apply present_some. }
  change (T (obase RO)) with R in *. rewrite Q. exact M.
Qed.
(** When the predictor is not constant this determines the slope. *)
Theorem C47_slope : forall data predictor n d1 d2 res j, is_3d RO data n d1 d2 ->
  any_nan predictor = false -> o_result (linreg data predictor) = Some res -> j < d1 * d2 ->
  any_nan (series None n (d1 * d2) j (a_data data)) = false ->
  let l := pairs_at data predictor n d1 d2 j in
  (0 < Sxx l)%R -> fst (nth j res (None, None)) = Some (Sxy l / Sxx l)%R.
Proof.
  intros data predictor n d1 d2 res j W Hp E Hj EN l Hx.
  destruct (C47_least_squares data predictor n d1 d2 res W Hp E) as [_ V]. specialize (V j Hj). rewrite EN in V.
  destruct V as (a & b & E1 & M). rewrite E1. f_equal. exact (proj1 (minimiser_unique l a b Hx M)).
Qed.
(** A constant predictor c: the slope is c*mean/(c^2+1), not NaN and not zero. *)
Theorem C47_constant_predictor : forall data c n d1 d2 res j, is_3d RO data n d1 d2 -> 0 < n ->
  o_result (linreg data (repeat (Some c) n)) = Some res -> j < d1 * d2 ->
  any_nan (series None n (d1 * d2) j (a_data data)) = false ->
  let m := mean_y (pairs_at data (repeat (Some c) n) n d1 d2 j) in
  fst (nth j res (None, None)) = Some (c * m / (c * c + 1))%R.
Proof.
  intros data c n d1 d2 res j [Hs Hl] Hn0 E Hj EN m.
  destruct (linreg_slopes lstsq freg data (repeat (Some c) n) n d1 d2 res Hs Hl FR E) as (Hn & Lr & V).
  destruct (V j Hj) as ([a b] & E1 & E2). change (T (obase RO)) with R in *. rewrite EN in E2. rewrite E2. f_equal. cbn [fst].
  apply LS in E1; [|rewrite !zeroed_length, series_length; exact Hn].
  assert (Z1 : zeroed RO (repeat (Some c) n) = repeat c n) by (clear; induction n; cbn; [reflexivity|f_equal; assumption]).
  pose proof (any_nan_zeroed _ EN) as Z2.
  set (ys := zeroed RO (series None n (d1 * d2) j (a_data data))) in *.
  assert (Lys : length ys = n) by (unfold ys; rewrite zeroed_length; apply series_length).
  assert (Q : pairs_at data (repeat (Some c) n) n d1 d2 j = combine (repeat c n) ys).
  { assert (Z0 : repeat (Some c) n = map Some (repeat c n)) by (clear; induction n; cbn; [reflexivity|f_equal; assumption]).
    refine (eq_trans _ (present_some (repeat c n) ys)). unfold pairs_at. rewrite Z0. f_equal. exact Z2. }
  change (T (obase RO)) with R in *. rewrite Z1 in E1. unfold m. rewrite Q. set (l := combine (repeat c n) ys) in *.
  assert (Hne : l <> []).
  { unfold l. destruct n; [lia|]. destruct ys; [cbn in Lys; lia|]. discriminate. }
  assert (Hc : forall e, In e l -> fst e = c).
  { intros [u v] He. unfold l in He. apply in_combine_l in He. apply repeat_spec in He. exact He. }
  assert (Mc : mean_x l = c).
  { unfold mean_x. rewrite (total_ext fst (fun _ => c)) by exact Hc. rewrite total_const. pose proof (INR_len l Hne). field. lra. }
  assert (Sz : Sxx l = 0%R).
  { unfold Sxx. rewrite (total_ext _ (fun _ => 0%R)); [rewrite total_const; ring|]. intros e He. rewrite (Hc e He), Mc. ring. }
  destruct E1 as [M Mn].
  apply (minimiser_const l a b Hne Sz) in M. rewrite Mc in M.
  refine (proj1 (min_norm_line c (mean_y l) a b M _)).
  intros a' b' H'. apply Mn. apply (minimiser_const l a' b' Hne Sz). rewrite Mc. exact H'.
Qed.

(** The caller's array: unchanged by a normal return, and by any call when the
    data have no missing value; otherwise, after an exception, either unchanged or
    with zeros in place of the missing values. *)
Theorem C47_input_unchanged : forall data predictor,
  (o_result (linreg data predictor) <> None \/ any_nan (a_data data) = false) -> o_data (linreg data predictor) = a_data data.
Proof.
  intros data predictor H. destruct (linreg_data lstsq freg data predictor) as [E|[E1 E2]]; [exact E|].
  destruct H as [H|H]; [contradiction|]. rewrite E2. apply fill0_id. exact H.
Qed.
Theorem C47_input_after_exception : forall data predictor,
  o_data (linreg data predictor) = a_data data \/
  (o_result (linreg data predictor) = None /\
   o_data (linreg data predictor) = map (fun c => match c with Some v => Some v | None => Some 0%R end) (a_data data)).
Proof. exact (linreg_data lstsq freg). Qed.
End Regr.
(** The assumption on lstsq is met by an explicit solver. *)
Example C47_contract_satisfiable : exists f, lstsq_contract f. Proof. exists solve. exact solve_contract. Qed.
Example C47_example : is_3d RO (arr [3; 1; 2] [Some 1; Some 2; Some 3; None; Some 5; Some 0]%R) 3 1 2 /\
  (0 < Sxx (pairs_at (arr [3; 1; 2]%nat [Some 1; Some 2; Some 3; None; Some 5; Some 0]%R)
     [Some 0; Some 1; Some 2]%R 3%nat 1%nat 2%nat 0%nat))%R /\
  exists res, o_result (linear_regression RO solve (fun cols _ => Some (map (fun _ => Some 0%R) cols))
    (arr [3; 1; 2] [Some 1; Some 2; Some 3; None; Some 5; Some 0]%R) [Some 0; Some 1; Some 2]%R) = Some res.
Proof.
  split; [split; reflexivity|]. split.
  - assert (E : pairs_at (arr [3; 1; 2] [Some 1; Some 2; Some 3; None; Some 5; Some 0]%R)
       [Some 0; Some 1; Some 2]%R 3 1 2 0 = [(0, 1); (1, 3); (2, 5)]%R) by reflexivity.
    rewrite E. unfold Sxx, mean_x. rewrite !total_cons, !total_nil. cbn [length fst INR]. lra.
  - unfold linear_regression. cbn -[solve].
    unfold solve. repeat match goal with |- context [Rlt_dec ?a ?b] => destruct (Rlt_dec a b) end; eexists; reflexivity.
Qed.

(** Findings.  A NaN in a 2-D array: ValueError from unpacking the shape after
    the NaNs have been overwritten with zeros in the caller's array. *)
Theorem C47_input_unchanged_refuted : forall lstsq freg, exists data predictor,
  o_result (linear_regression RO lstsq freg data predictor) = None /\
  o_data (linear_regression RO lstsq freg data predictor) <> a_data data.
Proof.
  intros lstsq freg. exists (arr [2; 1] [Some 1; None]%R), [Some 0; Some 1]%R.
  split; [reflexivity|]. cbn. intro H. discriminate.
Qed.
(** A missing predictor value is replaced by zero instead of being skipped, so the
    slope is not the least-squares slope of the observations present. *)
Theorem C47_missing_predictor_refuted : exists data predictor res l,
  is_3d RO data 3 1 1 /\ l = pairs_at data predictor 3 1 1 0 /\ (0 < Sxx l)%R /\
  o_result (linear_regression RO solve (fun cols _ => Some (map (fun _ => Some 0%R) cols)) data predictor) = Some res /\
  fst (nth 0 res (None, None)) <> None /\ fst (nth 0 res (None, None)) <> Some (Sxy l / Sxx l)%R.
Proof.
  set (data := arr [3; 1; 1] [Some 1; Some 2; Some 3]%R).
  set (predictor := [Some 1; Some 2; None]%R).
  assert (W : is_3d RO data 3 1 1) by (split; reflexivity).
  assert (X : exists res, o_result (linear_regression RO solve (fun cols _ => Some (map (fun _ => Some 0%R) cols)) data predictor) = Some res).
  { unfold linear_regression. cbn -[solve]. unfold solve. repeat match goal with |- context [Rlt_dec ?a ?b] => destruct (Rlt_dec a b) end; eexists; reflexivity. }
  destruct X as [res Er]. exists data, predictor, res, [(1, 1); (2, 2)]%R.
  split; [exact W|]. split; [reflexivity|].
  assert (S1 : Sxx [(1, 1); (2, 2)]%R = (/ 2)%R).
  { unfold Sxx, mean_x. rewrite !total_cons, !total_nil. cbn [length fst INR]. field. }
  assert (S2 : Sxy [(1, 1); (2, 2)]%R = (/ 2)%R).
  { unfold Sxy, mean_x, mean_y. rewrite !total_cons, !total_nil. cbn [length fst snd INR]. field. }
  split; [rewrite S1; lra|]. split; [exact Er|].
  destruct W as [Hs Hl].
  destruct (linreg_slopes solve (fun cols _ => Some (map (fun _ => Some 0%R) cols)) data predictor 3 1 1 res Hs Hl
     ltac:(intros cols x ps E; injection E as <-; apply map_length) Er) as (_ & _ & V).
  destruct (V 0 ltac:(lia)) as (ab & E1 & E2). change (series None 3 (1 * 1) 0 (a_data data)) with [Some 1; Some 2; Some 3]%R in E1, E2.
  assert (E3 : fst (nth 0 res (None, None)) = Some (fst ab)) by exact E2.
  rewrite E3. split; [discriminate|]. intro H. injection H as H. rewrite S1, S2 in H.
  assert (E1' : solve [(1, 1); (2, 1); (0, 1)]%R [1; 2; 3]%R = Some ab) by exact E1.
  unfold solve in E1'. cbn [map fst combine] in E1'.
  assert (T1 : Sxx [(1, 1); (2, 2); (0, 3)]%R = 2%R).
  { unfold Sxx, mean_x. rewrite !total_cons, !total_nil. cbn [length fst INR]. field. }
  assert (T2 : Sxy [(1, 1); (2, 2); (0, 3)]%R = (-1)%R).
  { unfold Sxy, mean_x, mean_y. rewrite !total_cons, !total_nil. cbn [length fst snd INR]. field. }
  rewrite T1, T2 in E1'. destruct (Rlt_dec 0 2); [|lra]. injection E1' as E1'. rewrite <- E1' in H. cbn [fst] in H. lra.
Qed.

(** ** C48 convert_longitude_range *)
(** Each longitude is replaced by an equivalent one in [0, 360) (center_on_180)
    or [-180, 180) (otherwise); the slices keep their longitude; the result is in
    ascending order. *)
Theorem C48_wrap : forall (X : Type) b (l : list (Qc * X)),
  Permutation (map (fun e => (wrap_lon b (fst e), snd e)) l) (convert_longitude_range b l) /\
  ascending (convert_longitude_range b l) /\
  (forall x, same_meridian x (wrap_lon b x)) /\
  (forall x, if b then (qz 0 <= wrap_lon b x /\ wrap_lon b x < qz 360)%Qc
             else (qz (-180) <= wrap_lon b x /\ wrap_lon b x < qz 180)%Qc).
Proof.
  intros X b l. split; [apply sortby_perm|]. split; [apply sortby_sorted|]. split.
  - intro x. apply wrap_mod.
  - intro x. destruct (wrap_range b x) as [L U]. destruct b; unfold lower in *.
    + rewrite qz_0. replace (0 + qz 360)%Qc with (qz 360) in U by ring. split; assumption.
    + rewrite <- qz_add in U. split; assumption.
Qed.
(** Slices that share a meridian keep their order. *)
Theorem C48_stable : forall (X : Type) b (l : list (Qc * X)) k,
  filter (fun e => Qceqb (fst e) k) (convert_longitude_range b l)
  = filter (fun e => Qceqb (fst e) k) (map (fun e => (wrap_lon b (fst e), snd e)) l).
Proof. intros X b l k. apply sortby_key. Qed.
(** Idempotent, and either direction undoes the other. *)
Theorem C48_idempotent_and_inverse : forall (X : Type) b b' (l : list (Qc * X)),
  convert_longitude_range b (convert_longitude_range b l) = convert_longitude_range b l /\
  convert_longitude_range b (convert_longitude_range b' l) = convert_longitude_range b l /\
  (ascending l -> (forall e, In e l -> wrap_lon b (fst e) = fst e) ->
   convert_longitude_range b (convert_longitude_range b' l) = l).
Proof.
  intros X b b' l. split; [apply convert_convert|]. split; [apply convert_convert|].
  intros Hs Hw. rewrite convert_convert. unfold convert_longitude_range.
  assert (E : map (fun e => (wrap_lon b (fst e), snd e)) l = l).
  { rewrite <- (map_id l) at 2. apply map_ext_in. intros [x v] He. cbn. f_equal. exact (Hw _ He). }
  rewrite E. apply sortby_id. exact Hs.
Qed.
Example C48_example :
  map (fun e => (this (fst e), snd e)) (convert_longitude_range false [(qz 0, 1); (qz 90, 2); (qz 180, 3); (qz 270, 4)])
  = [(-180 # 1, 3%nat); (-90 # 1, 4%nat); (0 # 1, 1%nat); (90 # 1, 2%nat)]%Q /\
  map (fun e => (this (fst e), snd e)) (convert_longitude_range true [(qz (-180), 3); (qz (-90), 4); (qz 0, 1); (qz 90, 2)])
  = [(0 # 1, 1%nat); (90 # 1, 2%nat); (180 # 1, 3%nat); (270 # 1, 4%nat)]%Q.
Proof. vm_compute. split; reflexivity. Qed.
(** The documentation says that center_on_180 gives -180..179: it does not. *)
Theorem C48_documented_range_refuted : exists x, ~ (wrap_lon true x < qz 180)%Qc /\ ~ (qz 0 <= wrap_lon false x)%Qc.
Proof. exists (qz 270). vm_compute. split; [discriminate|intro H; apply H; reflexivity]. Qed.
(** In double precision the half-open range fails: a tiny negative longitude is
    sent to 360 itself, which a second application sends to 0. *)
Definition f360 : spec_float := S754_finite false 6333186975989760 (-44).
Theorem C48_double_range_refuted : exists x,
  valid_binary 53 1024 x = true /\ SFcompare x (S754_zero false) = Some Lt /\
  SFcompare (S754_finite true 6333186975989760 (-44)) x = Some Lt /\
  mod64 x f360 = f360.
Proof. exists (S754_finite true 4503599627370496 (-122)). vm_compute. repeat split; reflexivity. Qed.

Print Assumptions C46_value.
Print Assumptions C46_range.
Print Assumptions C46_affine_invariance.
Print Assumptions C46_sign_and_symmetry.
Print Assumptions C46_only_common_times.
Print Assumptions C46_linear_data.
Print Assumptions C46_raises.
Print Assumptions C46_pearson_correlation.
Print Assumptions C46_independent_of_other_points_refuted.
Print Assumptions C47_least_squares.
Print Assumptions C47_slope.
Print Assumptions C47_constant_predictor.
Print Assumptions C47_input_unchanged.
Print Assumptions C47_input_after_exception.
Print Assumptions C47_input_unchanged_refuted.
Print Assumptions C47_missing_predictor_refuted.
Print Assumptions C48_wrap.
Print Assumptions C48_stable.
Print Assumptions C48_idempotent_and_inverse.
Print Assumptions C48_documented_range_refuted.
Print Assumptions C48_double_range_refuted.
