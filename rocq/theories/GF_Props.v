(** Grid filler: the property theorems (C14-C19, C21), examples and refutations. *)
From Verif Require Import Base Loops GF_Model GF_Spec GF_Proofs1 GF_Proofs2 GF_Proofs3.
Local Open Scope nat_scope.

(** ** Demonstration data *)
Definition gof (l : list (list Z)) : qgrid := fun i j => qz (nth j (nth i l []) 0%Z).
Definition mof (l : list (list Z)) : mask_t := fun i j => nth j (nth i l []) 0%Z.
Definition bof (l : list (list Z)) : nat -> nat -> nat -> bool := fun i j _ => negb (nth j (nth i l []) 0 =? 0)%Z.
Definition grid_list (nlat nlon : nat) (g : qgrid) : list (list Q) :=
  map (fun i => map (fun j => this (g i j)) (seq 0 nlon)) (seq 0 nlat).
Definition demo_g := gof [[1; 2; 3; 4]; [5; 99; 99; 8]; [9; 10; 99; 12]]%Z.
Definition demo_m := [[0; 0; 0; 0]; [0; 1; 1; 0]; [0; 0; 1; 0]]%Z.
Definition demo_P (mode : init_mode) (cyc : bool) (itermax : nat) : params QcA :=
  Build_params QcA (Q2Qc (3 # 5)) (Q2Qc (1 # 100)) itermax cyc mode 0%Qc.

(** For concrete runs: the result of fill_prepared, destructured. *)
Definition out_of {A} (r : option (stack_t A * (nat -> bool))) : stack_t A :=
  match r with Some (o, _) => o | None => fun _ _ _ => a0 A end.
Definition conv_of {A} (r : option (stack_t A * (nat -> bool))) : nat -> bool :=
  match r with Some (_, c) => c | None => fun _ => false end.
Lemma fill_runs (A : arith) P data mk nlat nlon ngrid ni0 rm0 :
  (nlat <? 3) || (nlon <? 3) = false ->
  let r := fill_prepared A P data mk nlat nlon ngrid ni0 rm0 in r = Some (out_of r, conv_of r).
Proof.
  intros H. cbv zeta. unfold fill_prepared, poisson_fill_grids. rewrite H.
  match goal with |- context [fold_left ?f ?l ?x] => destruct (fold_left f l x) as [[gs' ni] rm] end. reflexivity.
Qed.

(** ** C14: observed values are never changed (any arithmetic) *)
Theorem fill_never_changes_observed :
  forall (A : arith) P data mk nlat nlon ngrid ni0 rm0 out conv i j k,
  fill_prepared A P data mk nlat nlon ngrid ni0 rm0 = Some (out, conv) ->
  mk i j k = false -> out i j k = data i j k.
Proof. exact fill_keeps_observed. Qed.
Print Assumptions fill_never_changes_observed.

(** ... and not at any intermediate iteration either. *)
Theorem iteration_never_changes_observed :
  forall (A : arith) m nlat nlon mode cyc v rc n g i j,
  2 <= nlon -> masked m i j = false ->
  sweeps A n m nlat nlon cyc rc (initialize_missing A m nlat nlon mode cyc v g) i j = g i j.
Proof. intros. rewrite sweeps_keeps by auto. apply init_keeps; auto. Qed.
Print Assumptions iteration_never_changes_observed.

Definition demo_fill mode cyc itermax :=
  fill_prepared QcA (demo_P mode cyc itermax) (fun i j _ => demo_g i j) (bof demo_m) 3 4 1 (fun _ => 0) (fun _ => 0%Qc).
Definition fill_list (r : option (stack_t QcA * (nat -> bool))) : option (list (list Q) * bool) :=
  match r with Some (o, c) => Some (grid_list 3 4 (fun i j => o i j 0), c 0) | None => None end.
Example demo_fill_runs :
  fill_list (demo_fill InitZonalLinear true 2) =
  Some ([[1; 2; 3; 4]; [5; 91949 # 16000; 2091061 # 320000; 8]; [9; 10; 28703423 # 3200000; 12]], false)%Q
  /\ bof demo_m 1 0 0 = false /\ bof demo_m 1 1 0 = true.
Proof. vm_compute. repeat split. Qed.

(** ** C15: the stencil stays inside, wraps and mirrors *)
Theorem stencil_indices :
  forall cyc nlat nlon i j, 2 <= nlat -> 2 <= nlon -> i < nlat -> j < nlon ->
  let '(im1, ip1) := latitude_indices i nlat in
  let '(jm1, jp1) := longitude_indices j nlon cyc in
  (im1 < nlat /\ ip1 < nlat /\ jm1 < nlon /\ jp1 < nlon) /\
  Z.of_nat im1 = mirror nlat (Z.of_nat i - 1) /\ Z.of_nat ip1 = mirror nlat (Z.of_nat i + 1) /\
  Z.of_nat jm1 = (if cyc then (Z.of_nat j - 1) mod Z.of_nat nlon else mirror nlon (Z.of_nat j - 1))%Z /\
  Z.of_nat jp1 = (if cyc then (Z.of_nat j + 1) mod Z.of_nat nlon else mirror nlon (Z.of_nat j + 1))%Z.
Proof.
  intros cyc nlat nlon i j H1 H2 Hi Hj.
  pose proof (latitude_indices_spec i nlat H1 Hi) as L. destruct (latitude_indices i nlat) as [im1 ip1].
  destruct cyc.
  - pose proof (longitude_indices_cyclic j nlon H2 Hj) as C. destruct (longitude_indices j nlon true). tauto.
  - rewrite longitude_indices_mirror. pose proof (latitude_indices_spec j nlon H2 Hj) as C.
    destruct (latitude_indices j nlon). tauto.
Qed.
Print Assumptions stencil_indices.
Example stencil_demo : latitude_indices 0 3 = (1, 1) /\ latitude_indices 2 3 = (1, 1) /\
  longitude_indices 0 4 true = (3, 1) /\ longitude_indices 3 4 true = (2, 0) /\ longitude_indices 3 4 false = (2, 2).
Proof. vm_compute. repeat split. Qed.

(** The whole solver (initialisation, every sweep, the reported iteration count
    and residual) depends only on cells inside the grid: cells outside can be
    changed at will without any effect inside. *)
Theorem solver_reads_only_inside :
  forall (A : arith) (P : params A) m m' nlat nlon g h,
  2 <= nlat -> 2 <= nlon ->
  (forall i j, i < nlat -> j < nlon -> m i j = m' i j) ->
  (forall i j, i < nlat -> j < nlon -> g i j = h i j) ->
  (forall i j, i < nlat -> j < nlon ->
     fst (fst (poisson_fill A P m nlat nlon g)) i j = fst (fst (poisson_fill A P m' nlat nlon h)) i j) /\
  snd (fst (poisson_fill A P m nlat nlon g)) = snd (fst (poisson_fill A P m' nlat nlon h)) /\
  snd (poisson_fill A P m nlat nlon g) = snd (poisson_fill A P m' nlat nlon h).
Proof. exact poisson_fill_ext. Qed.
Print Assumptions solver_reads_only_inside.
Example solver_reads_only_inside_demo :
  let h := fun i j => if (i <? 3) && (j <? 4) then demo_g i j else qz 777 in
  h 3 0 <> demo_g 3 0 /\ forall i j, i < 3 -> j < 4 -> demo_g i j = h i j.
Proof.
  split.
  - intros H. apply (f_equal this) in H. vm_compute in H. discriminate.
  - intros i j Hi Hj. apply Nat.ltb_lt in Hi, Hj. cbv beta. rewrite Hi, Hj. reflexivity.
Qed.

(** ** C16: maximum principle *)
(** any number of sweeps *)
Theorem sweeps_maximum_principle :
  forall n m nlat nlon cyc rc (g : qgrid) lo hi, 2 <= nlat -> 2 <= nlon ->
  (0 <= rc)%Qc -> (rc <= 1)%Qc ->
  (forall i j, i < nlat -> j < nlon -> (lo <= g i j /\ g i j <= hi)%Qc) ->
  forall i j, i < nlat -> j < nlon ->
  (lo <= qsweeps n m nlat nlon cyc rc g i j /\ qsweeps n m nlat nlon cyc rc g i j <= hi)%Qc.
Proof. intros n m nlat nlon cyc rc g lo hi H1 H2. exact (sweeps_range m nlat nlon cyc rc H1 H2 n g lo hi). Qed.
Print Assumptions sweeps_maximum_principle.

(** fill(): the output of a slice lies between bounds of its observed values
    (and of initial_value when that is what missing cells start from). *)
Theorem fill_maximum_principle :
  forall (P : params QcA) data mk nlat nlon ngrid ni0 rm0 out conv k lo hi,
  fill_prepared QcA P data mk nlat nlon ngrid ni0 rm0 = Some (out, conv) -> k < ngrid ->
  (0 <= p_relax QcA P)%Qc -> (p_relax QcA P <= 1)%Qc ->
  (p_mode QcA P = InitConst \/
   forall i, i < nlat ->
     (p_mode QcA P = InitZonal \/ p_mode QcA P = InitZonalLinear /\ (p_cyclic QcA P = true \/ mk i 1 k = mk i (nlon - 1) k))
     /\ exists j, j < nlon /\ mk i j k = false) ->
  (forall i j, i < nlat -> j < nlon -> mk i j k = false -> (lo <= data i j k /\ data i j k <= hi)%Qc) ->
  (p_mode QcA P = InitConst -> (lo <= p_init QcA P /\ p_init QcA P <= hi)%Qc) ->
  forall i j, i < nlat -> j < nlon -> (lo <= out i j k /\ out i j k <= hi)%Qc.
Proof.
  intros P data mk nlat nlon ngrid ni0 rm0 out conv k lo hi H Hk R0 R1 Hr Ho Hv i j Hi Hj.
  unfold fill_prepared in H.
  match type of H with match ?x with _ => _ end = _ => destruct x as [[[gs' ni] rm]|] eqn:E; [|discriminate] end.
  injection H as <- _.
  assert (Hdim : 3 <= nlat /\ 3 <= nlon).
  { unfold poisson_fill_grids in E. destruct (Nat.ltb_spec nlat 3), (Nat.ltb_spec nlon 3); try discriminate; lia. }
  pose proof (fill_grids_slices QcA P _ _ _ _ _ _ _ _ _ _ E k Hk) as S0.
  set (ms := mask_slice (fun i j k => if mk i j k then 1%Z else 0%Z) k) in *.
  assert (Mk : forall a b, masked ms a b = mk a b k).
  { intros a b. unfold ms, masked, mask_slice. destruct (mk a b k); reflexivity. }
  pose proof (poisson_fill_range P ms nlat nlon
     (slice QcA (fun i j k => if mk i j k then amark QcA else data i j k) k) lo hi ltac:(lia) ltac:(lia) R0 R1) as Q.
  destruct (poisson_fill QcA P ms nlat nlon _) as [[g n] r].
  destruct S0 as (S1 & _ & _). change (gs' i j k) with (slice QcA gs' k i j). rewrite (S1 i j Hi Hj).
  apply Q; auto.
  - intros a b _ _. unfold ms, mask_slice. destruct (mk a b k); lia.
  - destruct Hr as [Hr|Hr]; [left; auto|right]. intros a Ha. destruct (Hr a Ha) as [X (b & Hb & Mb)]. split.
    + unfold row_interpolated. rewrite !Mk. exact X.
    + exists b. rewrite Mk. auto.
  - intros a b Ha Hb Mab. rewrite Mk in Mab. unfold slice. rewrite Mab. apply Ho; auto.
Qed.
Print Assumptions fill_maximum_principle.
Example fill_maximum_principle_demo :
  exists out conv, demo_fill InitZonalLinear true 50 = Some (out, conv) /\
  (forall i, i < 3 -> exists j, j < 4 /\ bof demo_m i j 0 = false) /\
  (forall i j, i < 3 -> j < 4 -> bof demo_m i j 0 = false -> (qz 1 <= demo_g i j /\ demo_g i j <= qz 12)%Qc).
Proof.
  eexists _, _. split; [apply fill_runs; reflexivity|]. split.
  - intros i Hi. exists 0. do 3 (destruct i as [|i]; [split; [lia|reflexivity]|]). lia.
  - intros i j Hi Hj. do 3 (destruct i as [|i]; [do 4 (destruct j as [|j]; [vm_compute; try discriminate; intros _; split; discriminate|]); lia|]). lia.
Qed.

(** ** C21: initial guesses lie in the range of the row *)
Theorem initial_guess_in_row_range :
  forall m nlat nlon mode cyc v (g : qgrid) i j lo hi,
  2 <= nlon -> i < nlat -> j < nlon ->
  (mode = InitZonal \/ mode = InitZonalLinear /\ (cyc = true \/ masked m i 1 = masked m i (nlon - 1))) ->
  (exists j0, j0 < nlon /\ masked m i j0 = false) ->
  (forall b, b < nlon -> masked m i b = false -> (lo <= g i b /\ g i b <= hi)%Qc) ->
  (lo <= initialize_missing QcA m nlat nlon mode cyc v g i j /\
   initialize_missing QcA m nlat nlon mode cyc v g i j <= hi)%Qc.
Proof. exact init_row_range. Qed.
Print Assumptions initial_guess_in_row_range.
Example initial_guess_demo :
  grid_list 3 4 (initialize_missing QcA (mof demo_m) 3 4 InitZonalLinear true 0%Qc demo_g)
    = [[1; 2; 3; 4]; [5; 5; 13 # 2; 8]; [9; 10; 10; 12]]%Q /\
  grid_list 3 4 (initialize_missing QcA (mof demo_m) 3 4 InitZonal true 0%Qc demo_g)
    = [[1; 2; 3; 4]; [5; 13 # 2; 13 # 2; 8]; [9; 10; 31 # 3; 12]]%Q /\
  masked (mof demo_m) 1 0 = false /\ masked (mof demo_m) 1 1 = true.
Proof. vm_compute. repeat split. Qed.

(** Exactly which zonal-linear rows fail: a non-cyclic row whose mask differs
    between column 1 and the last column is either left as it was (the 1e20
    marker) or set to initial_value. *)
Theorem zonal_linear_skipped_rows :
  forall (A : arith) m nlon v i g,
  2 <= nlon -> masked m i 1 <> masked m i (nlon - 1) ->
  (forall b, zonal_linear_row A m nlon false v i g i b = g i b) \/
  (forall b, b < nlon -> masked m i b = true -> zonal_linear_row A m nlon false v i g i b = v).
Proof. intros A m nlon v i g Hn. exact (proj2 (proj2 (zonal_linear_row_cases A m nlon false v i g Hn))). Qed.
Print Assumptions zonal_linear_skipped_rows.

(** C21 is false of the code for non-cyclic zonal-linear initialisation: the
    missing cell of a row with two observed values starts from 1e20, and after
    two sweeps fill() still returns a value above 10^18. *)
Theorem zonal_linear_noncyclic_refuted :
  exists (m : list (list Z)) (g : qgrid),
    masked (mof m) 1 0 = false /\ masked (mof m) 1 2 = true /\
    initialize_missing QcA (mof m) 3 3 InitZonalLinear false 0%Qc (fun i j => if masked (mof m) i j then qmark else g i j) 1 2 = qmark /\
    (forall i j, i < 3 -> j < 3 -> (qz 1 <= g i j /\ g i j <= qz 2)%Qc) /\
    exists out conv,
      fill_prepared QcA (demo_P InitZonalLinear false 2) (fun i j _ => g i j) (bof m) 3 3 1 (fun _ => 0) (fun _ => 0%Qc) = Some (out, conv)
      /\ (qz (10 ^ 18) < out 1%nat 2%nat 0%nat)%Qc.
Proof.
  exists [[0; 0; 0]; [0; 0; 1]; [0; 0; 0]]%Z, (gof [[1; 1; 1]; [1; 2; 1]; [2; 2; 2]]%Z).
  split; [reflexivity|]. split; [reflexivity|]. split; [apply Qc_is_canon; vm_compute; reflexivity|]. split.
  - intros i j Hi Hj. do 3 (destruct i as [|i]; [do 3 (destruct j as [|j]; [vm_compute; split; discriminate|]); lia|]). lia.
  - eexists _, _. split; [apply fill_runs; reflexivity|]. vm_compute. reflexivity.
Qed.
Print Assumptions zonal_linear_noncyclic_refuted.

(** The same with initzonal when a row has no observed value at all. *)
Theorem zonal_mean_empty_row_refuted :
  exists (m : list (list Z)) (g : qgrid) out conv,
    masked (mof m) 0 0 = false /\
    (forall i j, i < 3 -> j < 3 -> (qz 1 <= g i j /\ g i j <= qz 2)%Qc) /\
    fill_prepared QcA (demo_P InitZonal true 2) (fun i j _ => g i j) (bof m) 3 3 1 (fun _ => 0) (fun _ => 0%Qc) = Some (out, conv)
    /\ (qz (10 ^ 18) < out 1%nat 1%nat 0%nat)%Qc.
Proof.
  exists [[0; 0; 0]; [1; 1; 1]; [0; 0; 0]]%Z, (gof [[1; 1; 1]; [1; 2; 1]; [2; 2; 2]]%Z).
  eexists _, _. split; [reflexivity|]. split.
  - intros i j Hi Hj. do 3 (destruct i as [|i]; [do 3 (destruct j as [|j]; [vm_compute; split; discriminate|]); lia|]). lia.
  - split; [apply fill_runs; reflexivity|]. vm_compute. reflexivity.
Qed.
Print Assumptions zonal_mean_empty_row_refuted.

(** ** C17: the convergence flag *)
(** For a slice with something missing and itermax >= 1: the output is some
    number n of sweeps of the initialised grid, 1 <= n <= itermax; the flag says
    exactly whether the last sweep changed every missing cell by at most eps;
    no earlier sweep did; and stopping before itermax happens only then. *)
Theorem converged_flag_truthful :
  forall (P : params QcA) data mk nlat nlon ngrid ni0 rm0 out conv k,
  fill_prepared QcA P data mk nlat nlon ngrid ni0 rm0 = Some (out, conv) -> k < ngrid ->
  0 < p_itermax QcA P ->
  (exists i j, i < nlat /\ j < nlon /\ mk i j k = true) ->
  exists g0 n (m : mask_t),
    let sw u := qsweeps u m nlat nlon (p_cyclic QcA P) (p_relax QcA P) g0 in
    let small u := forall i j, i < nlat -> j < nlon -> mk i j k = true ->
        (qabs (sw u i j - sw (u - 1)%nat i j) <= p_tol QcA P)%Qc in
    (forall i j, masked m i j = mk i j k) /\
    (forall i j, i < nlat -> j < nlon -> mk i j k = false -> g0 i j = data i j k) /\
    1 <= n /\ n <= p_itermax QcA P /\
    (forall i j, i < nlat -> j < nlon -> out i j k = sw n i j) /\
    (conv k = true <-> small n) /\
    (forall u, 0 < u < n -> ~ small u) /\
    (n < p_itermax QcA P -> small n).
Proof.
  intros P data mk nlat nlon ngrid ni0 rm0 out conv k H Hk Hit (pi & pj & Hpi & Hpj & Hpm).
  unfold fill_prepared in H.
  match type of H with match ?x with _ => _ end = _ => destruct x as [[[gs' ni] rm]|] eqn:E; [|discriminate] end.
  injection H as <- <-.
  assert (Hdim : 3 <= nlat /\ 3 <= nlon).
  { unfold poisson_fill_grids in E. destruct (Nat.ltb_spec nlat 3), (Nat.ltb_spec nlon 3); try discriminate; lia. }
  pose proof (fill_grids_slices QcA P _ _ _ _ _ _ _ _ _ _ E k Hk) as S0.
  set (ms := mask_slice (fun i j k => if mk i j k then 1%Z else 0%Z) k) in *.
  assert (Mk : forall a b, masked ms a b = mk a b k).
  { intros a b. unfold ms, masked, mask_slice. destruct (mk a b k); reflexivity. }
  set (g := slice QcA (fun i j k => if mk i j k then amark QcA else data i j k) k) in *.
  destruct (poisson_fill QcA P ms nlat nlon g) as [[g' n] r] eqn:F.
  destruct S0 as (S1 & S2 & S3).
  assert (Z0 : int_sum ms nlat nlon <> 0%Z).
  { intros Z0. rewrite int_sum_zero in Z0.
    - specialize (Z0 pi pj Hpi Hpj). rewrite Mk in Z0. congruence.
    - intros a b _ _. unfold ms, mask_slice. destruct (mk a b k); lia. }
  destruct (poisson_fill_spec QcA _ _ _ _ _ _ _ _ F Z0) as (N1 & N2 & N3 & N4 & N5 & N6).
  assert (Npos : 0 < n) by (destruct n; [destruct (N3 eq_refl); lia|lia]).
  exists (init_of QcA P ms nlat nlon g), n, ms. cbv zeta.
  set (g0 := init_of QcA P ms nlat nlon g) in *.
  set (sw := fun u => qsweeps u ms nlat nlon (p_cyclic QcA P) (p_relax QcA P) g0).
  assert (Small : forall u, 0 < u ->
    (snd (qsweep ms nlat nlon (p_cyclic QcA P) (p_relax QcA P) (sw (u - 1)%nat)) <= p_tol QcA P)%Qc <->
    forall i j, i < nlat -> j < nlon -> mk i j k = true -> (qabs (sw u i j - sw (u - 1)%nat i j) <= p_tol QcA P)%Qc).
  { intros u Hu.
    assert (Eu : sw u = fst (qsweep ms nlat nlon (p_cyclic QcA P) (p_relax QcA P) (sw (u - 1)))).
    { destruct u; [lia|]. replace (S u - 1) with u by lia. reflexivity. }
    rewrite Eu. split.
    - intros L i j Hi Hj M. rewrite <- Mk in M.
      destruct (sweep_equation ms nlat nlon (p_cyclic QcA P) (p_relax QcA P) ltac:(lia) ltac:(lia) (sw (u - 1)) i j Hi Hj M) as [_ Q].
      eapply Qcle_trans; [exact Q|exact L].
    - intros L.
      destruct (sweep_resmax_attained ms nlat nlon (p_cyclic QcA P) (p_relax QcA P) (sw (u - 1))) as [Q|(i & j & Hi & Hj & M & Q)].
      + rewrite Q. eapply Qcle_trans; [apply qabs_nonneg|exact (L pi pj Hpi Hpj Hpm)].
      + rewrite Q. apply L; auto. rewrite <- Mk. exact M. }
  assert (LB : forall x, aleb QcA x (p_tol QcA P) = true <-> (x <= p_tol QcA P)%Qc).
  { intros x. change (aleb QcA) with Qcleb. destruct (Qcleb_spec x (p_tol QcA P)); split; auto; intros; tauto || discriminate. }
  split; [exact Mk|]. split.
  { intros i j Hi Hj M. unfold g0, init_of. rewrite (init_keeps QcA); [|lia|rewrite Mk; exact M].
    unfold g, slice. rewrite M. reflexivity. }
  split; [lia|]. split; [exact N1|]. split.
  { intros i j Hi Hj. change (gs' i j k) with (slice QcA gs' k i j). rewrite (S1 i j Hi Hj), N2. reflexivity. }
  assert (Er : r = snd (qsweep ms nlat nlon (p_cyclic QcA P) (p_relax QcA P) (sw (n - 1)))) by (apply N4; auto).
  split; [|split].
  - rewrite S3. rewrite <- (Small n Npos), <- Er. change (altb QcA) with Qcltb.
    destruct (Qcltb_spec (p_tol QcA P) r) as [L|L]; cbn [negb]; split; intros X; auto.
    + discriminate.
    + exfalso. exact (Qclt_not_le _ _ L X).
    + apply Qcnot_lt_le. exact L.
  - intros u Hu X. apply (Small u ltac:(lia)) in X. apply LB in X. specialize (N5 u Hu).
    exact (eq_true_false_abs _ X N5).
  - intros L. apply (Small n Npos). rewrite <- Er. apply LB. apply N6. exact L.
Qed.
Print Assumptions converged_flag_truthful.
Example converged_flag_demo :
  fill_list (demo_fill InitZonal true 3) <> None /\ bof demo_m 1 1 0 = true /\
  option_map snd (fill_list (demo_fill InitZonal true 2)) = Some false /\
  option_map snd (fill_list (demo_fill InitZonal true 9)) = Some true.
Proof. vm_compute. repeat split. discriminate. Qed.

(** Consequence: a converged slice satisfies the discrete Laplace equation at
    every missing cell up to eps / relax. *)
Theorem converged_solves_laplace :
  forall (P : params QcA) data mk nlat nlon ngrid ni0 rm0 out conv k,
  fill_prepared QcA P data mk nlat nlon ngrid ni0 rm0 = Some (out, conv) -> k < ngrid ->
  0 < p_itermax QcA P -> (0 < p_relax QcA P)%Qc -> (p_relax QcA P <= 1)%Qc ->
  conv k = true ->
  forall i j, i < nlat -> j < nlon -> mk i j k = true ->
  (qabs (nbr_mean (p_cyclic QcA P) nlat nlon (fun a b => out a b k) i j - out i j k) * p_relax QcA P <= p_tol QcA P)%Qc.
Proof.
  intros P data mk nlat nlon ngrid ni0 rm0 out conv k H Hk Hit R0 R1 Hc i j Hi Hj M.
  assert (Hdim : 3 <= nlat /\ 3 <= nlon).
  { unfold fill_prepared, poisson_fill_grids in H. destruct (Nat.ltb_spec nlat 3), (Nat.ltb_spec nlon 3); try discriminate; lia. }
  destruct (converged_flag_truthful _ _ _ _ _ _ _ _ _ _ _ H Hk Hit (ex_intro _ i (ex_intro _ j (conj Hi (conj Hj M)))))
    as (g0 & n & m & Mk & _ & N1 & _ & Out & Cv & _ & _).
  pose proof (proj1 Cv Hc) as Hc1. clear Hc Cv. rename Hc1 into Hc.
  set (sw := fun u => qsweeps u m nlat nlon (p_cyclic QcA P) (p_relax QcA P) g0) in *.
  assert (En : sw n = fst (qsweep m nlat nlon (p_cyclic QcA P) (p_relax QcA P) (sw (n - 1)))).
  { destruct n; [lia|]. replace (S n - 1) with n by lia. reflexivity. }
  pose proof (small_sweep_harmonic m nlat nlon (p_cyclic QcA P) (p_relax QcA P) ltac:(lia) ltac:(lia) (sw (n - 1)) (p_tol QcA P) R0 R1) as Q.
  rewrite <- En in Q.
  assert (B : nbr_mean (p_cyclic QcA P) nlat nlon (fun a b => out a b k) i j = nbr_mean (p_cyclic QcA P) nlat nlon (sw n) i j).
  { unfold nbr_mean. f_equal. f_equal. apply map_ext_in. intros [a b] Hab.
    destruct (nbrs_in_grid (p_cyclic QcA P) nlat nlon i j a b) as [Ha Hb]; auto; try lia. apply Out; auto. }
  assert (Oij : out i j k = sw n i j) by (apply Out; auto). norm. rewrite B, Oij.
  apply Q; auto; [|rewrite Mk; exact M].
  destruct (sweep_resmax_attained m nlat nlon (p_cyclic QcA P) (p_relax QcA P) (sw (n - 1))) as [X|(a & b & Ha & Hb & Mab & X)].
  - rewrite X. eapply Qcle_trans; [apply qabs_nonneg|exact (Hc i j Hi Hj M)].
  - rewrite X. rewrite <- En. apply Hc; auto. rewrite <- Mk. exact Mab.
Qed.
Print Assumptions converged_solves_laplace.
Example converged_solves_laplace_demo :
  option_map snd (fill_list (demo_fill InitZonal true 9)) = Some true /\ 0 < p_itermax QcA (demo_P InitZonal true 9)
  /\ (0 < p_relax QcA (demo_P InitZonal true 9))%Qc /\ (p_relax QcA (demo_P InitZonal true 9) <= 1)%Qc.
Proof. split; [vm_compute; reflexivity|]. split; [simpl; lia|]. vm_compute. split; [reflexivity|discriminate]. Qed.

(** With itermax = 0 the flag is wrong: nothing was solved, yet converged is
    True and the residual of the returned grid is far above eps. *)
Theorem converged_with_itermax_0_refuted :
  exists out conv, demo_fill InitConst true 0 = Some (out, conv) /\ conv 0 = true /\
    bof demo_m 1 1 0 = true /\
    ~ (qabs (nbr_mean true 3 4 (fun a b => out a b 0%nat) 1 1 - out 1%nat 1%nat 0%nat) * Q2Qc (3 # 5) <= Q2Qc (1 # 100))%Qc.
Proof.
  eexists _, _. split; [apply fill_runs; reflexivity|]. split; [vm_compute; reflexivity|]. split; [reflexivity|].
  intros H. vm_compute in H. apply H. reflexivity.
Qed.
Print Assumptions converged_with_itermax_0_refuted.

(** A NaN among the observed values: the missing neighbours become NaN and the
    slice is still reported converged (fmax ignores NaN). *)
Definition nanP : params NaNA :=
  Build_params NaNA (Some (Q2Qc (3 # 5))) (Some (Q2Qc (1 # 100))) 100 true InitConst (Some 0%Qc).
Theorem converged_with_nan_refuted :
  exists (data : nat -> nat -> nat -> option Qc) out conv,
  fill_prepared NaNA nanP data (fun i j _ => (i =? 1) && (j =? 1)) 3 3 1 (fun _ => 0) (fun _ => None) = Some (out, conv)
  /\ out 1 1 0 = None /\ conv 0 = true.
Proof.
  exists (fun i j _ => if (i =? 0) && (j =? 1) then None else Some (qz 1)).
  eexists _, _. split; [apply fill_runs; reflexivity|]. split; vm_compute; reflexivity.
Qed.
Print Assumptions converged_with_nan_refuted.

(** ** C18: fixed points *)
Theorem zero_residual_iff_harmonic :
  forall m nlat nlon cyc rc (g : qgrid), 2 <= nlat -> 2 <= nlon -> rc <> 0%Qc ->
  snd (qsweep m nlat nlon cyc rc g) = 0%Qc <-> harmonic_on (masked m) cyc nlat nlon g.
Proof.
  intros m nlat nlon cyc rc g H1 H2 Hr. split.
  - apply sweep_zero_residual; auto.
  - intros H. apply (harmonic_sweep m nlat nlon cyc rc H1 H2 g H).
Qed.
Print Assumptions zero_residual_iff_harmonic.
Theorem harmonic_is_fixed :
  forall n m nlat nlon cyc rc (g : qgrid), 2 <= nlat -> 2 <= nlon ->
  harmonic_on (masked m) cyc nlat nlon g -> forall i j, qsweeps n m nlat nlon cyc rc g i j = g i j.
Proof. exact harmonic_sweeps. Qed.
Print Assumptions harmonic_is_fixed.
Example harmonic_demo :
  let g := gof [[2; 2; 2]; [2; 2; 2]; [2; 2; 2]]%Z in
  harmonic_on (masked (mof [[0; 1; 0]; [1; 1; 0]; [0; 0; 0]]%Z)) false 3 3 g.
Proof.
  intros g i j Hi Hj _.
  do 3 (destruct i as [|i]; [do 3 (destruct j as [|j]; [apply Qc_is_canon; vm_compute; reflexivity|]); lia|]). lia.
Qed.

(** The update of one sweep as an equation between the old grid g and the new
    grid g': already visited neighbours count with their new value. *)
Theorem sweep_is_gauss_seidel :
  forall m nlat nlon cyc rc (g : qgrid) i j, 2 <= nlat -> 2 <= nlon -> i < nlat -> j < nlon -> masked m i j = true ->
  let g' := fst (qsweep m nlat nlon cyc rc g) in
  g' i j = ((1 - rc) * g i j +
            rc * nbr_mean cyc nlat nlon (fun a b => if earlierb (a, b) (i, j) then g' a b else g a b) i j)%Qc.
Proof.
  intros m nlat nlon cyc rc g i j H1 H2 Hi Hj M. cbv zeta.
  destruct (sweep_equation m nlat nlon cyc rc H1 H2 g i j Hi Hj M) as [Q _]. rewrite Q at 1.
  unfold mixed. ring.
Qed.
Print Assumptions sweep_is_gauss_seidel.
Theorem sweep_residual_is_largest_change :
  forall m nlat nlon cyc rc (g : qgrid), 2 <= nlat -> 2 <= nlon ->
  let g' := fst (qsweep m nlat nlon cyc rc g) in
  let r := snd (qsweep m nlat nlon cyc rc g) in
  (forall i j, i < nlat -> j < nlon -> (qabs (g' i j - g i j) <= qmax r 0)%Qc) /\
  (r = 0%Qc \/ exists i j, i < nlat /\ j < nlon /\ masked m i j = true /\ r = qabs (g' i j - g i j)%Qc).
Proof.
  intros m nlat nlon cyc rc g H1 H2. split.
  - intros i j Hi Hj. destruct (masked m i j) eqn:M.
    + destruct (sweep_equation m nlat nlon cyc rc H1 H2 g i j Hi Hj M) as [_ Q].
      eapply Qcle_trans; [exact Q|apply qmax_l].
    + replace (fst (qsweep m nlat nlon cyc rc g) i j) with (g i j) by (symmetry; apply (sweep_keeps QcA); auto).
      replace (g i j - g i j)%Qc with 0%Qc by ring. rewrite qabs_0. apply qmax_r.
  - apply sweep_resmax_attained.
Qed.
Print Assumptions sweep_residual_is_largest_change.
Example gauss_seidel_demo :
  grid_list 3 4 (fst (qsweep (mof demo_m) 3 4 true (Q2Qc (1 # 2)) demo_g))
   = [[1; 2; 3; 4]; [5; 64; 285 # 4; 8]; [9; 10; 1121 # 16; 12]]%Q.
Proof. vm_compute. reflexivity. Qed.

(** The exact solution is unique when every missing cell is connected to an
    observed one, so all options lead to the same limit. *)
Theorem laplace_solution_unique :
  forall mk nlat nlon cyc (g h : qgrid) i j,
  2 <= nlat -> 2 <= nlon ->
  (forall a b, a < nlat -> b < nlon -> reaches_observed mk cyc nlat nlon a b) ->
  harmonic_on mk cyc nlat nlon g -> harmonic_on mk cyc nlat nlon h ->
  (forall a b, a < nlat -> b < nlon -> mk a b = false -> g a b = h a b) ->
  i < nlat -> j < nlon -> g i j = h i j.
Proof. exact harmonic_unique. Qed.
Print Assumptions laplace_solution_unique.
Example laplace_solution_unique_demo :
  forall a b, a < 3 -> b < 4 -> reaches_observed (masked (mof demo_m)) true 3 4 a b.
Proof.
  intros a b Ha Hb.
  assert (O : forall i j, masked (mof demo_m) i j = false -> reaches_observed (masked (mof demo_m)) true 3 4 i j) by (intros; constructor; auto).
  do 3 (destruct a as [|a]; [do 4 (destruct b as [|b]; [first [apply O; reflexivity |
    eapply ro_step; [right; right; left; reflexivity|apply O; reflexivity] |
    eapply ro_step; [right; right; right; left; reflexivity|apply O; reflexivity]]|]); lia|]). lia.
Qed.

Theorem constant_field_filled_with_constant :
  forall (P : params QcA) m nlat nlon (g : qgrid) c,
  2 <= nlat -> 2 <= nlon ->
  (forall i j, i < nlat -> j < nlon -> (0 <= m i j)%Z) ->
  (p_mode QcA P = InitConst \/
   forall i, i < nlat ->
     (p_mode QcA P = InitZonal \/ p_mode QcA P = InitZonalLinear /\ (p_cyclic QcA P = true \/ masked m i 1 = masked m i (nlon - 1)))
     /\ exists j, j < nlon /\ masked m i j = false) ->
  (forall i j, i < nlat -> j < nlon -> masked m i j = false -> g i j = c) ->
  (p_mode QcA P = InitConst -> p_init QcA P = c) ->
  forall i j, i < nlat -> j < nlon -> fst (fst (poisson_fill QcA P m nlat nlon g)) i j = c.
Proof. exact poisson_fill_constant. Qed.
Print Assumptions constant_field_filled_with_constant.
Example constant_field_demo :
  let m := mof demo_m in let g := (fun i j => if masked m i j then qmark else qz 7) : qgrid in
  grid_list 3 4 (fst (fst (poisson_fill QcA (demo_P InitZonalLinear true 5) m 3 4 g)))
    = [[7; 7; 7; 7]; [7; 7; 7; 7]; [7; 7; 7; 7]]%Q
  /\ masked m 1 1 = true /\ g 1 1 = qmark.
Proof. vm_compute. repeat split. Qed.

(** ** C19: slices are independent (any arithmetic) *)
Theorem slices_filled_independently :
  forall (A : arith) P ms nlat nlon ngrid gs ni0 rm0 gs' ni rm,
  poisson_fill_grids A P ms nlat nlon ngrid gs ni0 rm0 = Some (gs', ni, rm) ->
  forall k, k < ngrid ->
  let '(g, n, r) := poisson_fill A P (fun i j => ms i j k) nlat nlon (fun i j => gs i j k) in
  (forall i j, i < nlat -> j < nlon -> gs' i j k = g i j) /\ ni k = n /\ rm k = r.
Proof. exact fill_grids_slices. Qed.
Print Assumptions slices_filled_independently.
Example slices_demo :
  option_map (fun r => (snd (fst r) 0, snd (fst r) 1))
   (poisson_fill_grids QcA (demo_P InitZonal true 4) (fun i j k => if k =? 1 then mof demo_m i j else 0%Z) 3 4 2
     (fun i j _ => demo_g i j) (fun _ => 17) (fun _ => 0%Qc)) = Some (0, 4).
Proof. vm_compute. reflexivity. Qed.

(** ** The early exit *)
Theorem early_exit_iff_nothing_missing :
  forall m nlat nlon, (forall i j, i < nlat -> j < nlon -> (0 <= m i j)%Z) ->
  int_sum m nlat nlon = 0%Z <-> forall i j, i < nlat -> j < nlon -> masked m i j = false.
Proof. exact int_sum_zero. Qed.
Print Assumptions early_exit_iff_nothing_missing.
Example early_exit_demo : int_sum (mof demo_m) 3 4 = 3%Z /\ int_sum (mof [[0; 0; 0; 0; 0]; [0; 0; 0; 0; 1]]%Z) 2 5 = 1%Z.
Proof. vm_compute. split; reflexivity. Qed.
(** poisson_fill_grids documents any non-zero mask value as missing; with
    values of both signs the sum can cancel and nothing is filled. *)
Theorem early_exit_signed_mask_refuted :
  exists m, (exists i j, i < 3 /\ j < 3 /\ masked m i j = true) /\
  forall (P : params QcA) g, poisson_fill QcA P m 3 3 g = (g, 0, 0%Qc).
Proof.
  exists (mof [[1; 0; 0]; [0; 0; 0]; [0; 0; -1]]%Z). split.
  - exists 0, 0. repeat split; auto; lia.
  - intros. reflexivity.
Qed.
Print Assumptions early_exit_signed_mask_refuted.
