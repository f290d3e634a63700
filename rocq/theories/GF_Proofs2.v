(** Grid filler, every arithmetic: observed cells, locality, loop, stacks. *)
From Verif Require Import Base Loops GF_Model GF_Spec GF_Proofs1.
Local Close Scope Qc_scope.
Local Open Scope nat_scope.

Section Gen.
Variable A : arith.
Notation N := (num A).
Implicit Types g : grid_t A.

(** ** Rows of the initialisation *)
Definition init_row (m : mask_t) (nlon : nat) (mode : init_mode) (cyc : bool) (v : N) g i : grid_t A :=
  match mode with
  | InitZonal => zonal_mean_row A m nlon i g
  | InitZonalLinear => zonal_linear_row A m nlon cyc v i g
  | InitConst => const_row A m nlon i v g
  end.
Lemma initialize_missing_rows m nlat nlon mode cyc v g :
  initialize_missing A m nlat nlon mode cyc v g = fold_left (init_row m nlon mode cyc v) (seq 0 nlat) g.
Proof. reflexivity. Qed.
Lemma init_row_frame m nlon mode cyc v g i a b :
  2 <= nlon -> a <> i \/ masked m i b = false \/ nlon <= b -> init_row m nlon mode cyc v g i a b = g a b.
Proof.
  intros Hn H. destruct mode; cbn [init_row].
  - rewrite zonal_mean_row_spec. destruct (obs_sum A m g i (seq 0 nlon) 0 (a0 A)) as [n z].
    destruct (Nat.eqb_spec a i) as [->|]; cbn [andb]; [|rewrite andb_false_r; auto].
    destruct H as [H|[H|H]]; [tauto|rewrite H, andb_false_r; auto|].
    destruct (Nat.ltb_spec b nlon); [lia|]. rewrite !andb_false_r; auto.
  - apply (zonal_linear_row_cases A m nlon cyc v i g Hn). auto.
  - rewrite const_row_spec. destruct (Nat.eqb_spec a i) as [->|]; cbn [andb]; auto.
    destruct H as [H|[H|H]]; [tauto|rewrite H; auto|].
    destruct (Nat.ltb_spec b nlon); [lia|]. rewrite !andb_false_r; auto.
Qed.
Lemma init_keeps m nlat nlon mode cyc v g i j :
  2 <= nlon -> masked m i j = false -> initialize_missing A m nlat nlon mode cyc v g i j = g i j.
Proof.
  intros Hn H. rewrite initialize_missing_rows.
  apply (fold_left_inv _ _ (fun g' => g' i j = g i j)); auto.
  intros g' x _ E. rewrite init_row_frame; auto. destruct (Nat.eq_dec i x); subst; auto.
Qed.
(** Row i of the result is computed from row i of the input. *)
Lemma init_row_at m nlat nlon mode cyc v g i :
  2 <= nlon -> i < nlat ->
  exists g', (forall b, g' i b = g i b) /\
    forall b, initialize_missing A m nlat nlon mode cyc v g i b = init_row m nlon mode cyc v g' i i b.
Proof.
  intros Hn Hi. rewrite initialize_missing_rows.
  replace nlat with (i + S (nlat - i - 1)) by lia. rewrite seq_app. cbn [seq Nat.add]. rewrite fold_left_app. cbn [fold_left].
  set (g' := fold_left (init_row m nlon mode cyc v) (seq 0 i) g).
  exists g'. split.
  - intros b. unfold g'. apply (fold_left_inv _ _ (fun h => h i b = g i b)); auto.
    intros h x Hx E. apply in_seq in Hx. rewrite init_row_frame; auto. left. lia.
  - intros b. apply (fold_left_inv _ _ (fun h => h i b = init_row m nlon mode cyc v g' i i b)); auto.
    intros h x Hx E. apply in_seq in Hx. rewrite init_row_frame; auto. left. lia.
Qed.

(** ** Observed cells survive a sweep, any number of sweeps, and the driver *)
Lemma relax_cell_keeps m nlat nlon cyc rc g rm c i j :
  masked m i j = false -> fst (relax_cell A m nlat nlon cyc rc (g, rm) c) i j = g i j.
Proof.
  intros H. destruct c as [a b]. unfold relax_cell. destruct (masked m a b) eqn:M; auto.
  cbn [fst]. apply gset_other. intros E. inversion E; subst. congruence.
Qed.
Lemma sweep_keeps m nlat nlon cyc rc g i j :
  masked m i j = false -> fst (sweep A m nlat nlon cyc rc g) i j = g i j.
Proof.
  intros H. unfold sweep.
  apply (fold_left_inv _ _ (fun st => fst st i j = g i j)); auto.
  intros [h rm] c _ E. rewrite relax_cell_keeps; auto.
Qed.
Fixpoint sweeps (n : nat) (m : mask_t) (nlat nlon : nat) (cyc : bool) (rc : N) g : grid_t A :=
  match n with
  | O => g
  | S n => fst (sweep A m nlat nlon cyc rc (sweeps n m nlat nlon cyc rc g))
  end.
Lemma sweeps_keeps n m nlat nlon cyc rc g i j :
  masked m i j = false -> sweeps n m nlat nlon cyc rc g i j = g i j.
Proof. intros H. induction n; simpl; auto. rewrite sweep_keeps; auto. Qed.
Lemma sweeps_front n m nlat nlon cyc rc g :
  sweeps (S n) m nlat nlon cyc rc g = sweeps n m nlat nlon cyc rc (fst (sweep A m nlat nlon cyc rc g)).
Proof. induction n; auto. cbn [sweeps] in *. rewrite <- IHn. reflexivity. Qed.

(** ** The iteration *)
Lemma relax_loop_spec m nlat nlon cyc rc tol :
  forall fuel g k rm g' n r,
  relax_loop A fuel m nlat nlon cyc rc tol g k rm = (g', n, r) ->
  exists t, n = k + t /\ t <= fuel /\ g' = sweeps t m nlat nlon cyc rc g /\
    (t = 0 -> r = rm /\ fuel = 0) /\
    (0 < t -> r = snd (sweep A m nlat nlon cyc rc (sweeps (t - 1) m nlat nlon cyc rc g))) /\
    (forall u, 0 < u < t -> aleb A (snd (sweep A m nlat nlon cyc rc (sweeps (u - 1) m nlat nlon cyc rc g))) tol = false) /\
    (t < fuel -> aleb A r tol = true).
Proof.
  induction fuel; intros g k rm g' n r H; cbn [relax_loop] in H.
  - inversion H; subst. exists 0. repeat split; auto; try lia.
  - destruct (sweep A m nlat nlon cyc rc g) as [g1 r1] eqn:E.
    destruct (aleb A r1 tol) eqn:L.
    + inversion H; subst. exists 1. cbn [sweeps]. rewrite E. repeat split; auto; try lia.
      intros _. cbn [Nat.sub sweeps]. rewrite E. reflexivity.
    + apply IHfuel in H. destruct H as (t & H1 & H2 & H3 & H4 & H5 & H6 & H7).
      assert (Eg : g1 = fst (sweep A m nlat nlon cyc rc g)) by (rewrite E; reflexivity).
      exists (S t). split; [lia|]. split; [lia|]. split; [rewrite sweeps_front, <- Eg; auto|].
      split; [lia|]. split; [|split].
      * intros _. replace (S t - 1) with t by lia. destruct t.
        -- cbn [sweeps]. rewrite E. apply H4. reflexivity.
        -- rewrite sweeps_front, <- Eg. rewrite H5 by lia. replace (S t - 1) with t by lia. reflexivity.
      * intros u Hu. destruct u; [lia|]. replace (S u - 1) with u by lia. destruct u.
        -- cbn [sweeps]. rewrite E. exact L.
        -- rewrite sweeps_front, <- Eg. replace u with (S u - 1) by lia. apply H6. lia.
      * intros. apply H7. lia.
Qed.

Definition init_of (P : params A) m nlat nlon g :=
  initialize_missing A m nlat nlon (p_mode A P) (p_cyclic A P) (p_init A P) g.

(** Everything the driver reports, in terms of its sweeps. *)
Lemma poisson_fill_spec P m nlat nlon g g' n r :
  poisson_fill A P m nlat nlon g = (g', n, r) ->
  int_sum m nlat nlon <> 0%Z ->
  let sw u := sweep A m nlat nlon (p_cyclic A P) (p_relax A P)
                (sweeps u m nlat nlon (p_cyclic A P) (p_relax A P) (init_of P m nlat nlon g)) in
  n <= p_itermax A P /\
  g' = sweeps n m nlat nlon (p_cyclic A P) (p_relax A P) (init_of P m nlat nlon g) /\
  (n = 0 -> r = a0 A /\ p_itermax A P = 0) /\
  (0 < n -> r = snd (sw (n - 1))) /\
  (forall u, 0 < u < n -> aleb A (snd (sw (u - 1))) (p_tol A P) = false) /\
  (n < p_itermax A P -> aleb A r (p_tol A P) = true).
Proof.
  intros H Hs. unfold poisson_fill in H. destruct (Z.eqb_spec (int_sum m nlat nlon) 0); [tauto|].
  apply relax_loop_spec in H. destruct H as (t & H1 & H2 & H3 & H4 & H5 & H6 & H7).
  simpl in H1. subst t. cbv zeta. tauto.
Qed.

Lemma poisson_fill_keeps P m nlat nlon g i j :
  2 <= nlon -> masked m i j = false -> fst (fst (poisson_fill A P m nlat nlon g)) i j = g i j.
Proof.
  intros Hn H. destruct (poisson_fill A P m nlat nlon g) as [[g' n] r] eqn:E. cbn [fst].
  destruct (Z.eq_dec (int_sum m nlat nlon) 0) as [Z0|Z0].
  - unfold poisson_fill in E. destruct (Z.eqb_spec (int_sum m nlat nlon) 0); [|tauto]. inversion E; subst; auto.
  - destruct (poisson_fill_spec _ _ _ _ _ _ _ _ E Z0) as (_ & -> & _).
    rewrite sweeps_keeps by auto. apply init_keeps; auto.
Qed.

Lemma poisson_fill_grids_keeps P ms nlat nlon ngrid gs ni0 rm0 gs' ni rm i j k :
  poisson_fill_grids A P ms nlat nlon ngrid gs ni0 rm0 = Some (gs', ni, rm) ->
  ms i j k = 0%Z -> gs' i j k = gs i j k.
Proof.
  unfold poisson_fill_grids. intros H M.
  destruct (Nat.ltb_spec nlat 3), (Nat.ltb_spec nlon 3); try discriminate.
  cbn [orb] in H. injection H as H.
  assert (G : fst (fst (gs', ni, rm)) i j k = gs i j k); [|exact G].
  rewrite <- H. apply (fold_left_inv _ _ (fun st => fst (fst st) i j k = gs i j k)); auto.
  intros [[h ni1] rm1] x _ E. cbn [fst] in E.
  pose proof (poisson_fill_keeps P (mask_slice ms x) nlat nlon (slice A h x) i j ltac:(lia)) as K.
  destruct (poisson_fill A P (mask_slice ms x) nlat nlon (slice A h x)) as [[g' n] r]. cbn [fst] in *.
  unfold set_slice. destruct (Nat.eqb_spec k x) as [->|]; auto.
  rewrite K; [exact E|]. unfold masked, mask_slice. rewrite M. reflexivity.
Qed.

Lemma fill_keeps_observed P data mk nlat nlon ngrid ni0 rm0 out conv i j k :
  fill_prepared A P data mk nlat nlon ngrid ni0 rm0 = Some (out, conv) ->
  mk i j k = false -> out i j k = data i j k.
Proof.
  unfold fill_prepared. intros H M.
  match type of H with match ?x with _ => _ end = _ => destruct x as [[[gs' ni] rm]|] eqn:E; [|discriminate] end.
  inversion H; subst. apply (poisson_fill_grids_keeps _ _ _ _ _ _ _ _ _ _ _ i j k) in E.
  - rewrite E, M. reflexivity.
  - rewrite M. reflexivity.
Qed.

(** ** The solver only looks inside the grid *)
Definition agree (nlat nlon : nat) g h := forall i j, i < nlat -> j < nlon -> g i j = h i j.
Definition agree_mask (nlat nlon : nat) (m m' : mask_t) :=
  forall i j, i < nlat -> j < nlon -> m i j = m' i j.

Lemma agree_masked nlat nlon m m' i j :
  agree_mask nlat nlon m m' -> i < nlat -> j < nlon -> masked m i j = masked m' i j.
Proof. intros H Hi Hj. unfold masked. rewrite H; auto. Qed.

Lemma obs_sum_ext m m' g h i l n z :
  (forall j, In j l -> masked m i j = masked m' i j) -> (forall j, In j l -> g i j = h i j) ->
  obs_sum A m g i l n z = obs_sum A m' h i l n z.
Proof.
  revert n z. induction l as [|x l IH]; simpl; auto. intros n z H1 H2.
  rewrite (H1 x) by auto. rewrite (H2 x) by auto. destruct (masked m' i x); apply IH; auto.
Qed.
Lemma scan_segments_ext m m' nlon i cyc g h :
  2 <= nlon ->
  (forall j, j < nlon -> masked m i j = masked m' i j) -> (forall j, j < nlon -> g i j = h i j) ->
  scan_segments A m nlon i cyc g = scan_segments A m' nlon i cyc h.
Proof.
  intros Hn H1 H2. unfold scan_segments. apply fold_left_ext_in. intros [ss es] j Hj. apply in_seq in Hj.
  assert (Hp : fst (longitude_indices j nlon cyc) < nlon) by (apply (prev_lt nlon cyc Hn); lia).
  rewrite !(H1 _ Hp), !(H2 _ Hp), (H1 j), (H2 j) by lia. reflexivity.
Qed.
Lemma fill_run_ext i lo hi n0 w sv ev g h nlat nlon :
  agree nlat nlon g h -> agree nlat nlon (fill_run A i lo hi n0 w sv ev g) (fill_run A i lo hi n0 w sv ev h).
Proof. intros H a b Ha Hb. rewrite !fill_run_spec. rewrite H by auto. reflexivity. Qed.
Lemma fold_agree nlat nlon (B : Type) (f f' : grid_t A -> B -> grid_t A) l g h :
  agree nlat nlon g h -> (forall x g h, In x l -> agree nlat nlon g h -> agree nlat nlon (f g x) (f' h x)) ->
  agree nlat nlon (fold_left f l g) (fold_left f' l h).
Proof. revert g h. induction l; simpl; auto. Qed.

Lemma const_row_ext m m' nlat nlon i v g h :
  i < nlat -> agree_mask nlat nlon m m' -> agree nlat nlon g h ->
  agree nlat nlon (const_row A m nlon i v g) (const_row A m' nlon i v h).
Proof.
  intros Hi Hm Hg a b Ha Hb. rewrite !const_row_spec, (agree_masked _ _ _ _ _ _ Hm Ha Hb), (Hg a b Ha Hb). reflexivity.
Qed.
Lemma init_row_ext m m' nlat nlon mode cyc v i g h :
  2 <= nlon -> i < nlat -> agree_mask nlat nlon m m' -> agree nlat nlon g h ->
  agree nlat nlon (init_row m nlon mode cyc v g i) (init_row m' nlon mode cyc v h i).
Proof.
  intros Hn Hi Hm Hg. destruct mode; cbn [init_row].
  - intros a b Ha Hb. rewrite !zonal_mean_row_spec.
    rewrite (obs_sum_ext m m' g h).
    + destruct (obs_sum A m' h i (seq 0 nlon) 0 (a0 A)) as [n z].
      rewrite (agree_masked _ _ _ _ _ _ Hm Ha Hb), (Hg a b Ha Hb). reflexivity.
    + intros j Hj. apply in_seq in Hj. apply (agree_masked nlat nlon); auto. lia.
    + intros j Hj. apply in_seq in Hj. apply Hg; auto. lia.
  - unfold zonal_linear_row.
    rewrite (scan_segments_ext m m' nlon i cyc g h Hn).
    + destruct (scan_segments A m' nlon i cyc h) as [ss es].
      destruct (length ss =? 0); [apply const_row_ext; auto|].
      destruct (length ss =? length es); auto.
      destruct (fst (nth 0 ss (0, a0 A)) <? fst (nth 0 es (0, a0 A))).
      * apply fold_agree; auto. intros. apply fill_run_ext; auto.
      * apply fill_run_ext, fill_run_ext. apply fold_agree; auto. intros. apply fill_run_ext; auto.
    + intros j Hj. apply (agree_masked nlat nlon); auto.
    + intros j Hj. apply Hg; auto.
  - apply const_row_ext; auto.
Qed.
Lemma init_ext m m' nlat nlon mode cyc v g h :
  2 <= nlon -> agree_mask nlat nlon m m' -> agree nlat nlon g h ->
  agree nlat nlon (initialize_missing A m nlat nlon mode cyc v g) (initialize_missing A m' nlat nlon mode cyc v h).
Proof.
  intros Hn Hm Hg. rewrite !initialize_missing_rows. apply fold_agree; auto.
  intros x g1 h1 Hx G. apply in_seq in Hx. apply init_row_ext; auto. lia.
Qed.

Lemma residual_ext nlat nlon cyc rc g h i j :
  2 <= nlat -> 2 <= nlon -> i < nlat -> j < nlon -> agree nlat nlon g h ->
  residual A nlat nlon cyc rc g i j = residual A nlat nlon cyc rc h i j.
Proof.
  intros H1 H2 Hi Hj Hg. unfold residual.
  pose proof (stencil_nbrs cyc nlat nlon i j H1 H2 Hi Hj) as E.
  pose proof (fun a b => nbrs_in_grid cyc nlat nlon i j a b H1 H2 Hi Hj) as I.
  destruct (latitude_indices i nlat) as [im1 ip1], (longitude_indices j nlon cyc) as [jm1 jp1].
  rewrite E in I.
  rewrite (Hg im1 j), (Hg ip1 j), (Hg i jm1), (Hg i jp1), (Hg i j); auto.
  - destruct (I i jp1); simpl; auto.
  - destruct (I i jm1); simpl; auto.
  - destruct (I ip1 j); simpl; auto.
  - destruct (I im1 j); simpl; auto.
Qed.
Lemma relax_cell_ext m m' nlat nlon cyc rc g h rm i j :
  2 <= nlat -> 2 <= nlon -> i < nlat -> j < nlon -> agree_mask nlat nlon m m' -> agree nlat nlon g h ->
  agree nlat nlon (fst (relax_cell A m nlat nlon cyc rc (g, rm) (i, j))) (fst (relax_cell A m' nlat nlon cyc rc (h, rm) (i, j)))
  /\ snd (relax_cell A m nlat nlon cyc rc (g, rm) (i, j)) = snd (relax_cell A m' nlat nlon cyc rc (h, rm) (i, j)).
Proof.
  intros H1 H2 Hi Hj Hm Hg. unfold relax_cell. rewrite (agree_masked _ _ _ _ _ _ Hm Hi Hj).
  destruct (masked m' i j); auto. cbn [fst snd].
  rewrite (residual_ext nlat nlon cyc rc g h i j) by auto. split; auto.
  intros a b Ha Hb. unfold gset. rewrite (Hg a b Ha Hb), (Hg i j Hi Hj). reflexivity.
Qed.
Lemma sweep_ext m m' nlat nlon cyc rc g h :
  2 <= nlat -> 2 <= nlon -> agree_mask nlat nlon m m' -> agree nlat nlon g h ->
  agree nlat nlon (fst (sweep A m nlat nlon cyc rc g)) (fst (sweep A m' nlat nlon cyc rc h))
  /\ snd (sweep A m nlat nlon cyc rc g) = snd (sweep A m' nlat nlon cyc rc h).
Proof.
  intros H1 H2 Hm Hg. unfold sweep.
  assert (G : forall l g h rm, (forall c, In c l -> fst c < nlat /\ snd c < nlon) -> agree nlat nlon g h ->
    agree nlat nlon (fst (fold_left (relax_cell A m nlat nlon cyc rc) l (g, rm)))
                    (fst (fold_left (relax_cell A m' nlat nlon cyc rc) l (h, rm))) /\
    snd (fold_left (relax_cell A m nlat nlon cyc rc) l (g, rm)) = snd (fold_left (relax_cell A m' nlat nlon cyc rc) l (h, rm))).
  { induction l as [|[i j] l IH]; intros g1 h1 rm Hl G; cbn [fold_left]; auto.
    destruct (Hl (i, j) (or_introl eq_refl)) as [Hi Hj]. cbn [fst snd] in Hi, Hj.
    destruct (relax_cell_ext m m' nlat nlon cyc rc g1 h1 rm i j H1 H2 Hi Hj Hm G) as [X Y].
    destruct (relax_cell A m nlat nlon cyc rc (g1, rm) (i, j)) as [g2 r2].
    destruct (relax_cell A m' nlat nlon cyc rc (h1, rm) (i, j)) as [h2 r2'].
    cbn [fst snd] in X, Y. subst r2'. apply IH; auto. intros c Hc. apply Hl. right; auto. }
  apply G; auto. intros [i j] Hc. apply in_cells in Hc. exact Hc.
Qed.
Lemma relax_loop_ext m m' nlat nlon cyc rc tol fuel :
  2 <= nlat -> 2 <= nlon -> agree_mask nlat nlon m m' -> forall g h k rm, agree nlat nlon g h ->
  agree nlat nlon (fst (fst (relax_loop A fuel m nlat nlon cyc rc tol g k rm)))
                  (fst (fst (relax_loop A fuel m' nlat nlon cyc rc tol h k rm))) /\
  snd (fst (relax_loop A fuel m nlat nlon cyc rc tol g k rm)) = snd (fst (relax_loop A fuel m' nlat nlon cyc rc tol h k rm)) /\
  snd (relax_loop A fuel m nlat nlon cyc rc tol g k rm) = snd (relax_loop A fuel m' nlat nlon cyc rc tol h k rm).
Proof.
  intros H1 H2 Hm. induction fuel; intros g h k rm Hg; cbn [relax_loop]; auto.
  destruct (sweep_ext m m' nlat nlon cyc rc g h H1 H2 Hm Hg) as [X Y].
  destruct (sweep A m nlat nlon cyc rc g) as [g1 r1], (sweep A m' nlat nlon cyc rc h) as [h1 r1'].
  cbn [fst snd] in X, Y. subst r1'. destruct (aleb A r1 tol); auto.
Qed.
Lemma int_sum_ext m m' nlat nlon : agree_mask nlat nlon m m' -> int_sum m nlat nlon = int_sum m' nlat nlon.
Proof.
  intros H. rewrite !int_sum_spec. f_equal. apply map_ext_in. intros i Hi. apply in_seq in Hi.
  f_equal. apply map_ext_in. intros j Hj. apply in_seq in Hj. apply H; lia.
Qed.
Lemma poisson_fill_ext P m m' nlat nlon g h :
  2 <= nlat -> 2 <= nlon -> agree_mask nlat nlon m m' -> agree nlat nlon g h ->
  agree nlat nlon (fst (fst (poisson_fill A P m nlat nlon g))) (fst (fst (poisson_fill A P m' nlat nlon h))) /\
  snd (fst (poisson_fill A P m nlat nlon g)) = snd (fst (poisson_fill A P m' nlat nlon h)) /\
  snd (poisson_fill A P m nlat nlon g) = snd (poisson_fill A P m' nlat nlon h).
Proof.
  intros H1 H2 Hm Hg. unfold poisson_fill. rewrite (int_sum_ext m m' nlat nlon Hm).
  destruct (int_sum m' nlat nlon =? 0)%Z; auto.
  apply relax_loop_ext; auto. apply init_ext; auto.
Qed.

(** ** Stacks *)
Lemma fill_grids_slices P ms nlat nlon ngrid gs ni0 rm0 gs' ni rm :
  poisson_fill_grids A P ms nlat nlon ngrid gs ni0 rm0 = Some (gs', ni, rm) ->
  forall k, k < ngrid ->
  let '(g, n, r) := poisson_fill A P (mask_slice ms k) nlat nlon (slice A gs k) in
  agree nlat nlon (slice A gs' k) g /\ ni k = n /\ rm k = r.
Proof.
  unfold poisson_fill_grids. intros H.
  destruct (Nat.ltb_spec nlat 3), (Nat.ltb_spec nlon 3); try discriminate.
  cbn [orb] in H. injection H as H.
  set (step := fun '(gs, ni, rm) k => _) in H.
  assert (G : forall c, let '(gs1, ni1, rm1) := fold_left step (seq 0 c) (gs, ni0, rm0) in
    (forall k i j, c <= k -> gs1 i j k = gs i j k) /\
    forall k, k < c ->
     let '(g, n, r) := poisson_fill A P (mask_slice ms k) nlat nlon (slice A gs k) in
     agree nlat nlon (slice A gs1 k) g /\ ni1 k = n /\ rm1 k = r).
  { induction c.
    - simpl. split; [auto|lia].
    - rewrite seq_S, fold_left_app. cbn [fold_left Nat.add].
      destruct (fold_left step (seq 0 c) (gs, ni0, rm0)) as [[gs1 ni1] rm1]. destruct IHc as [I1 I2].
      unfold step.
      pose proof (poisson_fill_ext P (mask_slice ms c) (mask_slice ms c) nlat nlon (slice A gs1 c) (slice A gs c)
        ltac:(lia) ltac:(lia) (fun i j _ _ => eq_refl) (fun i j _ _ => I1 c i j (le_n c))) as X.
      destruct (poisson_fill A P (mask_slice ms c) nlat nlon (slice A gs1 c)) as [[g n] r] eqn:E1.
      destruct (poisson_fill A P (mask_slice ms c) nlat nlon (slice A gs c)) as [[g2 n2] r2] eqn:E2.
      cbn [fst snd] in X. destruct X as (X1 & X2 & X3). subst n2 r2. split.
      + intros k i j Hk. unfold set_slice. destruct (Nat.eqb_spec k c); [lia|]. apply I1. lia.
      + intros k Hk. destruct (Nat.eq_dec k c) as [->|Ne].
        * rewrite E2. split; [|rewrite !Nat.eqb_refl; auto].
          intros i j Hi Hj. unfold slice, set_slice. rewrite Nat.eqb_refl. apply X1; auto.
        * specialize (I2 k ltac:(lia)).
          destruct (poisson_fill A P (mask_slice ms k) nlat nlon (slice A gs k)) as [[g3 n3] r3].
          assert (Q : (k =? c) = false) by (apply Nat.eqb_neq; auto). rewrite Q.
          split; [|tauto]. intros i j Hi Hj. unfold slice, set_slice. rewrite Q. apply I2; auto. }
  specialize (G ngrid). rewrite H in G. apply G.
Qed.
End Gen.
