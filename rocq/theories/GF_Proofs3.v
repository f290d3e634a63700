(** Grid filler over exact rationals: sweep equation, maximum principle,
    fixed points, uniqueness, ranges of the initial guesses. *)
From Verif Require Import Base Loops GF_Model GF_Spec GF_Proofs1 GF_Proofs2.
Local Open Scope nat_scope.

Notation qgrid := (nat -> nat -> Qc).
Definition qsweep (m : mask_t) nlat nlon cyc (rc : Qc) (g : qgrid) : qgrid * Qc := sweep QcA m nlat nlon cyc rc g.
Definition qsweeps n (m : mask_t) nlat nlon cyc (rc : Qc) (g : qgrid) : qgrid := sweeps QcA n m nlat nlon cyc rc g.

Ltac norm := unfold grid_t in *; change (num QcA) with Qc in *.

(** ** abs and max *)
Lemma qabs_nonneg x : (0 <= qabs x)%Qc.
Proof. unfold qabs. qc_case; qclra. Qed.
Lemma qabs_le x b : (qabs x <= b <-> - b <= x /\ x <= b)%Qc.
Proof. unfold qabs. qc_case; split; [intros; split|intros []|intros; split|intros []]; qclra. Qed.
Lemma qabs_zero x : qabs x = 0%Qc -> x = 0%Qc.
Proof. unfold qabs. qc_case; intros; qclra. Qed.
Lemma qabs_0 : qabs 0%Qc = 0%Qc.
Proof. unfold qabs. qc_case; qclra. Qed.
Lemma qmax_l x y : (x <= qmax x y)%Qc.
Proof. unfold qmax. qc_case; qclra. Qed.
Lemma qmax_r x y : (y <= qmax x y)%Qc.
Proof. unfold qmax. qc_case; qclra. Qed.
Lemma qmax_or x y : qmax x y = x \/ qmax x y = y.
Proof. unfold qmax. qc_case; auto. Qed.
Lemma qz4 : qz 4 = (1 + 1 + 1 + 1)%Qc.
Proof. apply Qc_is_canon. reflexivity. Qed.
Lemma qz4_neq : (1 + 1 + 1 + 1)%Qc <> 0%Qc.
Proof. intro H. apply (f_equal this) in H. discriminate. Qed.

(** ** The residual is relax * (mean of the neighbours - value) *)
Lemma residual_mean nlat nlon cyc (rc : Qc) (g : qgrid) i j :
  2 <= nlat -> 2 <= nlon -> i < nlat -> j < nlon ->
  residual QcA nlat nlon cyc rc g i j = (rc * (nbr_mean cyc nlat nlon g i j - g i j))%Qc.
Proof.
  intros H1 H2 Hi Hj. unfold residual, nbr_mean.
  pose proof (stencil_nbrs cyc nlat nlon i j H1 H2 Hi Hj) as E.
  destruct (latitude_indices i nlat) as [im1 ip1], (longitude_indices j nlon cyc) as [jm1 jp1].
  rewrite E. cbn [map qsum fold_right fst snd QcA num amul asub aadd aquarter].
  rewrite qz4. field. exact qz4_neq.
Qed.

(** ** Order of the cells *)
Lemma earlier_trans a b c : earlier a b -> earlier b c -> earlier a c.
Proof. unfold earlier. lia. Qed.
Lemma earlier_irrefl a : ~ earlier a a.
Proof. unfold earlier. lia. Qed.
Lemma earlierb_spec c d : reflect (earlier c d) (earlierb c d).
Proof.
  apply iff_reflect. unfold earlierb, earlier. rewrite orb_true_iff, andb_true_iff, !Nat.ltb_lt, Nat.eqb_eq. tauto.
Qed.
Lemma cells_sorted nlat nlon : StronglySorted earlier (cells nlat nlon).
Proof.
  unfold cells.
  assert (R : forall i n k, StronglySorted earlier (map (fun j => (i, j)) (seq k n))).
  { intros i. induction n; intros k; cbn [seq map]; constructor; auto.
    apply Forall_forall. intros [a b] H. apply in_map_iff in H. destruct H as (j & E & Hj).
    inversion E; subst. apply in_seq in Hj. right; simpl; lia. }
  assert (G : forall n k, StronglySorted earlier (flat_map (fun i => map (fun j => (i, j)) (seq 0 nlon)) (seq k n))).
  { induction n; intros k; cbn [seq flat_map]; [constructor|].
    specialize (R k nlon 0). revert R.
    assert (H : forall c, In c (map (fun j => (k, j)) (seq 0 nlon)) -> fst c = k).
    { intros c Hc. apply in_map_iff in Hc. destruct Hc as (j & <- & _). reflexivity. }
    revert H. generalize (map (fun j => (k, j)) (seq 0 nlon)) as l.
    induction l as [|c l IH]; intros H R; cbn [app]; auto.
    inversion R; subst. constructor; [apply IH; auto; intros; apply H; right; auto|].
    apply Forall_app. split; auto. apply Forall_forall. intros [a b] Hc.
    apply in_flat_map in Hc. destruct Hc as (x & Hx & Hc). apply in_map_iff in Hc. destruct Hc as (y & E & _).
    inversion E; subst. apply in_seq in Hx. left. rewrite (H c (or_introl eq_refl)). simpl. lia. }
  apply G.
Qed.
Lemma sorted_split l1 (c : nat * nat) l2 :
  StronglySorted earlier (l1 ++ c :: l2) -> (forall d, In d l1 -> earlier d c) /\ (forall d, In d l2 -> earlier c d).
Proof.
  induction l1 as [|x l1 IH]; cbn [app]; intros H; inversion H as [|? ? H1 H2]; subst.
  - split; [intros d []|]. intros d Hd. rewrite Forall_forall in H2. auto.
  - destruct (IH H1) as [I1 I2]. split; auto. intros d [<-|Hd]; auto.
    rewrite Forall_forall in H2. apply H2. apply in_or_app. right; left; auto.
Qed.

(** ** One sweep as an equation *)
Section Sweep.
Variables (m : mask_t) (nlat nlon : nat) (cyc : bool) (rc : Qc).
Hypotheses (Hlat : 2 <= nlat) (Hlon : 2 <= nlon).
Let step := relax_cell QcA m nlat nlon cyc rc.

Lemma fold_step_frame l (st : qgrid * Qc) a b :
  ~ In (a, b) l -> fst (fold_left step l st) a b = fst st a b.
Proof.
  revert st. induction l as [|[i j] l IH]; intros [g r] H; auto.
  cbn [fold_left]. rewrite IH by (intro; apply H; right; auto).
  unfold step, relax_cell. destruct (masked m i j); auto. cbn [fst]. apply (gset_other QcA).
  intros E. inversion E; subst. apply H; left; auto.
Qed.
Lemma fold_step_resmax l (st : qgrid * Qc) : (snd st <= snd (fold_left step l st))%Qc.
Proof.
  revert st. induction l as [|[i j] l IH]; intros [g r]; cbn [fold_left]; [apply Qcle_refl|].
  eapply Qcle_trans; [|apply IH]. unfold step, relax_cell. destruct (masked m i j); cbn [snd]; [apply qmax_r|apply Qcle_refl].
Qed.

(** g' is the swept grid; earlier neighbours enter with their new value. *)
Definition mixed (g g' : qgrid) (i j : nat) : qgrid :=
  fun a b => if earlierb (a, b) (i, j) then g' a b else g a b.
Lemma sweep_equation g i j :
  i < nlat -> j < nlon -> masked m i j = true ->
  let g' := fst (qsweep m nlat nlon cyc rc g) in
  g' i j = (g i j + rc * (nbr_mean cyc nlat nlon (mixed g g' i j) i j - g i j))%Qc
  /\ (qabs (g' i j - g i j) <= snd (qsweep m nlat nlon cyc rc g))%Qc.
Proof.
  intros Hi Hj M. unfold qsweep, sweep. fold step.
  assert (I : In (i, j) (cells nlat nlon)) by (apply in_cells; auto).
  apply in_split in I. destruct I as (l1 & l2 & E). pose proof (cells_sorted nlat nlon) as S0. rewrite E in S0.
  destruct (sorted_split _ _ _ S0) as [B1 B2]. rewrite E, fold_left_app. cbn [fold_left].
  pose proof (fold_step_frame l1 (g, a0 QcA)) as F1. norm.
  destruct (fold_left step l1 _) as [g1 r1] eqn:E1. cbn [fst] in F1.
  assert (Eij : g1 i j = g i j) by (apply F1; intros X; apply B1 in X; exact (earlier_irrefl _ X)).
  set (r := residual QcA nlat nlon cyc rc g1 i j).
  assert (St : step (g1, r1) (i, j) = (gset QcA g1 i j (g1 i j + r)%Qc, qmax (qabs r) r1)).
  { unfold step, relax_cell. rewrite M. reflexivity. }
  rewrite St. set (st2 := (gset QcA g1 i j (g1 i j + r)%Qc, qmax (qabs r) r1)).
  pose proof (fold_step_frame l2 st2) as F2. pose proof (fold_step_resmax l2 st2) as R2. norm.
  destruct (fold_left step l2 _) as [g2 r2]. cbn [fst snd] in *.
  assert (E2 : g2 i j = (g i j + r)%Qc).
  { rewrite F2 by (intros X; apply B2 in X; exact (earlier_irrefl _ X)).
    unfold st2; cbn [fst snd]. rewrite (gset_same QcA). rewrite Eij. reflexivity. }
  assert (Er : r = (rc * (nbr_mean cyc nlat nlon (mixed g g2 i j) i j - g i j))%Qc).
  { unfold r. rewrite residual_mean by auto. rewrite Eij. do 2 f_equal. unfold nbr_mean. f_equal. f_equal.
    apply map_ext_in. intros [a b] Hab. cbn [fst snd].
    destruct (nbrs_in_grid _ _ _ _ _ _ _ Hlat Hlon Hi Hj Hab) as [Ga Gb].
    assert (In (a, b) (cells nlat nlon)) as Ic by (apply in_cells; auto). rewrite E in Ic.
    assert (Nij : (a, b) <> (i, j)).
    { intros Q. inversion Q; subst. pose proof (stencil_nbrs cyc nlat nlon i j Hlat Hlon Hi Hj) as Es.
      unfold latitude_indices, longitude_indices in Es.
      destruct cyc; cbv beta iota zeta in Es; rewrite Es in Hab; cbn [In] in Hab;
      destruct (Nat.eqb_spec i 0), (Nat.eqb_spec i (nlat - 1)), (Nat.eqb_spec j 0), (Nat.eqb_spec j (nlon - 1)); subst;
      destruct Hab as [X|[X|[X|[X|[]]]]]; inversion X; lia. }
    unfold mixed. destruct (earlierb_spec (a, b) (i, j)) as [Ea|Ea].
    - (* already visited *)
      rewrite F2.
      + symmetry. unfold st2; cbn [fst snd]. apply (gset_other QcA). exact Nij.
      + intros X. apply B2 in X. exact (earlier_irrefl _ (earlier_trans _ _ _ Ea X)).
    - apply F1. intros X. exact (Ea (B1 _ X)). }
  split.
  - rewrite E2, Er. reflexivity.
  - rewrite E2. replace (g i j + r - g i j)%Qc with r by ring.
    eapply Qcle_trans; [|exact R2]. unfold st2. cbn [snd]. apply qmax_l.
Qed.

(** The reported residual is the largest change of the sweep. *)
Lemma sweep_resmax_attained g :
  let g' := fst (qsweep m nlat nlon cyc rc g) in
  let r := snd (qsweep m nlat nlon cyc rc g) in
  r = 0%Qc \/ exists i j, i < nlat /\ j < nlon /\ masked m i j = true /\ r = qabs (g' i j - g i j)%Qc.
Proof.
  cbv zeta. unfold qsweep, sweep. fold step.
  assert (S0 := cells_sorted nlat nlon).
  assert (In0 : forall c, In c (cells nlat nlon) -> fst c < nlat /\ snd c < nlon).
  { intros [a b] H. apply in_cells in H. exact H. }
  set (st0 := (g, a0 QcA)).
  assert (G : forall l1 l2, cells nlat nlon = l1 ++ l2 ->
     snd (fold_left step l1 st0) = 0%Qc \/
     exists i j, In (i, j) l1 /\ masked m i j = true /\
        snd (fold_left step l1 st0) = qabs (fst (fold_left step l1 st0) i j - g i j)%Qc).
  { intros l1. induction l1 as [|[i j] l1 IH] using rev_ind; intros l2 E; [left; reflexivity|].
    rewrite <- app_assoc in E. cbn [app] in E. specialize (IH _ E).
    rewrite E in S0. destruct (sorted_split _ _ _ S0) as [B1 B2].
    rewrite fold_left_app. cbn [fold_left].
    pose proof (fold_step_frame l1 st0) as F1. norm.
    destruct (fold_left step l1 _) as [g1 r1]. cbn [fst snd] in *.
    unfold step, relax_cell. destruct (masked m i j) eqn:M.
    - cbn [fst snd]. set (r := residual QcA nlat nlon cyc rc g1 i j).
      assert (Eij : g1 i j = g i j) by (apply F1; intros X; apply B1 in X; exact (earlier_irrefl _ X)).
      change (afmax QcA) with qmax. change (aabs QcA) with qabs. change (aadd QcA) with Qcplus.
      destruct (qmax_or (qabs r) r1) as [Q|Q]; rewrite Q.
      + right. exists i, j. split; [apply in_or_app; right; left; auto|]. split; auto.
        rewrite (gset_same QcA), Eij. apply f_equal. change (r = g i j + r - g i j)%Qc. clearbody r. norm. ring.
      + destruct IH as [Z|(a & b & I & Mab & Z)]; [left; exact Z|]. right. exists a, b.
        split; [apply in_or_app; left; auto|]. split; auto.
        rewrite (gset_other QcA); [exact Z|]. intros X. inversion X; subst. apply B1 in I. exact (earlier_irrefl _ I).
    - cbn [fst snd]. destruct IH as [Z|(a & b & I & Mab & Z)]; [left; exact Z|]. right. exists a, b.
      split; [apply in_or_app; left; auto|]. auto. }
  destruct (G (cells nlat nlon) [] (eq_sym (app_nil_r _))) as [Z|(i & j & I & M & Z)]; [left; exact Z|].
  right. exists i, j. apply in_cells in I. tauto.
Qed.

(** ** Fixed points *)
Lemma harmonic_sweep g :
  harmonic_on (masked m) cyc nlat nlon g ->
  (forall i j, fst (qsweep m nlat nlon cyc rc g) i j = g i j) /\ snd (qsweep m nlat nlon cyc rc g) = 0%Qc.
Proof.
  intros H. unfold qsweep, sweep. fold step.
  assert (G : forall l (g1 : qgrid), (forall c, In c l -> fst c < nlat /\ snd c < nlon) -> (forall i j, g1 i j = g i j) ->
    (forall i j, fst (fold_left step l (g1, 0%Qc)) i j = g i j) /\ snd (fold_left step l (g1, 0%Qc)) = 0%Qc).
  { induction l as [|[i j] l IH]; intros g1 Hl E; cbn [fold_left]; [auto|].
    destruct (Hl (i, j) (or_introl eq_refl)) as [Hi Hj]. cbn [fst snd] in Hi, Hj.
    unfold step at 2 4, relax_cell. destruct (masked m i j) eqn:M.
    - assert (R : residual QcA nlat nlon cyc rc g1 i j = 0%Qc).
      { rewrite (residual_ext QcA nlat nlon cyc rc g1 g i j) by (auto; intros a b _ _; apply E).
        rewrite residual_mean by auto. rewrite <- (H i j Hi Hj M). change (rc * (g i j - g i j) = 0)%Qc. ring. }
      rewrite R. change (afmax QcA (aabs QcA 0%Qc) 0%Qc) with (qmax (qabs 0%Qc) 0%Qc).
      assert (Q : qmax (qabs 0) 0 = 0%Qc) by (rewrite qabs_0; unfold qmax; qc_case; auto). rewrite Q.
      apply IH; [intros; apply Hl; right; auto|].
      intros a b. change (aadd QcA) with Qcplus. unfold gset.
      destruct (Nat.eqb_spec a i), (Nat.eqb_spec b j); cbn [andb]; subst; auto.
      change (g1 i j + 0 = g i j)%Qc. rewrite E. ring.
    - apply IH; auto. intros; apply Hl; right; auto. }
  apply G; auto. intros [i j] Hc. apply in_cells in Hc. exact Hc.
Qed.
Lemma sweep_zero_residual g :
  rc <> 0%Qc -> snd (qsweep m nlat nlon cyc rc g) = 0%Qc -> harmonic_on (masked m) cyc nlat nlon g.
Proof.
  intros Hrc Hr.
  assert (Same : forall a b, a < nlat -> b < nlon -> fst (qsweep m nlat nlon cyc rc g) a b = g a b).
  { intros a b Ha Hb. destruct (masked m a b) eqn:M.
    - destruct (sweep_equation g a b Ha Hb M) as [_ Q]. rewrite Hr in Q.
      apply qabs_le in Q. destruct Q. qclra.
    - apply (sweep_keeps QcA). auto. }
  intros i j Hi Hj M. destruct (sweep_equation g i j Hi Hj M) as [Q _].
  rewrite (Same i j Hi Hj) in Q.
  assert (E : nbr_mean cyc nlat nlon (mixed g (fst (qsweep m nlat nlon cyc rc g)) i j) i j = nbr_mean cyc nlat nlon g i j).
  { unfold nbr_mean. f_equal. f_equal. apply map_ext_in. intros [a b] Hab.
    destruct (nbrs_in_grid _ _ _ _ _ _ _ Hlat Hlon Hi Hj Hab) as [Ga Gb]. cbn [fst snd]. unfold mixed.
    destruct (earlierb (a, b) (i, j)); auto. }
  rewrite E in Q. set (mn := nbr_mean cyc nlat nlon g i j) in *.
  assert (Z : (rc * (mn - g i j))%Qc = 0%Qc) by (transitivity (g i j + rc * (mn - g i j) - g i j)%Qc; [ring|rewrite <- Q; ring]).
  destruct (Qcmult_integral _ _ Z) as [X|X]; [tauto|]. symmetry. qclra.
Qed.

(** ** Range of the neighbour mean *)
Lemma nbr_mean_range (h : qgrid) lo hi i j :
  (forall a b, In (a, b) (nbrs cyc nlat nlon i j) -> (lo <= h a b /\ h a b <= hi)%Qc) ->
  (lo <= nbr_mean cyc nlat nlon h i j /\ nbr_mean cyc nlat nlon h i j <= hi)%Qc.
Proof.
  intros H. unfold nbr_mean, nbrs in *. cbn [map qsum fold_right fst snd].
  set (c1 := (row_nbr nlat (Z.of_nat i - 1), j)) in *.
  set (c2 := (row_nbr nlat (Z.of_nat i + 1), j)) in *.
  set (c3 := (i, col_nbr cyc nlon (Z.of_nat j - 1))) in *.
  set (c4 := (i, col_nbr cyc nlon (Z.of_nat j + 1))) in *.
  destruct (H (fst c1) (snd c1)) as [A1 B1]; [left; reflexivity|].
  destruct (H (fst c2) (snd c2)) as [A2 B2]; [right; left; reflexivity|].
  destruct (H (fst c3) (snd c3)) as [A3 B3]; [right; right; left; reflexivity|].
  destruct (H (fst c4) (snd c4)) as [A4 B4]; [right; right; right; left; reflexivity|].
  cbn [fst snd c1 c2 c3 c4] in *.
  set (v1 := h (row_nbr nlat (Z.of_nat i - 1)) j) in *. set (v2 := h (row_nbr nlat (Z.of_nat i + 1)) j) in *.
  set (v3 := h i (col_nbr cyc nlon (Z.of_nat j - 1))) in *. set (v4 := h i (col_nbr cyc nlon (Z.of_nat j + 1))) in *.
  clearbody v1 v2 v3 v4. clear H c1 c2 c3 c4. split; qclra.
Qed.
(** Change of the mean. *)
Lemma nbr_mean_sub (h k : qgrid) i j :
  (nbr_mean cyc nlat nlon h i j - nbr_mean cyc nlat nlon k i j)%Qc
  = nbr_mean cyc nlat nlon (fun a b => (h a b - k a b)%Qc) i j.
Proof. unfold nbr_mean, nbrs. cbn [map qsum fold_right fst snd]. rewrite qz4. field. exact qz4_neq. Qed.

(** ** Maximum principle *)
Lemma sweep_range g lo hi :
  (0 <= rc)%Qc -> (rc <= 1)%Qc ->
  (forall i j, i < nlat -> j < nlon -> (lo <= g i j /\ g i j <= hi)%Qc) ->
  forall i j, i < nlat -> j < nlon ->
  (lo <= fst (qsweep m nlat nlon cyc rc g) i j /\ fst (qsweep m nlat nlon cyc rc g) i j <= hi)%Qc.
Proof.
  intros R0 R1 Hg. unfold qsweep, sweep.
  assert (Inv : forall l (st : qgrid * Qc), (forall c, In c l -> fst c < nlat /\ snd c < nlon) ->
     (forall i j, i < nlat -> j < nlon -> (lo <= fst st i j /\ fst st i j <= hi)%Qc) ->
     (forall i j, i < nlat -> j < nlon -> (lo <= fst (fold_left step l st) i j /\ fst (fold_left step l st) i j <= hi)%Qc)).
  { induction l as [|[i j] l IH]; intros [g1 r1] Hl H1; cbn [fold_left]; auto.
    apply IH; [intros; apply Hl; right; auto|].
    destruct (Hl (i, j) (or_introl eq_refl)) as [Hi Hj]. cbn [fst snd] in Hi, Hj, H1.
    unfold step, relax_cell. destruct (masked m i j) eqn:M; auto. cbn [fst].
    intros a b Ha Hb. unfold gset. destruct (Nat.eqb_spec a i), (Nat.eqb_spec b j); cbn [andb]; subst; auto.
    rewrite residual_mean by auto. change (aadd QcA) with Qcplus.
    assert (Mean : (lo <= nbr_mean cyc nlat nlon g1 i j /\ nbr_mean cyc nlat nlon g1 i j <= hi)%Qc).
    { apply nbr_mean_range. intros a b Hab. destruct (nbrs_in_grid _ _ _ _ _ _ _ Hlat Hlon Hi Hj Hab). auto. }
    destruct (H1 i j Hi Hj) as [G1 G2]. destruct Mean as [M1 M2].
    set (mn := nbr_mean cyc nlat nlon g1 i j) in *. set (x := g1 i j) in *. clearbody mn x.
    clear - R0 R1 G1 G2 M1 M2.
    assert (P1 := @Qcmul_nonneg rc%Qc (mn - lo)%Qc R0 ltac:(qclra)).
    assert (P2 := @Qcmul_nonneg (1 - rc)%Qc (x - lo)%Qc ltac:(qclra) ltac:(qclra)).
    assert (P3 := @Qcmul_nonneg rc%Qc (hi - mn)%Qc R0 ltac:(qclra)).
    assert (P4 := @Qcmul_nonneg (1 - rc)%Qc (hi - x)%Qc ltac:(qclra) ltac:(qclra)).
    assert (I1 : (rc * (mn - lo) + (1 - rc) * (x - lo))%Qc = (x + rc * (mn - x) - lo)%Qc) by ring.
    assert (I2 : (rc * (hi - mn) + (1 - rc) * (hi - x))%Qc = (hi - (x + rc * (mn - x)))%Qc) by ring.
    set (y := (x + rc * (mn - x))%Qc) in *. clearbody y.
    set (p1 := (rc * (mn - lo))%Qc) in *. set (p2 := ((1 - rc) * (x - lo))%Qc) in *.
    set (p3 := (rc * (hi - mn))%Qc) in *. set (p4 := ((1 - rc) * (hi - x))%Qc) in *. clearbody p1 p2 p3 p4.
    split; qclra. }
  apply Inv; auto. intros [i j] Hc. apply in_cells in Hc. exact Hc.
Qed.
Lemma sweeps_range n g lo hi :
  (0 <= rc)%Qc -> (rc <= 1)%Qc ->
  (forall i j, i < nlat -> j < nlon -> (lo <= g i j /\ g i j <= hi)%Qc) ->
  forall i j, i < nlat -> j < nlon ->
  (lo <= qsweeps n m nlat nlon cyc rc g i j /\ qsweeps n m nlat nlon cyc rc g i j <= hi)%Qc.
Proof.
  intros R0 R1 Hg. induction n; auto. unfold qsweeps in *. cbn [sweeps].
  apply sweep_range; auto.
Qed.

(** ** A small last sweep bounds the Laplace residual of the result *)
Lemma small_sweep_harmonic g tol :
  (0 < rc)%Qc -> (rc <= 1)%Qc -> (snd (qsweep m nlat nlon cyc rc g) <= tol)%Qc ->
  let g' := fst (qsweep m nlat nlon cyc rc g) in
  forall i j, i < nlat -> j < nlon -> masked m i j = true ->
  (qabs (nbr_mean cyc nlat nlon g' i j - g' i j) * rc <= tol)%Qc.
Proof.
  intros R0 R1 Ht g' i j Hi Hj M.
  assert (Ch : forall a b, a < nlat -> b < nlon -> (- tol <= g' a b - g a b /\ g' a b - g a b <= tol)%Qc).
  { intros a b Ha Hb. destruct (masked m a b) eqn:Mab.
    - destruct (sweep_equation g a b Ha Hb Mab) as [_ Q]. apply qabs_le. eapply Qcle_trans; [exact Q|exact Ht].
    - assert (E : g' a b = g a b) by (apply (sweep_keeps QcA); auto). rewrite E.
      assert (T0 : (0 <= tol)%Qc).
      { destruct (sweep_equation g i j Hi Hj M) as [_ Q].
        eapply Qcle_trans; [|exact Ht]. eapply Qcle_trans; [apply qabs_nonneg|exact Q]. }
      split; qclra. }
  destruct (sweep_equation g i j Hi Hj M) as [Q _]. fold g' in Q.
  pose proof (nbr_mean_sub g' (mixed g g' i j) i j) as D.
  assert (B : (- tol <= nbr_mean cyc nlat nlon (fun a b => (g' a b - mixed g g' i j a b)%Qc) i j /\
               nbr_mean cyc nlat nlon (fun a b => (g' a b - mixed g g' i j a b)%Qc) i j <= tol)%Qc).
  { apply nbr_mean_range. intros a b Hab. destruct (nbrs_in_grid _ _ _ _ _ _ _ Hlat Hlon Hi Hj Hab) as [Ha Hb].
    unfold mixed. destruct (earlierb (a, b) (i, j)); [|apply Ch; auto].
    destruct (Ch a b Ha Hb). assert ((0 <= tol)%Qc) by qclra. split; qclra. }
  rewrite <- D in B. destruct (Ch i j Hi Hj) as [C1 C2].
  set (mg := nbr_mean cyc nlat nlon g' i j) in *. set (mx := nbr_mean cyc nlat nlon (mixed g g' i j) i j) in *.
  set (x := g i j) in *. set (x' := g' i j) in *. clearbody mg mx x x'. clear - R0 R1 B C1 C2 Q.
  destruct B as [B1 B2].
  (* mg - x' = (mg - mx) + (mx - x) - (x' - x), and rc*(mx - x) = x' - x *)
  assert (E : (rc * (mg - x'))%Qc = (rc * (mg - mx) + (1 - rc) * (x' - x))%Qc).
  { rewrite Q. ring. }
  assert (P1 := @Qcmul_nonneg rc%Qc (tol - (mg - mx))%Qc (Qclt_le_weak _ _ R0) ltac:(qclra)).
  assert (P2 := @Qcmul_nonneg rc%Qc (tol + (mg - mx))%Qc (Qclt_le_weak _ _ R0) ltac:(qclra)).
  assert (P3 := @Qcmul_nonneg (1 - rc)%Qc (tol - (x' - x))%Qc ltac:(qclra) ltac:(qclra)).
  assert (P4 := @Qcmul_nonneg (1 - rc)%Qc (tol + (x' - x))%Qc ltac:(qclra) ltac:(qclra)).
  assert (I1 : (rc * (tol - (mg - mx)) + (1 - rc) * (tol - (x' - x)))%Qc = (tol - rc * (mg - x'))%Qc) by (rewrite E; ring).
  assert (I2 : (rc * (tol + (mg - mx)) + (1 - rc) * (tol + (x' - x)))%Qc = (tol + rc * (mg - x'))%Qc) by (rewrite E; ring).
  assert (Fin : (rc * (mg - x') <= tol)%Qc /\ (- tol <= rc * (mg - x'))%Qc).
  { set (y := (rc * (mg - x'))%Qc) in *. clearbody y.
    set (p1 := (rc * (tol - (mg - mx)))%Qc) in *. set (p2 := (rc * (tol + (mg - mx)))%Qc) in *.
    set (p3 := ((1 - rc) * (tol - (x' - x)))%Qc) in *. set (p4 := ((1 - rc) * (tol + (x' - x)))%Qc) in *. clearbody p1 p2 p3 p4.
    split; qclra. }
  unfold qabs. destruct Fin as [F1 F2].
  destruct (Qcltb_spec (mg - x') 0).
  - replace (- (mg - x') * rc)%Qc with (- (rc * (mg - x')))%Qc by ring. set (y := (rc * (mg - x'))%Qc) in *. clearbody y. qclra.
  - replace ((mg - x') * rc)%Qc with (rc * (mg - x'))%Qc by ring. exact F1.
Qed.
End Sweep.

Lemma harmonic_sweeps n m nlat nlon cyc rc g :
  2 <= nlat -> 2 <= nlon -> harmonic_on (masked m) cyc nlat nlon g ->
  forall i j, qsweeps n m nlat nlon cyc rc g i j = g i j.
Proof.
  intros H1 H2 H. induction n; auto. intros i j. unfold qsweeps in *. cbn [sweeps].
  assert (H' : harmonic_on (masked m) cyc nlat nlon (sweeps QcA n m nlat nlon cyc rc g)).
  { intros a b Ha Hb M. rewrite IHn. rewrite (H a b Ha Hb M). unfold nbr_mean. f_equal. f_equal.
    apply map_ext. intros c. symmetry. apply IHn. }
  destruct (harmonic_sweep m nlat nlon cyc rc H1 H2 _ H') as [E _]. unfold qsweep in E. rewrite E. apply IHn.
Qed.

(** ** Uniqueness of the filled grid *)
Lemma max_exists (B : Type) (f : B -> Qc) (l : list B) x :
  In x l -> exists y, In y l /\ forall z, In z l -> (f z <= f y)%Qc.
Proof.
  revert x. induction l as [|a l IH]; intros x; [intros []|]. intros _.
  destruct l as [|b l].
  - exists a. split; [left; auto|]. intros z [<-|[]]. apply Qcle_refl.
  - destruct (IH b (or_introl eq_refl)) as (y & Hy & Hm).
    destruct (Qclt_le_dec (f a) (f y)) as [L|L].
    + exists y. split; [right; auto|]. intros z [<-|Hz]; [apply Qclt_le_weak; auto|auto].
    + exists a. split; [left; auto|]. intros z [<-|Hz]; [apply Qcle_refl|]. eapply Qcle_trans; [apply Hm; auto|auto].
Qed.
Lemma harmonic_max_principle mk nlat nlon cyc (d : qgrid) i j :
  2 <= nlat -> 2 <= nlon ->
  (forall a b, a < nlat -> b < nlon -> reaches_observed mk cyc nlat nlon a b) ->
  (forall a b, a < nlat -> b < nlon -> mk a b = true -> d a b = nbr_mean cyc nlat nlon d a b) ->
  (forall a b, a < nlat -> b < nlon -> mk a b = false -> (d a b <= 0)%Qc) ->
  i < nlat -> j < nlon -> (d i j <= 0)%Qc.
Proof.
  intros H1 H2 Hr Hh Ho Hi Hj.
  destruct (max_exists _ (fun c => d (fst c) (snd c)) (cells nlat nlon) (i, j)) as ([p q] & Hp & Hm).
  { apply in_cells; auto. }
  apply in_cells in Hp. destruct Hp as [Hp Hq]. cbn [fst snd] in Hm.
  assert (Mx : forall a b, a < nlat -> b < nlon -> (d a b <= d p q)%Qc).
  { intros a b Ha Hb. apply (Hm (a, b)). apply in_cells; auto. }
  assert (Key : forall a b, reaches_observed mk cyc nlat nlon a b -> a < nlat -> b < nlon -> d a b = d p q -> (d p q <= 0)%Qc).
  { intros a b R. induction R as [a b O|a b a' b' I R IH]; intros Ha Hb E.
    - rewrite <- E. apply Ho; auto.
    - destruct (mk a b) eqn:M; [|rewrite <- E; apply Ho; auto].
      destruct (nbrs_in_grid _ _ _ _ _ _ _ H1 H2 Ha Hb I) as [Ha' Hb']. apply IH; auto.
      pose proof (Hh a b Ha Hb M) as Q. rewrite E in Q. unfold nbr_mean in Q.
      assert (L : forall c, In c (nbrs cyc nlat nlon a b) -> (d (fst c) (snd c) <= d p q)%Qc).
      { intros [x y] Hc. destruct (nbrs_in_grid _ _ _ _ _ _ _ H1 H2 Ha Hb Hc). apply Mx; auto. }
      unfold nbrs in Q, I, L. cbn [map qsum fold_right fst snd] in Q.
      pose proof (L _ (or_introl eq_refl)) as L1. pose proof (L _ (or_intror (or_introl eq_refl))) as L2.
      pose proof (L _ (or_intror (or_intror (or_introl eq_refl)))) as L3.
      pose proof (L _ (or_intror (or_intror (or_intror (or_introl eq_refl))))) as L4.
      cbn [fst snd] in L1, L2, L3, L4. clear L.
      set (M0 := d p q) in *. simpl in I.
      destruct I as [X|[X|[X|[X|[]]]]]; inversion X; subst a' b'; clear X;
      (set (v1 := d (row_nbr nlat (Z.of_nat a - 1)) b) in *; set (v2 := d (row_nbr nlat (Z.of_nat a + 1)) b) in *;
       set (v3 := d a (col_nbr cyc nlon (Z.of_nat b - 1))) in *; set (v4 := d a (col_nbr cyc nlon (Z.of_nat b + 1))) in *;
       clearbody v1 v2 v3 v4 M0;
       assert (Q4 : (M0 + M0 + M0 + M0 = v1 + (v2 + (v3 + (v4 + 0))))%Qc)
         by (rewrite Q; rewrite qz4; field; exact qz4_neq);
       clear - L1 L2 L3 L4 Q4; apply Qcle_antisym; qclra). }
  eapply Qcle_trans; [apply Mx; auto|]. apply (Key p q); auto.
Qed.
Lemma harmonic_unique mk nlat nlon cyc (g h : qgrid) i j :
  2 <= nlat -> 2 <= nlon ->
  (forall a b, a < nlat -> b < nlon -> reaches_observed mk cyc nlat nlon a b) ->
  harmonic_on mk cyc nlat nlon g -> harmonic_on mk cyc nlat nlon h ->
  (forall a b, a < nlat -> b < nlon -> mk a b = false -> g a b = h a b) ->
  i < nlat -> j < nlon -> g i j = h i j.
Proof.
  intros H1 H2 Hr Hg Hh Ho Hi Hj.
  assert (S0 : forall g h : qgrid, harmonic_on mk cyc nlat nlon g -> harmonic_on mk cyc nlat nlon h ->
     (forall a b, a < nlat -> b < nlon -> mk a b = false -> g a b = h a b) -> (g i j - h i j <= 0)%Qc).
  { clear g h Hg Hh Ho. intros g h Hg Hh Ho.
    apply (harmonic_max_principle mk nlat nlon cyc (fun a b => (g a b - h a b)%Qc) i j); auto.
    - intros a b Ha Hb M. rewrite <- nbr_mean_sub, <- Hg, <- Hh by auto. reflexivity.
    - intros a b Ha Hb M. rewrite Ho by auto. qclra. }
  pose proof (S0 g h Hg Hh Ho) as L1. pose proof (S0 h g Hh Hg ltac:(intros; symmetry; auto)) as L2.
  apply Qcle_antisym; qclra.
Qed.

(** ** Ranges of the initial guesses *)
Lemma obs_sum_range m (g : qgrid) i lo hi l n z :
  (forall j, In j l -> masked m i j = false -> (lo <= g i j /\ g i j <= hi)%Qc) ->
  (qnat n * lo <= z /\ z <= qnat n * hi)%Qc ->
  let '(n', z') := obs_sum QcA m g i l n z in
  (qnat n' * lo <= z' /\ z' <= qnat n' * hi)%Qc /\ n <= n' /\
  ((exists j, In j l /\ masked m i j = false) -> n < n').
Proof.
  revert n z. induction l as [|x l IH]; intros n z Hl Hz; cbn [obs_sum].
  - split; auto. split; auto. intros (j & [] & _).
  - destruct (masked m i x) eqn:M.
    + specialize (IH n z (fun j h => Hl j (or_intror h)) Hz). destruct (obs_sum QcA m g i l n z) as [n' z'].
      destruct IH as (I1 & I2 & I3). split; auto. split; auto.
      intros (j & [<-|Hj] & Mj); [congruence|]. apply I3. exists j; auto.
    + destruct (Hl x (or_introl eq_refl) M) as [X1 X2]. change (aadd QcA z (g i x)) with (z + g i x)%Qc.
      assert (Q : qnat (n + 1) = (qnat n + 1)%Qc).
      { unfold qnat. rewrite Nat2Z.inj_add, qz_add. change (Z.of_nat 1) with 1%Z. rewrite qz_1. reflexivity. }
      specialize (IH (n + 1) (z + g i x)%Qc (fun j h => Hl j (or_intror h))).
      destruct (obs_sum QcA m g i l (n + 1) (z + g i x)%Qc) as [n' z'].
      destruct IH as (I1 & I2 & I3).
      { rewrite Q. destruct Hz as [Z1 Z2]. split.
        - replace ((qnat n + 1) * lo)%Qc with (qnat n * lo + lo)%Qc by ring.
          set (u := (qnat n * lo)%Qc) in *. set (w := g i x) in *. clearbody u w. qclra.
        - replace ((qnat n + 1) * hi)%Qc with (qnat n * hi + hi)%Qc by ring.
          set (u := (qnat n * hi)%Qc) in *. set (w := g i x) in *. clearbody u w. qclra. }
      split; auto. split; [lia|]. intros _. lia.
Qed.
Lemma div_range lo hi z q : (0 < q -> q * lo <= z -> z <= q * hi -> lo <= z / q /\ z / q <= hi)%Qc.
Proof.
  intros Hq H1 H2. assert (Nq := Qcpos_neq Hq).
  assert (I := Qcinv_pos Hq).
  split.
  - assert (P := @Qcmul_nonneg (z - q * lo)%Qc (/ q)%Qc ltac:(qclra) (Qclt_le_weak _ _ I)).
    replace ((z - q * lo) * / q)%Qc with (z / q - lo)%Qc in P by (field; auto). set (y := (z / q)%Qc) in *. clearbody y. qclra.
  - assert (P := @Qcmul_nonneg (q * hi - z)%Qc (/ q)%Qc ltac:(qclra) (Qclt_le_weak _ _ I)).
    replace ((q * hi - z) * / q)%Qc with (hi - z / q)%Qc in P by (field; auto). set (y := (z / q)%Qc) in *. clearbody y. qclra.
Qed.
Lemma qnat_pos n : 0 < n -> (0 < qnat n)%Qc.
Proof. intros. unfold qnat. rewrite <- qz_0. apply qz_lt. lia. Qed.
Lemma qnat_le a b : a <= b -> (qnat a <= qnat b)%Qc.
Proof. intros. unfold qnat. apply qz_le. lia. Qed.
Lemma qnat_0 : qnat 0 = 0%Qc.
Proof. apply qz_0. Qed.
Lemma interp_range lo hi a b k n :
  0 < n -> k <= n -> (lo <= a -> a <= hi -> lo <= b -> b <= hi ->
  lo <= qnat k * (b - a) / qnat n + a /\ qnat k * (b - a) / qnat n + a <= hi)%Qc.
Proof.
  intros Hn Hk A1 A2 B1 B2.
  assert (Pn := qnat_pos n Hn). assert (Nn := Qcpos_neq Pn). assert (Lk := qnat_le _ _ Hk).
  assert (K0 := qnat_le 0 k (Nat.le_0_l k)). rewrite qnat_0 in K0.
  replace (qnat k * (b - a) / qnat n + a)%Qc with ((qnat k * b + (qnat n - qnat k) * a) / qnat n)%Qc by (field; auto).
  set (kk := qnat k) in *. set (nn := qnat n) in *. clearbody kk nn.
  apply div_range; auto.
  - assert (P1 := @Qcmul_nonneg kk%Qc (b - lo)%Qc K0 ltac:(qclra)).
    assert (P2 := @Qcmul_nonneg (nn - kk)%Qc (a - lo)%Qc ltac:(qclra) ltac:(qclra)).
    assert (I : (kk * (b - lo) + (nn - kk) * (a - lo) = kk * b + (nn - kk) * a - nn * lo)%Qc) by ring.
    set (p1 := (kk * (b - lo))%Qc) in *. set (p2 := ((nn - kk) * (a - lo))%Qc) in *.
    set (s := (kk * b + (nn - kk) * a)%Qc) in *. set (t := (nn * lo)%Qc) in *. clearbody p1 p2 s t. qclra.
  - assert (P1 := @Qcmul_nonneg kk%Qc (hi - b)%Qc K0 ltac:(qclra)).
    assert (P2 := @Qcmul_nonneg (nn - kk)%Qc (hi - a)%Qc ltac:(qclra) ltac:(qclra)).
    assert (I : (kk * (hi - b) + (nn - kk) * (hi - a) = nn * hi - (kk * b + (nn - kk) * a))%Qc) by ring.
    set (p1 := (kk * (hi - b))%Qc) in *. set (p2 := ((nn - kk) * (hi - a))%Qc) in *.
    set (s := (kk * b + (nn - kk) * a)%Qc) in *. set (t := (nn * hi)%Qc) in *. clearbody p1 p2 s t. qclra.
Qed.

(** When is a row initialised inside the range of its observed values? *)
Definition row_interpolated (m : mask_t) (nlon : nat) (mode : init_mode) (cyc : bool) (i : nat) : Prop :=
  mode = InitZonal \/
  (mode = InitZonalLinear /\ (cyc = true \/ masked m i 1 = masked m i (nlon - 1))).

Lemma init_row_range m nlat nlon mode cyc v (g : qgrid) i j lo hi :
  2 <= nlon -> i < nlat -> j < nlon ->
  row_interpolated m nlon mode cyc i ->
  (exists j0, j0 < nlon /\ masked m i j0 = false) ->
  (forall b, b < nlon -> masked m i b = false -> (lo <= g i b /\ g i b <= hi)%Qc) ->
  (lo <= initialize_missing QcA m nlat nlon mode cyc v g i j /\
   initialize_missing QcA m nlat nlon mode cyc v g i j <= hi)%Qc.
Proof.
  intros Hn Hi Hj Hm Ho Hr.
  destruct (masked m i j) eqn:M.
  2:{ rewrite (init_keeps QcA) by auto. auto. }
  destruct (init_row_at QcA m nlat nlon mode cyc v g i Hn Hi) as (g1 & E1 & E2). rewrite E2.
  assert (Hr1 : forall b, b < nlon -> masked m i b = false -> (lo <= g1 i b /\ g1 i b <= hi)%Qc).
  { intros. rewrite E1. auto. }
  destruct Hm as [->|[-> Hc]]; cbn [init_row].
  - rewrite zonal_mean_row_spec.
    pose proof (obs_sum_range m g1 i lo hi (seq 0 nlon) 0 0%Qc) as R.
    change (a0 QcA) with 0%Qc. destruct (obs_sum QcA m g1 i (seq 0 nlon) 0 0%Qc) as [n z].
    destruct R as (R1 & _ & R3).
    + intros b Hb Mb. apply in_seq in Hb. apply Hr1; auto. lia.
    + rewrite qnat_0. split; qclra.
    + assert (Pn : 0 < n). { apply R3. destruct Ho as (j0 & H0 & M0). exists j0. split; auto. apply in_seq. lia. }
      rewrite Nat.eqb_refl, M. destruct (Nat.ltb_spec 0 n), (Nat.ltb_spec j nlon); try lia. cbn [andb].
      change (adiv QcA z (anat QcA n)) with (z / qnat n)%Qc. apply div_range; try tauto. apply qnat_pos; auto.
  - destruct (zonal_linear_row_cases QcA m nlon cyc v i g1 Hn) as (_ & C & _).
    assert (Same : masked m i (fst (longitude_indices 0 nlon cyc)) = masked m i (nlon - 1)).
    { destruct cyc; [reflexivity|]. destruct Hc as [?|Hc]; [discriminate|exact Hc]. }
    destruct (C Ho Same j Hj M) as (a & b & k & n & Ha & Hb & Ma & Mb & Hk & Hn0 & ->).
    apply (interp_range lo hi (g1 i a) (g1 i b) k n); auto; apply Hr1; auto.
Qed.

Definition all_rows_ok (m : mask_t) (nlat nlon : nat) (mode : init_mode) (cyc : bool) : Prop :=
  mode = InitConst \/
  forall i, i < nlat -> row_interpolated m nlon mode cyc i /\ exists j, j < nlon /\ masked m i j = false.
Lemma init_range m nlat nlon mode cyc v (g : qgrid) lo hi :
  2 <= nlon -> all_rows_ok m nlat nlon mode cyc ->
  (forall i j, i < nlat -> j < nlon -> masked m i j = false -> (lo <= g i j /\ g i j <= hi)%Qc) ->
  (mode = InitConst -> (lo <= v /\ v <= hi)%Qc) ->
  forall i j, i < nlat -> j < nlon ->
  (lo <= initialize_missing QcA m nlat nlon mode cyc v g i j /\ initialize_missing QcA m nlat nlon mode cyc v g i j <= hi)%Qc.
Proof.
  intros Hn Hr Ho Hv i j Hi Hj. destruct Hr as [->|Hr].
  - destruct (init_row_at QcA m nlat nlon InitConst cyc v g i Hn Hi) as (g1 & E1 & E2). rewrite E2.
    cbn [init_row]. rewrite const_row_spec, Nat.eqb_refl. destruct (Nat.ltb_spec j nlon); [|lia].
    destruct (masked m i j) eqn:M; cbn [andb]; [auto|]. rewrite E1. auto.
  - destruct (Hr i Hi) as [R1 R2]. apply init_row_range; auto.
Qed.

(** ** The whole solver *)
Lemma poisson_fill_range (P : params QcA) m nlat nlon (g : qgrid) lo hi :
  2 <= nlat -> 2 <= nlon ->
  (0 <= p_relax QcA P)%Qc -> (p_relax QcA P <= 1)%Qc ->
  (forall i j, i < nlat -> j < nlon -> (0 <= m i j)%Z) ->
  all_rows_ok m nlat nlon (p_mode QcA P) (p_cyclic QcA P) ->
  (forall i j, i < nlat -> j < nlon -> masked m i j = false -> (lo <= g i j /\ g i j <= hi)%Qc) ->
  (p_mode QcA P = InitConst -> (lo <= p_init QcA P /\ p_init QcA P <= hi)%Qc) ->
  forall i j, i < nlat -> j < nlon ->
  (lo <= fst (fst (poisson_fill QcA P m nlat nlon g)) i j /\ fst (fst (poisson_fill QcA P m nlat nlon g)) i j <= hi)%Qc.
Proof.
  intros H1 H2 R0 R1 Hm Hr Ho Hv i j Hi Hj.
  destruct (poisson_fill QcA P m nlat nlon g) as [[g' n] r] eqn:E. cbn [fst].
  destruct (Z.eq_dec (int_sum m nlat nlon) 0) as [Z0|Z0].
  - unfold poisson_fill in E. destruct (Z.eqb_spec (int_sum m nlat nlon) 0); [|tauto]. inversion E; subst.
    apply Ho; auto. apply (int_sum_zero m nlat nlon); auto.
  - destruct (poisson_fill_spec QcA _ _ _ _ _ _ _ _ E Z0) as (_ & -> & _).
    apply (sweeps_range m nlat nlon (p_cyclic QcA P) (p_relax QcA P) H1 H2 n); auto.
    apply init_range; auto.
Qed.

(** A grid that is constant after initialisation stays constant (any relax). *)
Lemma poisson_fill_constant (P : params QcA) m nlat nlon (g : qgrid) c :
  2 <= nlat -> 2 <= nlon ->
  (forall i j, i < nlat -> j < nlon -> (0 <= m i j)%Z) ->
  all_rows_ok m nlat nlon (p_mode QcA P) (p_cyclic QcA P) ->
  (forall i j, i < nlat -> j < nlon -> masked m i j = false -> g i j = c) ->
  (p_mode QcA P = InitConst -> p_init QcA P = c) ->
  forall i j, i < nlat -> j < nlon -> fst (fst (poisson_fill QcA P m nlat nlon g)) i j = c.
Proof.
  intros H1 H2 Hm Hr Ho Hv i j Hi Hj.
  destruct (poisson_fill QcA P m nlat nlon g) as [[g' n] r] eqn:E. cbn [fst].
  destruct (Z.eq_dec (int_sum m nlat nlon) 0) as [Z0|Z0].
  - unfold poisson_fill in E. destruct (Z.eqb_spec (int_sum m nlat nlon) 0); [|tauto]. inversion E; subst.
    apply Ho; auto. apply (int_sum_zero m nlat nlon); auto.
  - destruct (poisson_fill_spec QcA _ _ _ _ _ _ _ _ E Z0) as (_ & -> & _).
    assert (C : forall a b, a < nlat -> b < nlon -> init_of QcA P m nlat nlon g a b = c).
    { intros a b Ha Hb.
      destruct (init_range m nlat nlon (p_mode QcA P) (p_cyclic QcA P) (p_init QcA P) g c c H2 Hr) with (i := a) (j := b) as [X Y]; auto.
      - intros x y Hx Hy M. rewrite (Ho x y Hx Hy M). split; apply Qcle_refl.
      - intros X. rewrite (Hv X). split; apply Qcle_refl.
      - apply Qcle_antisym; auto. }
    assert (Hh : harmonic_on (masked m) (p_cyclic QcA P) nlat nlon (init_of QcA P m nlat nlon g)).
    { intros a b Ha Hb M. rewrite C by auto. symmetry.
      destruct (nbr_mean_range nlat nlon (p_cyclic QcA P) (init_of QcA P m nlat nlon g) c c a b) as [X Y].
      - intros x y Hxy. destruct (nbrs_in_grid _ _ _ _ _ _ _ H1 H2 Ha Hb Hxy). rewrite C by auto. split; apply Qcle_refl.
      - apply Qcle_antisym; auto. }
    rewrite <- (C i j Hi Hj). apply (harmonic_sweeps n m nlat nlon (p_cyclic QcA P) (p_relax QcA P)); auto.
Qed.
