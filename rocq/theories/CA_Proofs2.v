From Coq Require Import Lia Arith ZArith List Bool Reals Lra.
From Verif Require Import Base SH_Model TP_Model CA_Model CA_Spec CA_Proofs DC_Proofs.
Import ListNotations.
Local Close Scope Qc_scope.
Local Open Scope R_scope.

(** ** The residual sum of squares *)
Lemma INR_len (l : list (R * R)) : l <> [] -> 0 < INR (length l).
Proof. destruct l; [congruence|]. intros _. cbn [length]. rewrite S_INR. pose proof (pos_INR (length l)). lra. Qed.
Lemma centred l : l <> [] -> total (fun e => fst e - mean_x l) l = 0 /\ total (fun e => snd e - mean_y l) l = 0.
Proof.
  intro Hl. pose proof (INR_len l Hl).
  rewrite (total_ext (fun e => fst e - mean_x l) (fun e => fst e + - mean_x l)) by (intros; ring).
  rewrite (total_ext (fun e => snd e - mean_y l) (fun e => snd e + - mean_y l)) by (intros; ring).
  rewrite !total_add, !total_const. unfold mean_x, mean_y.
  change (total (fun e => fst e) l) with (total fst l). change (total (fun e => snd e) l) with (total snd l). split; field; lra.
Qed.
Lemma ssr_decomp l a b : l <> [] ->
  ssr l a b = Syy l - 2 * a * Sxy l + a * a * Sxx l
    + INR (length l) * ((mean_y l - a * mean_x l - b) * (mean_y l - a * mean_x l - b)).
Proof.
  intro Hl. destruct (centred l Hl) as [Cx Cy]. set (c := mean_y l - a * mean_x l - b).
  transitivity (Syy l + - (2 * a) * Sxy l + a * a * Sxx l + 2 * c * total (fun e => snd e - mean_y l) l
     + - (2 * a * c) * total (fun e => fst e - mean_x l) l + INR (length l) * (c * c)); [|rewrite Cx, Cy; ring].
  unfold ssr, Sxx, Syy, Sxy. rewrite <- total_const, <- !total_scale, <- !total_add.
  apply total_ext. intros e _. unfold c. ring.
Qed.
Lemma minimiser_unique l a b : 0 < Sxx l -> minimises l a b -> a = Sxy l / Sxx l /\ b = mean_y l - a * mean_x l.
Proof.
  intros Hs Hm. assert (Hl : l <> []) by (intros ->; unfold Sxx in Hs; cbn in Hs; lra).
  specialize (Hm (Sxy l / Sxx l) (mean_y l - Sxy l / Sxx l * mean_x l)).
  rewrite !ssr_decomp in Hm by exact Hl. pose proof (INR_len l Hl) as Hn.
  set (c := mean_y l - a * mean_x l - b) in *.
  assert (E0 : mean_y l - Sxy l / Sxx l * mean_x l - (mean_y l - Sxy l / Sxx l * mean_x l) = 0) by ring. rewrite E0 in Hm.
  assert (E : Sxx l * ((a - Sxy l / Sxx l) * (a - Sxy l / Sxx l)) + INR (length l) * (c * c) <= 0).
  { apply Rle_trans with ((Syy l - 2 * a * Sxy l + a * a * Sxx l + INR (length l) * (c * c))
      - (Syy l - 2 * (Sxy l / Sxx l) * Sxy l + Sxy l / Sxx l * (Sxy l / Sxx l) * Sxx l + INR (length l) * (0 * 0))); [|lra].
    right. field. lra. }
  pose proof (Rle_0_sqr (a - Sxy l / Sxx l)) as Q1. pose proof (Rle_0_sqr c) as Q2. unfold Rsqr in *.
  assert (Z1 : (a - Sxy l / Sxx l) * (a - Sxy l / Sxx l) = 0).
  { apply Rle_antisym; [|exact Q1]. apply Rmult_le_reg_l with (Sxx l); [exact Hs|]. rewrite Rmult_0_r. pose proof (Rmult_le_pos _ _ (Rlt_le _ _ Hn) Q2). lra. }
  assert (Z2 : c * c = 0).
  { apply Rle_antisym; [|exact Q2]. apply Rmult_le_reg_l with (INR (length l)); [exact Hn|]. rewrite Rmult_0_r. pose proof (Rmult_le_pos _ _ (Rlt_le _ _ Hs) Q1). lra. }
  apply Rmult_integral in Z1. apply Rmult_integral in Z2. split; [lra|]. unfold c in Z2. lra.
Qed.
Lemma minimiser_exists l : 0 < Sxx l -> minimises l (Sxy l / Sxx l) (mean_y l - Sxy l / Sxx l * mean_x l).
Proof.
  intros Hs a b. assert (Hl : l <> []) by (intros ->; unfold Sxx in Hs; cbn in Hs; lra).
  rewrite !ssr_decomp by exact Hl. pose proof (INR_len l Hl) as Hn. set (c := mean_y l - a * mean_x l - b).
  assert (E0 : mean_y l - Sxy l / Sxx l * mean_x l - (mean_y l - Sxy l / Sxx l * mean_x l) = 0) by ring. rewrite E0.
  pose proof (Rmult_le_pos _ _ (Rlt_le _ _ Hs) (Rle_0_sqr (a - Sxy l / Sxx l))) as Q1.
  pose proof (Rmult_le_pos _ _ (Rlt_le _ _ Hn) (Rle_0_sqr c)) as Q2. unfold Rsqr in *.
  apply Rle_trans with ((Syy l - 2 * a * Sxy l + a * a * Sxx l + INR (length l) * (c * c)) - (Sxx l * ((a - Sxy l / Sxx l) * (a - Sxy l / Sxx l)) + INR (length l) * (c * c))); [|lra].
  right. field. lra.
Qed.
(** constant predictor: Sxx = 0 forces every x to be the mean *)
Lemma Sxx_zero l : Sxx l = 0 -> Sxy l = 0.
Proof. intro H. pose proof (Sxy_sq l) as C. rewrite H in C. nra. Qed.
Lemma Sxx_nonneg l : 0 <= Sxx l.
Proof. apply total_nonneg. intro e. apply Rle_0_sqr. Qed.
Lemma minimiser_const l a b : l <> [] -> Sxx l = 0 -> (minimises l a b <-> a * mean_x l + b = mean_y l).
Proof.
  intros Hl Hs. pose proof (Sxx_zero l Hs) as Hxy. pose proof (INR_len l Hl) as Hn. split.
  - intro H. specialize (H 0 (mean_y l)). rewrite !ssr_decomp, Hs, Hxy in H by exact Hl.
    assert (E : (mean_y l - a * mean_x l - b) * (mean_y l - a * mean_x l - b) <= 0).
    { apply Rmult_le_reg_l with (INR (length l)); [exact Hn|]. rewrite Rmult_0_r.
      assert (E0 : mean_y l - 0 * mean_x l - mean_y l = 0) by ring. rewrite E0 in H. lra. }
    pose proof (Rle_0_sqr (mean_y l - a * mean_x l - b)) as Q. unfold Rsqr in Q.
    assert (Z : (mean_y l - a * mean_x l - b) * (mean_y l - a * mean_x l - b) = 0) by lra.
    apply Rmult_integral in Z. lra.
  - intros E a' b'. rewrite !ssr_decomp, Hs, Hxy by exact Hl.
    assert (E0 : mean_y l - a * mean_x l - b = 0) by lra. rewrite E0.
    pose proof (Rmult_le_pos _ _ (Rlt_le _ _ Hn) (Rle_0_sqr (mean_y l - a' * mean_x l - b'))) as Q. unfold Rsqr in Q. lra.
Qed.
Lemma min_norm_line c m a b : a * c + b = m ->
  (forall a' b', a' * c + b' = m -> a * a + b * b <= a' * a' + b' * b') ->
  a = c * m / (c * c + 1) /\ b = m / (c * c + 1).
Proof.
  intros E H. assert (Hp : 0 < c * c + 1) by nra.
  specialize (H (c * m / (c * c + 1)) (m / (c * c + 1)) ltac:(field; lra)).
  set (a0 := c * m / (c * c + 1)) in *. set (b0 := m / (c * c + 1)) in *.
  assert (Ea : a0 = c * b0) by (unfold a0, b0; field; lra).
  assert (Eb : a0 * c + b0 = m) by (unfold a0, b0; field; lra).
  assert (Z : (a - a0) * (a - a0) + (b - b0) * (b - b0) <= 0).
  { replace ((a - a0) * (a - a0) + (b - b0) * (b - b0)) with
      (a * a + b * b - (a0 * a0 + b0 * b0) - 2 * b0 * ((a * c + b) - (a0 * c + b0)) - 2 * (a0 - c * b0) * (a - a0)) by ring.
    rewrite E, Eb, Ea. replace (c * b0 - c * b0) with 0 by ring. rewrite Ea in H. lra. }
  pose proof (Rle_0_sqr (a - a0)) as Q1. pose proof (Rle_0_sqr (b - b0)) as Q2. unfold Rsqr in *.
  assert (Z1 : (a - a0) * (a - a0) = 0) by lra. assert (Z2 : (b - b0) * (b - b0) = 0) by lra.
  apply Rmult_integral in Z1, Z2. split; lra.
Qed.
Lemma min_norm_line_ok c m a' b' : a' * c + b' = m ->
  (c * m / (c * c + 1)) * (c * m / (c * c + 1)) + (m / (c * c + 1)) * (m / (c * c + 1)) <= a' * a' + b' * b'.
Proof.
  intro E. assert (Hp : 0 < c * c + 1) by nra.
  apply Rle_trans with (m * m / (c * c + 1)); [right; field; lra|].
  apply Rmult_le_reg_r with (c * c + 1); [exact Hp|]. unfold Rdiv. rewrite Rmult_assoc, Rinv_l, Rmult_1_r by lra.
  rewrite <- E. pose proof (Rle_0_sqr (a' - c * b')) as Q. unfold Rsqr in Q. lra.
Qed.

(** An explicit solver that meets the contract. *)
Definition solve (rows : list (R * R)) (y : list R) : option (R * R) :=
  let l := combine (map fst rows) y in
  if Rlt_dec 0 (Sxx l) then Some (Sxy l / Sxx l, mean_y l - Sxy l / Sxx l * mean_x l)
  else let c := mean_x l in let m := mean_y l in Some (c * m / (c * c + 1), m / (c * c + 1)).
Lemma solve_contract : lstsq_contract solve.
Proof.
  intros x y a b Hl E. unfold solve in E. rewrite map_map in E.
  assert (Ex : map (fun v => fst (v, 1)) x = x) by apply map_id. rewrite Ex in E.
  set (l := combine x y) in *. destruct (Rlt_dec 0 (Sxx l)) as [H|H]; injection E as <- <-.
  - split; [apply minimiser_exists; exact H|]. intros a' b' M.
    destruct (minimiser_unique _ _ _ H M) as [-> ->]. lra.
  - destruct l as [|e l'] eqn:El.
    + split; [intros a' b'; cbn; lra|]. intros a' b' _. unfold mean_x, mean_y. cbn.
      replace (0 / 0) with 0 by (unfold Rdiv; ring).
      pose proof (Rle_0_sqr a'). pose proof (Rle_0_sqr b'). unfold Rsqr in *.
      replace (0 * 0 / (0 * 0 + 1)) with 0 by (unfold Rdiv; ring). replace (0 / (0 * 0 + 1)) with 0 by (unfold Rdiv; ring). lra.
    + assert (Hn : e :: l' <> []) by discriminate. pose proof (Sxx_nonneg (e :: l')).
      assert (Hz : Sxx (e :: l') = 0) by lra. set (L := e :: l') in *.
      split.
      * apply (minimiser_const L _ _ Hn Hz). assert (0 < mean_x L * mean_x L + 1) by nra. field. lra.
      * intros a' b' M. apply (minimiser_const L _ _ Hn Hz) in M. apply min_norm_line_ok. exact M.
Qed.

(** ** linear_regression *)
Lemma all_some_nth {X : Type} (l : list (option X)) r : all_some l = Some r -> l = map Some r.
Proof.
  revert r. induction l as [|[x|] l IH]; cbn; intros r E; [injection E as <-; reflexivity| |discriminate].
  destruct (all_some l) as [q|]; [|discriminate]. injection E as <-. cbn. f_equal. apply IH; reflexivity.
Qed.
Lemma zeroed_length (l : list (option R)) : length (zeroed RO l) = length l.
Proof. apply map_length. Qed.
Lemma restore (l : list (option R)) :
  zip2 (fun c (m : bool) => if m then None else c)
    (map (fun c => match c with Some v => Some v | None => Some 0 end) l) (map is_nan l) = l.
Proof. rewrite zip2_map. rewrite <- (map_id l) at 2. apply map_ext. intros [v|]; reflexivity. Qed.
Definition fill0 (l : list (option R)) : list (option R) := map (fun c => match c with Some v => Some v | None => Some 0 end) l.
Lemma fill0_id l : any_nan l = false -> fill0 l = l.
Proof. intro H. induction l as [|[v|] l IH]; cbn in *; [reflexivity|f_equal; auto|discriminate]. Qed.
Lemma zeroed_fill0 l : zeroed RO (fill0 l) = zeroed RO l.
Proof. unfold zeroed, fill0. rewrite map_map. apply map_ext. intros [v|]; reflexivity. Qed.
Lemma fill0_length l : length (fill0 l) = length l. Proof. apply map_length. Qed.
Lemma series_map {X Y : Type} (f : X -> Y) d n np j a : (forall t, (t < n)%nat -> (t * np + j < length a)%nat) ->
  series (f d) n np j (map f a) = map f (series d n np j a).
Proof. intro H. unfold series. rewrite map_map. apply map_ext_in. intros t Ht. apply map_nth. Qed.
Lemma series_fill0 n np j a : length a = (n * np)%nat -> (j < np)%nat ->
  series None n np j (fill0 a) = fill0 (series None n np j a).
Proof.
  intros Hl Hj. assert (B : forall t, (t < n)%nat -> (t * np + j < length a)%nat) by (intros; rewrite Hl; nia).
  unfold fill0 at 2, series. rewrite map_map. apply map_ext_in. intros t Ht. apply in_seq in Ht.
  pose (f := fun c : option R => match c with Some v => Some v | None => Some 0 end).
  rewrite (nth_indep _ None (f None)) by (rewrite fill0_length; apply B; lia).
  change (fill0 a) with (map f a). rewrite map_nth. reflexivity.
Qed.
Lemma mask_series n np j (a : list (option R)) : length a = (n * np)%nat -> (j < np)%nat ->
  existsb (fun b => b) (column n np j (map is_nan a)) = any_nan (series None n np j a).
Proof.
  intros Hl Hj. rewrite (column_series true) by (rewrite ?map_length; assumption).
  unfold series. rewrite (map_ext_in _ (fun t => is_nan (nth (t * np + j) a None))).
  2:{ intros t Ht. apply in_seq in Ht. change true with (is_nan (@None R)). apply map_nth. }
  unfold any_nan. induction (seq 0 n) as [|t l IH]; cbn; [reflexivity|]. rewrite IH. reflexivity.
Qed.

Lemma combine_len {X Y : Type} (l : list X) (m : list Y) n : length l = n -> length m = n -> length (combine l m) = n.
Proof. intros; rewrite combine_length; lia. Qed.
Lemma zip2_len {X Y Z : Type} (f : X -> Y -> Z) l m n : length l = n -> length m = n -> length (zip2 f l m) = n.
Proof. intros. unfold zip2. rewrite map_length. apply combine_len; assumption. Qed.
Lemma map_seq_len {X : Type} (f : nat -> X) n : length (map f (seq 0 n)) = n.
Proof. rewrite map_length, seq_length. reflexivity. Qed.
Lemma fst_nth_combine {X Y : Type} (a : list X) (b : list Y) j x d : length a = length b -> nth_error a j = Some x ->
  fst (nth j (combine a b) d) = x.
Proof.
  revert b j. induction a as [|u a IH]; intros [|v b] [|j] Hl E; cbn in *; try discriminate; [congruence|]. apply IH; [congruence|exact E].
Qed.
Lemma zip2_nth {X Y Z : Type} (f : X -> Y -> Z) l m k x y : nth_error l k = Some x -> nth_error m k = Some y ->
  nth_error (zip2 f l m) k = Some (f x y).
Proof. intros H1 H2. unfold zip2. rewrite nth_error_map, (nth_combine2 _ _ _ _ _ _ _ H1 H2). reflexivity. Qed.
Section Regr.
Variable lstsq : list (R * R) -> list R -> option (R * R).
Hypothesis LS : lstsq_contract lstsq.
Variable freg : list (list R) -> list R -> option (list (option R)).
Notation linreg := (linear_regression RO lstsq freg).

(** the state of the caller's array *)
Lemma linreg_data data predictor :
  o_data (linreg data predictor) = a_data data \/
  (o_result (linreg data predictor) = None /\ o_data (linreg data predictor) = fill0 (a_data data)).
Proof.
  unfold linear_regression. destruct (negb _); [left; reflexivity|].
  destruct (any_nan (a_data data) || any_nan predictor)%bool.
  - destruct (a_shape data) as [|n [|d1 [|d2 [|? ?]]]]; try (right; split; reflexivity).
    cbv zeta. destruct (all_some _) as [cs|]; [|right; split; reflexivity].
    destruct (freg _ _) as [ps|]; [|right; split; reflexivity]. left. cbn [o_data]. apply restore.
  - destruct (a_shape data) as [|n [|d1 [|d2 [|? ?]]]]; try (left; reflexivity).
    cbv zeta. destruct (all_some _) as [cs|]; [|left; reflexivity]. destruct (freg _ _) as [ps|]; left; reflexivity.
Qed.

(** the slopes *)
Lemma linreg_slopes data predictor n d1 d2 res : a_shape data = [n; d1; d2] ->
  length (a_data data) = (n * (d1 * d2))%nat ->
  (forall cols x ps, freg cols x = Some ps -> length ps = length cols) ->
  o_result (linreg data predictor) = Some res ->
  length predictor = n /\ length res = (d1 * d2)%nat /\
  forall j, (j < d1 * d2)%nat -> exists ab,
    lstsq (map (fun v => (v, 1)) (zeroed RO predictor)) (zeroed RO (series None n (d1 * d2) j (a_data data))) = Some ab /\
    fst (nth j res (None, None)) = if any_nan (series None n (d1 * d2) j (a_data data)) then None else Some (fst ab).
Proof.
  intros Hs Hl Hf E. unfold linear_regression in E. cbv zeta in E. unfold a_len in E. rewrite Hs in E. cbn [nth] in E.
  destruct (Nat.eqb_spec n (length predictor)) as [Hn|]; [|discriminate]. cbn [negb] in E.
  split; [congruence|]. set (np := (d1 * d2)%nat) in *.
  destruct (any_nan (a_data data) || any_nan predictor)%bool eqn:EN.
  - destruct (all_some _) as [cs|] eqn:Ec; [|discriminate]. destruct (freg _ _) as [ps|] eqn:Ep; [|discriminate].
    cbn [o_result] in E. injection E as <-.
    apply all_some_nth in Ec. apply Hf in Ep. rewrite map_length, seq_length in Ep.
    assert (Lc : length cs = np) by (apply (f_equal (@length _)) in Ec; rewrite !map_length, seq_length in Ec; congruence).
    split. { apply combine_len; apply zip2_len; solve [apply map_seq_len|assumption]. }
    intros j Hj.
    assert (Ej : nth_error (map (lstsq (map (fun v => (v, rz RO 1)) (zeroed RO predictor)))
        (map (fun j => zeroed RO (column n np j (fill0 (a_data data)))) (seq 0 np))) j
      = Some (lstsq (map (fun v => (v, 1)) (zeroed RO predictor)) (zeroed RO (series None n np j (a_data data))))).
    { rewrite map_map, nth_error_map.
      assert (Eq : nth_error (seq 0 np) j = Some j).
      { rewrite (nth_error_nth' _ 0%nat) by (rewrite seq_length; exact Hj). rewrite seq_nth by exact Hj. reflexivity. }
      rewrite Eq. cbn [option_map].
      rewrite (column_series None) by (rewrite ?fill0_length; assumption). rewrite series_fill0 by assumption.
      rewrite zeroed_fill0. reflexivity. }
    assert (Ej' : nth_error (map Some cs) j = Some (lstsq (map (fun v => (v, 1)) (zeroed RO predictor)) (zeroed RO (series None n np j (a_data data))))).
    { rewrite <- Ec. exact Ej. }
    rewrite nth_error_map in Ej'. destruct (nth_error cs j) as [ab|] eqn:Eab; [|discriminate]. cbn [option_map] in Ej'.
    exists ab. split; [injection Ej' as Ej'; symmetry; exact Ej'|].
    assert (Hm : nth_error (map (fun j => existsb (fun b => b) (column n np j (map is_nan (a_data data)))) (seq 0 np)) j
       = Some (any_nan (series None n np j (a_data data)))).
    { rewrite nth_error_map. rewrite (nth_error_nth' _ 0%nat) by (rewrite seq_length; exact Hj). rewrite seq_nth by exact Hj.
      cbn [option_map Nat.add]. f_equal. apply mask_series; assumption. }
    apply fst_nth_combine.
    { transitivity np; [|symmetry]; apply zip2_len; solve [apply map_seq_len|assumption]. }
    exact (zip2_nth _ _ _ _ _ _ Hm Eab).
  - destruct (all_some _) as [cs|] eqn:Ec; [|discriminate]. destruct (freg _ _) as [ps|] eqn:Ep; [|discriminate].
    cbn [o_result] in E. injection E as <-. apply orb_false_iff in EN. destruct EN as [EN _].
    apply all_some_nth in Ec. apply Hf in Ep. rewrite map_length, seq_length in Ep.
    assert (Lc : length cs = np) by (apply (f_equal (@length _)) in Ec; rewrite !map_length, seq_length in Ec; congruence).
    split. { apply combine_len; [rewrite map_length|]; assumption. }
    intros j Hj.
    assert (Ej' : nth_error (map Some cs) j = Some (lstsq (map (fun v => (v, 1)) (zeroed RO predictor)) (zeroed RO (series None n np j (a_data data))))).
    { rewrite <- Ec. rewrite map_map, nth_error_map.
      rewrite (nth_error_nth' _ 0%nat) by (rewrite seq_length; exact Hj). rewrite seq_nth by exact Hj.
      cbn [option_map Nat.add]. rewrite (column_series None) by assumption. reflexivity. }
    rewrite nth_error_map in Ej'. destruct (nth_error cs j) as [ab|] eqn:Eab; [|discriminate]. cbn [option_map] in Ej'.
    exists ab. split; [injection Ej' as Ej'; symmetry; exact Ej'|].
    rewrite any_nan_series by assumption.
    apply fst_nth_combine; [rewrite map_length; transitivity np; [exact Lc|symmetry; exact Ep]|].
    rewrite nth_error_map. exact (f_equal (option_map (fun c : R * R => Some (fst c))) Eab).
Qed.
End Regr.
