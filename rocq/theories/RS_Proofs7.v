(** Round trips: analysis after synthesis, divergence and vorticity of a
    gradient, and of the wind built from vorticity and divergence. *)
From Coq Require Import Reals List Arith Lia Lra Bool ZArith.
From Verif Require Import Base Buffer VH_Model VH_Proofs SH_Spec SH_Model SH_Proofs SH_Proofs2 SH_Proofs3 SH_Proofs4 SH_Props.
From Verif Require Import RS_Model RS_Model2 RS_Spec RS_Dft RS_Proofs1 RS_Proofs2 RS_Proofs3 RS_Proofs4 RS_Proofs5 RS_Proofs6.
Import ListNotations.
Local Open Scope R_scope.
Local Notation C := RS_Model.C.

Lemma dft_ext N x y m : (forall i, (i < N)%nat -> x i = y i) -> dft N x m = dft N y m.
Proof. intros H. unfold dft. f_equal; f_equal; [|f_equal]; apply sumR_ext; intros i Hi; rewrite H by exact Hi; reflexivity. Qed.
Lemma dft_plus N x y m : dft N (fun i => x i + y i) m = (fst (dft N x m) + fst (dft N y m), snd (dft N x m) + snd (dft N y m)).
Proof.
  unfold dft. cbn [fst snd].
  rewrite (sumR_ext N (fun i => (x i + y i) * cos (angle N m i)) (fun i => x i * cos (angle N m i) + y i * cos (angle N m i))) by (intros; ring).
  rewrite (sumR_ext N (fun i => (x i + y i) * sin (angle N m i)) (fun i => x i * sin (angle N m i) + y i * sin (angle N m i))) by (intros; ring).
  rewrite !sumR_plus. unfold Rdiv. f_equal; ring.
Qed.
Lemma dft_opp N x m : dft N (fun i => - x i) m = (- fst (dft N x m), - snd (dft N x m)).
Proof.
  unfold dft. cbn [fst snd].
  rewrite (sumR_ext N (fun i => (- x i) * cos (angle N m i)) (fun i => -1 * (x i * cos (angle N m i)))) by (intros; ring).
  rewrite (sumR_ext N (fun i => (- x i) * sin (angle N m i)) (fun i => -1 * (x i * sin (angle N m i)))) by (intros; ring).
  rewrite !sumR_scal. unfold Rdiv. f_equal; ring.
Qed.

(** what one row keeps of the coefficient of order m *)
Definition kept (N m : nat) (c : C) : C := (fst c, if orb (m =? 0)%nat (2 * m =? N)%nat then 0 else snd c).
Lemma kept_full N T m c : (2 * T < N)%nat -> (m <= T)%nat -> kept N m c = real_part_at_0 m c.
Proof. intros H1 H2. unfold kept, real_part_at_0. destruct (Nat.eqb_spec (2 * m) N); [lia|]. rewrite orb_false_r. reflexivity. Qed.

Lemma row_dft_series pl g j T c m : (1 <= row_len pl j)%nat -> (forall i, (i < row_len pl j)%nat -> point pl g j i = series (row_len pl j) T c i) ->
  (m <= T)%nat -> (2 * m <= row_len pl j)%nat -> row_dft pl g j m = kept (row_len pl j) m (c m).
Proof.
  intros H1 H Hm H2. unfold row_dft. rewrite (dft_ext _ _ _ _ H). apply dft_series; lia.
Qed.

(** sums over the rows *)
Lemma over_rows_all pl m f : (forall j, (1 <= j <= length pl)%nat -> (2 * m <= row_len pl j)%nat) -> over_rows pl m f = all_rows (length pl) f.
Proof.
  intros H. unfold over_rows, all_rows. apply sumR_ext. intros k Hk. unfold resolves.
  destruct (Nat.leb_spec (2 * m) (row_len pl (S k))) as [|L]; [reflexivity|]. specialize (H (S k)). lia.
Qed.
Lemma over_rows_ext pl m f g : (forall j, (1 <= j <= length pl)%nat -> (2 * m <= row_len pl j)%nat -> f j = g j) -> over_rows pl m f = over_rows pl m g.
Proof.
  intros H. unfold over_rows. apply sumR_ext. intros k Hk. unfold resolves. destruct (Nat.leb_spec (2 * m) (row_len pl (S k))); [|reflexivity]. apply H; lia.
Qed.
Lemma all_rows_ext n f g : (forall j, (1 <= j <= n)%nat -> f j = g j) -> all_rows n f = all_rows n g.
Proof. intros H. unfold all_rows. apply sumR_ext. intros k Hk. apply H. lia. Qed.
Lemma all_rows_over_n n T m (f : nat -> nat -> R) : all_rows n (fun j => over_n T m (f j)) = over_n T m (fun n' => all_rows n (fun j => f j n')).
Proof. unfold all_rows, over_n. apply sumR_swap. Qed.
Lemma all_rows_plus n f g : all_rows n (fun j => f j + g j) = all_rows n f + all_rows n g.
Proof. apply (sumR_plus n (fun k => f (S k)) (fun k => g (S k))). Qed.
Lemma all_rows_scal n c f : all_rows n (fun j => c * f j) = c * all_rows n f.
Proof. apply (sumR_scal n c (fun k => f (S k))). Qed.
Lemma over_n_ext T m f g : (forall n, (m <= n <= T)%nat -> f n = g n) -> over_n T m f = over_n T m g.
Proof. intros H. unfold over_n. apply sumR_ext. intros k Hk. apply H. lia. Qed.
Lemma over_n_scal T m c f : over_n T m (fun n => c * f n) = c * over_n T m f.
Proof. apply (sumR_scal _ c (fun k => f (m + k)%nat)). Qed.
Lemma over_n_plus T m f g : over_n T m (fun n => f n + g n) = over_n T m f + over_n T m g.
Proof. apply (sumR_plus _ (fun k => f (m + k)%nat) (fun k => g (m + k)%nat)). Qed.
Lemma over_n_one T m n (v : nat -> R) (x : R) : (m <= n <= T)%nat -> over_n T m (fun n' => v n' * (if (n =? n')%nat then x else 0)) = v n * x.
Proof.
  intros Hn. unfold over_n. rewrite (sumR_one _ _ (n - m)); [|lia|].
  - replace (m + (n - m))%nat with n by lia. rewrite Nat.eqb_refl. reflexivity.
  - intros i Hi Hne. destruct (Nat.eqb_spec n (m + i)); [lia|]. ring.
Qed.

(** ** Scalar: analysis of a synthesised field *)
Section Scalar.
Variables (pl : list nat) (T : nat) (weights : list R) (basis : list (list R)) (spec : list C) (g : list R).
Hypothesis Hrows : forall j, (1 <= j <= length pl)%nat -> (1 <= row_len pl j)%nat.
Hypothesis SYN : synthesised pl T basis spec g.

Lemma synth_dft j m : (1 <= j <= length pl)%nat -> (m <= T)%nat -> (2 * m <= row_len pl j)%nat ->
  row_dft pl g j m = kept (row_len pl j) m (leg T spec basis j m).
Proof. intros Hj Hm H2. destruct SYN as [_ P]. apply row_dft_series with (T := T); auto. Qed.

(** sums over the rows that resolve m, and those where the sine part survives *)
Definition gram (m n n' : nat) : R := over_rows pl m (fun j => row_value weights j * entry T basis j m n * entry T basis j m n').
Definition gram_sin (m n n' : nat) : R :=
  over_rows pl m (fun j => if orb (m =? 0)%nat (2 * m =? row_len pl j)%nat then 0 else row_value weights j * entry T basis j m n * entry T basis j m n').
Lemma gram_form m n : (m <= n <= T)%nat ->
  (over_rows pl m (term pl T g weights basis m n fst), over_rows pl m (term pl T g weights basis m n snd)) =
  (over_n T m (fun n' => fst (coef T spec m n') * gram m n n'), over_n T m (fun n' => snd (coef T spec m n') * gram_sin m n n')).
Proof.
  intros Hn.
  assert (SW : forall (b : nat -> bool) (f : nat -> nat -> R), sumR (length pl) (fun k => if b k then over_n T m (f k) else 0) = over_n T m (fun n' => sumR (length pl) (fun k => if b k then f k n' else 0))).
  { intros b f. unfold over_n. rewrite <- sumR_swap. apply sumR_ext. intros k _. destruct (b k); [reflexivity|]. symmetry. apply sumR_0. auto. }
  f_equal.
  - rewrite (over_rows_ext pl m _ (fun j => over_n T m (fun n' => fst (coef T spec m n') * (row_value weights j * entry T basis j m n * entry T basis j m n')))).
    + unfold over_rows. rewrite SW. apply over_n_ext. intros n' _. unfold gram, over_rows. rewrite <- sumR_scal. apply sumR_ext. intros k _. destruct (resolves pl m (S k)); ring.
    + intros j Hj H2. unfold term. rewrite synth_dft by (auto; lia). unfold kept, leg. cbn [fst snd].
      rewrite Rmult_comm, <- over_n_scal. apply over_n_ext. intros n' _. unfold coef, entry. ring.
  - rewrite (over_rows_ext pl m _ (fun j => over_n T m (fun n' => snd (coef T spec m n') * (if orb (m =? 0)%nat (2 * m =? row_len pl j)%nat then 0 else row_value weights j * entry T basis j m n * entry T basis j m n')))).
    + unfold over_rows. rewrite SW. apply over_n_ext. intros n' _. unfold gram_sin, over_rows. rewrite <- sumR_scal. apply sumR_ext. intros k _. destruct (resolves pl m (S k)); ring.
    + intros j Hj H2. unfold term. rewrite synth_dft by (auto; lia). unfold kept, leg. cbn [fst snd].
      destruct (orb (m =? 0)%nat (2 * m =? row_len pl j)%nat).
      * rewrite (over_n_ext T m (fun n' => _ * 0) (fun n' => 0 * 0)) by (intros; ring). rewrite over_n_scal. ring.
      * rewrite Rmult_comm, <- over_n_scal. apply over_n_ext. intros n' _. unfold coef, entry. ring.
Qed.

Lemma gram_full m n n' : full_rows pl T -> orthonormal T (length pl) weights basis -> (m <= n <= T)%nat -> (m <= n' <= T)%nat ->
  gram m n n' = (if (n =? n')%nat then 1 else 0) /\ gram_sin m n n' = (if (m =? 0)%nat then 0 else if (n =? n')%nat then 1 else 0).
Proof.
  intros F O Hn Hn'. unfold gram, gram_sin. rewrite !over_rows_all by (intros j Hj; specialize (F j Hj); lia). split; [apply O; assumption|].
  destruct (Nat.eqb_spec m 0) as [E|E]; cbn [orb].
  - unfold all_rows. apply sumR_0. reflexivity.
  - rewrite <- (O m n n' Hn Hn'). apply all_rows_ext. intros j Hj. specialize (F j Hj). destruct (Nat.eqb_spec (2 * m) (row_len pl j)); [lia|reflexivity].
Qed.
End Scalar.

(** ** Vector: the rows of a gradient *)
Section Vector.
Variables (pl : list nat) (T : nat) (weights : list R) (basis dbasis : list (list R)) (sin_theta : list R) (r : R).
Hypothesis Hr : r <> 0.
Hypothesis Hs : forall j, (1 <= j <= length pl)%nat -> row_value sin_theta j <> 0.
Hypothesis FULL : full_rows pl T.
Hypothesis ORTH : gradient_orthogonal T (length pl) weights basis dbasis sin_theta.

Definition east_row (spec : list C) (j m : nat) : C := real_part_at_0 m (u_coef T basis sin_theta r spec j m).
Definition north_row (spec : list C) (j m : nat) : C := real_part_at_0 m (v_coef T dbasis r spec j m).

Lemma gradient_dft spec ge : gradient_of pl T basis dbasis sin_theta r spec ge -> forall j m, (1 <= j <= length pl)%nat -> (m <= T)%nat ->
  row_dft pl (fst ge) j m = east_row spec j m /\ row_dft pl (snd ge) j m = north_row spec j m.
Proof.
  intros (_ & _ & P) j m Hj Hm. pose proof (FULL j Hj) as F. unfold east_row, north_row.
  rewrite <- !(kept_full (row_len pl j) T) by lia.
  split; apply row_dft_series with (T := T); try lia; intros i Hi; apply P; assumption.
Qed.

Definition two (f : nat -> C) : C := (all_rows (length pl) (fun j => fst (f j)), all_rows (length pl) (fun j => snd (f j))).
Definition term_of (kind : R -> R -> R -> R -> R -> nat -> C -> C -> C) (m n : nat) (U V : nat -> C) (j : nat) : C :=
  kind (row_value weights j) r (row_value sin_theta j) (entry T basis j m n) (entry T dbasis j m n) m (U j) (V j).

(** the four sums, written with the sums over the degrees outside *)
Lemma quad_swap (v : nat -> R) m (k : nat -> nat -> R) :
  all_rows (length pl) (fun j => over_n T m (fun n' => v n' * k j n')) = over_n T m (fun n' => v n' * all_rows (length pl) (fun j => k j n')).
Proof. rewrite all_rows_over_n. apply over_n_ext. intros n' _. rewrite <- all_rows_scal. reflexivity. Qed.

Lemma div_grad spec m n : (m <= n <= T)%nat ->
  two (term_of divergence_term m n (fun j => east_row spec j m) (fun j => north_row spec j m)) =
  (let k := - (INR n * (INR n + 1)) / (r * r) in let c := real_part_at_0 m (coef T spec m n) in (k * fst c, k * snd c)).
Proof.
  intros Hn. cbv zeta.
  assert (Q : forall pick : C -> R,
    all_rows (length pl) (fun j => row_value weights j / r * (-1 * (INR m / row_value sin_theta j * entry T basis j m n * (INR m / (r * row_value sin_theta j) * over_n T m (fun n' => pick (coef T spec m n') * entry T basis j m n')))
       + entry T dbasis j m n * (- (1 / r) * over_n T m (fun n' => pick (coef T spec m n') * entry T dbasis j m n')))) =
    - (INR n * (INR n + 1)) / (r * r) * pick (coef T spec m n)).
  { intros pick.
    rewrite (all_rows_ext _ _ (fun j => over_n T m (fun n' => (- (1 / (r * r)) * pick (coef T spec m n')) *
       (row_value weights j * ((INR m / row_value sin_theta j) * (INR m / row_value sin_theta j) * entry T basis j m n * entry T basis j m n' + entry T dbasis j m n * entry T dbasis j m n'))))).
    - rewrite quad_swap. rewrite (over_n_ext T m _ (fun n' => (- (1 / (r * r)) * pick (coef T spec m n')) * (if (n =? n')%nat then INR n * (INR n + 1) else 0))).
      + rewrite over_n_one by exact Hn. field. exact Hr.
      + intros n' Hn'. destruct (ORTH m n n' Hn Hn') as [E _]. cbv zeta in E. rewrite E. reflexivity.
    - intros j Hj. pose proof (Hs j Hj) as S0. rewrite <- !over_n_scal, <- over_n_plus, <- over_n_scal. apply over_n_ext. intros n' _. field. auto. }
  unfold two, term_of, divergence_term. cbn [fst snd]. f_equal.
  - refine (eq_trans _ (Q fst)). apply all_rows_ext. intros j Hj. unfold east_row, north_row, u_coef, v_coef, east, north, real_part_at_0, leg. cbn [fst snd].
    destruct (Nat.eqb_spec m 0) as [->|Hm0]; cbn [INR]; unfold Rdiv; ring.
  - destruct (Nat.eqb_spec m 0) as [E0|Hm0].
    + unfold real_part_at_0. rewrite E0. cbn [Nat.eqb fst snd]. rewrite Rmult_0_r. unfold all_rows. apply sumR_0. intros k _.
      unfold east_row, north_row, real_part_at_0. cbn [Nat.eqb fst snd]. cbn [INR]. unfold Rdiv. ring.
    + unfold real_part_at_0. destruct (Nat.eqb_spec m 0); [lia|]. cbn [snd].
      refine (eq_trans _ (Q snd)). apply all_rows_ext. intros j Hj. unfold east_row, north_row, u_coef, v_coef, east, north, real_part_at_0, leg. cbn [fst snd].
      destruct (Nat.eqb_spec m 0); [lia|]. cbn [snd]. unfold Rdiv; ring.
Qed.

Lemma curl_grad spec m n : (m <= n <= T)%nat ->
  two (term_of vorticity_term m n (fun j => east_row spec j m) (fun j => north_row spec j m)) = (0, 0).
Proof.
  intros Hn.
  assert (Q : forall pick : C -> R,
    all_rows (length pl) (fun j => row_value weights j / r * (INR m / row_value sin_theta j * entry T basis j m n * (1 / r * over_n T m (fun n' => pick (coef T spec m n') * entry T dbasis j m n'))
       + entry T dbasis j m n * (INR m / (r * row_value sin_theta j) * over_n T m (fun n' => pick (coef T spec m n') * entry T basis j m n')))) = 0).
  { intros pick.
    rewrite (all_rows_ext _ _ (fun j => over_n T m (fun n' => (1 / (r * r) * pick (coef T spec m n')) *
       (row_value weights j * (INR m / row_value sin_theta j) * (entry T basis j m n * entry T dbasis j m n' + entry T dbasis j m n * entry T basis j m n'))))).
    - rewrite quad_swap. rewrite (over_n_ext T m _ (fun n' => 0 * 0)); [rewrite over_n_scal; ring|].
      intros n' Hn'. destruct (ORTH m n n' Hn Hn') as [_ E]. cbv zeta in E. rewrite E. ring.
    - intros j Hj. pose proof (Hs j Hj) as S0. rewrite <- !over_n_scal, <- over_n_plus, <- over_n_scal. apply over_n_ext. intros n' _. field. auto. }
  unfold two, term_of, vorticity_term. cbn [fst snd]. destruct (Nat.eqb_spec m 0) as [E0|Hm0].
  - f_equal; unfold all_rows; apply sumR_0; intros k _; unfold east_row, north_row, u_coef, v_coef, east, real_part_at_0; rewrite E0; cbn [Nat.eqb fst snd INR]; unfold Rdiv; ring.
  - f_equal.
    + refine (eq_trans _ (Q snd)). apply all_rows_ext. intros j Hj. unfold east_row, north_row, u_coef, v_coef, east, north, real_part_at_0, leg. cbn [fst snd].
      destruct (Nat.eqb_spec m 0); [lia|]. cbn [fst snd]. unfold Rdiv; ring.
    + refine (eq_trans _ (eq_trans (f_equal (Rmult (-1)) (Q fst)) (Rmult_0_r _))). rewrite <- all_rows_scal. apply all_rows_ext. intros j Hj. unfold east_row, north_row, u_coef, v_coef, east, north, real_part_at_0, leg. cbn [fst snd].
      destruct (Nat.eqb_spec m 0); [lia|]. cbn [fst snd]. unfold Rdiv; ring.
Qed.

(** linearity, and the rotation of a gradient *)
Definition cadd (a b : C) : C := (fst a + fst b, snd a + snd b).
Definition copp (a : C) : C := (- fst a, - snd a).
Lemma two_ext f g : (forall j, (1 <= j <= length pl)%nat -> f j = g j) -> two f = two g.
Proof. intros H. unfold two. f_equal; apply all_rows_ext; intros j Hj; rewrite H by exact Hj; reflexivity. Qed.
Lemma two_add f g : two (fun j => cadd (f j) (g j)) = cadd (two f) (two g).
Proof. unfold two, cadd. cbn [fst snd]. rewrite !all_rows_plus. reflexivity. Qed.
Lemma two_opp f : two (fun j => copp (f j)) = copp (two f).
Proof.
  unfold two, copp. cbn [fst snd]. rewrite (all_rows_ext _ (fun j => - fst (f j)) (fun j => -1 * fst (f j))) by (intros; ring).
  rewrite (all_rows_ext _ (fun j => - snd (f j)) (fun j => -1 * snd (f j))) by (intros; ring). rewrite !all_rows_scal. f_equal; ring.
Qed.
Lemma div_rotated m n U1 V1 E2 N2 j : term_of divergence_term m n (fun j => cadd (U1 j) (copp (N2 j))) (fun j => cadd (V1 j) (E2 j)) j
  = cadd (term_of divergence_term m n U1 V1 j) (copp (term_of vorticity_term m n E2 N2 j)).
Proof. unfold term_of, divergence_term, vorticity_term, cadd, copp. cbn [fst snd]. f_equal; unfold Rdiv; ring. Qed.
Lemma vrt_rotated m n U1 V1 E2 N2 j : term_of vorticity_term m n (fun j => cadd (U1 j) (copp (N2 j))) (fun j => cadd (V1 j) (E2 j)) j
  = cadd (term_of vorticity_term m n U1 V1 j) (term_of divergence_term m n E2 N2 j).
Proof. unfold term_of, divergence_term, vorticity_term, cadd, copp. cbn [fst snd]. f_equal; unfold Rdiv; ring. Qed.

Lemma sums_of_two ug vg kind spec (U V : nat -> nat -> C) : sums_of pl T ug vg weights basis dbasis sin_theta r kind spec ->
  (forall j m, (1 <= j <= length pl)%nat -> (m <= T)%nat -> row_dft pl ug j m = U j m /\ row_dft pl vg j m = V j m) ->
  forall m n, (m <= n <= T)%nat -> coef T spec m n = two (term_of kind m n (fun j => U j m) (fun j => V j m)).
Proof.
  intros [_ H] D m n Hn. rewrite (H m n Hn). unfold two.
  rewrite !over_rows_all by (intros j Hj; specialize (FULL j Hj); lia).
  f_equal; apply all_rows_ext; intros j Hj; destruct (D j m Hj ltac:(lia)) as [E1 E2]; unfold row_term, term_of; rewrite E1, E2; reflexivity.
Qed.
End Vector.

(** ** Pointwise combinations of grids *)
Lemma point_sub pl a b j i : length a = list_sum pl -> length b = list_sum pl -> point pl (array_sub a b) j i = point pl a j i + - point pl b j i.
Proof.
  intros Ha Hb. unfold point, array_sub. set (k := (row_start pl j + i)%nat).
  destruct (Nat.lt_ge_cases k (length a)) as [L|L].
  - rewrite (nth_mapd _ _ _ _ (0, 0)) by (rewrite combine_length; lia). rewrite combine_nth by congruence. cbn [fst snd]. ring.
  - rewrite !nth_overflow; [ring|lia|lia|]. rewrite map_length, combine_length. lia.
Qed.
Lemma point_add pl a b j i : length a = list_sum pl -> length b = list_sum pl -> point pl (array_add a b) j i = point pl a j i + point pl b j i.
Proof.
  intros Ha Hb. unfold point, array_add. set (k := (row_start pl j + i)%nat).
  destruct (Nat.lt_ge_cases k (length a)) as [L|L].
  - rewrite (nth_mapd _ _ _ _ (0, 0)) by (rewrite combine_length; lia). rewrite combine_nth by congruence. cbn [fst snd]. ring.
  - rewrite !nth_overflow; [ring|lia|lia|]. rewrite map_length, combine_length. lia.
Qed.
Lemma array_sub_length a b : length a = length b -> length (array_sub a b) = length a.
Proof. intros H. unfold array_sub. rewrite map_length, combine_length. lia. Qed.
Lemma array_add_length a b : length a = length b -> length (array_add a b) = length a.
Proof. intros H. unfold array_add. rewrite map_length, combine_length. lia. Qed.
Lemma dft_sub pl a b j m : length a = list_sum pl -> length b = list_sum pl -> row_dft pl (array_sub a b) j m = cadd (row_dft pl a j m) (copp (row_dft pl b j m)).
Proof.
  intros Ha Hb. unfold row_dft. rewrite (dft_ext _ _ (fun i => point pl a j i + - point pl b j i)) by (intros; apply point_sub; assumption).
  rewrite (dft_plus _ (point pl a j) (fun i => - point pl b j i)), dft_opp. reflexivity.
Qed.
Lemma dft_add pl a b j m : length a = list_sum pl -> length b = list_sum pl -> row_dft pl (array_add a b) j m = cadd (row_dft pl a j m) (row_dft pl b j m).
Proof.
  intros Ha Hb. unfold row_dft. rewrite (dft_ext _ _ (fun i => point pl a j i + point pl b j i)) by (intros; apply point_add; assumption).
  rewrite (dft_plus _ (point pl a j) (point pl b j)). reflexivity.
Qed.

(** ** The inverse Laplacian, coefficient by coefficient *)
Lemma coef_pointwise T (d : list C) f m n : length d = tri T -> (m <= n <= T)%nat -> coef T (pointwise T f d) m n = f m n (coef T d m n).
Proof.
  intros Hd Hn. unfold coef. pose proof (index_lt T m n Hn) as L.
  destruct (nth_error d (index T m n)) as [c|] eqn:E; [|apply nth_error_None in E; lia].
  assert (P : nth_error (pairs T) (index T m n) = Some (m, n)) by (apply nth_pairs; exact Hn).
  rewrite (nth_error_nth (pointwise T f d) _ _ (pointwise_nth _ _ T f d _ m n c E P)).
  rewrite (nth_error_nth d _ _ E). reflexivity.
Qed.
Lemma invlap_coef T r (d fresh : list C) : ok_len RR d T -> length fresh = length d ->
  exists l, invlap RR r d fresh = Some l /\ length l = tri T /\
    forall m n, (m <= n <= T)%nat -> coef T l m n = if (n =? 0)%nat then (0, 0) else
      (- (r * r) / (INR n * (INR n + 1)) * fst (coef T d m n), - (r * r) / (INR n * (INR n + 1)) * snd (coef T d m n)).
Proof.
  intros Hd Hf. unfold invlap. rewrite (trunc_ok RR d T Hd). cbn [bind]. destruct Hd as [Hd _].
  rewrite invlap_result by (cbn in *; unfold RS_Model.C in *; lia).
  rewrite skipn_all2 by (cbn in *; unfold RS_Model.C in *; lia). rewrite app_nil_r.
  eexists. split; [reflexivity|]. split; [apply pointwise_length; unfold RS_Model.C in *; cbn in *; lia|].
  intros m n Hn. rewrite (coef_pointwise T d) by (assumption || exact Hd). destruct (Nat.eqb_spec n 0) as [E|E]; [reflexivity|].
  unfold cscale, ilapf. cbn [RR rmul rdiv ropp rsub rz].
  assert (K : (IZR (Z.of_nat n + 1) * (IZR (Z.of_nat n + 1) - 1) = INR n * (INR n + 1))%R).
  { rewrite plus_IZR, <- INR_IZR_INZ. ring. }
  rewrite K. reflexivity.
Qed.
