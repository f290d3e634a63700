(** Real sums and the orthogonality of the discrete Fourier basis. *)
From Coq Require Import Reals List Arith Lia Lra.
From Verif Require Import SH_Spec RS_Spec.
Local Open Scope R_scope.

(** ** Sums *)
Lemma sumR_ext n f g : (forall k, (k < n)%nat -> f k = g k) -> sumR n f = sumR n g.
Proof. induction n; simpl; intros H; auto. rewrite IHn by (intros; apply H; lia). rewrite H by lia. reflexivity. Qed.
Lemma sumR_plus n f g : sumR n (fun k => f k + g k) = sumR n f + sumR n g.
Proof. induction n; simpl; [lra|]. rewrite IHn. lra. Qed.
Lemma sumR_minus n f g : sumR n (fun k => f k - g k) = sumR n f - sumR n g.
Proof. induction n; simpl; [lra|]. rewrite IHn. lra. Qed.
Lemma sumR_scal n c f : sumR n (fun k => c * f k) = c * sumR n f.
Proof. induction n; simpl; [lra|]. rewrite IHn. lra. Qed.
Lemma sumR_scal_r n c f : sumR n (fun k => f k * c) = sumR n f * c.
Proof. induction n; simpl; [lra|]. rewrite IHn. lra. Qed.
Lemma sumR_opp n f : sumR n (fun k => - f k) = - sumR n f.
Proof. induction n; simpl; [lra|]. rewrite IHn. lra. Qed.
Lemma sumR_0 n f : (forall k, (k < n)%nat -> f k = 0) -> sumR n f = 0.
Proof. intros H. induction n; simpl; auto. rewrite IHn by (intros; apply H; lia). rewrite H by lia. lra. Qed.
Lemma sumR_swap n p (f : nat -> nat -> R) : sumR n (fun i => sumR p (fun k => f i k)) = sumR p (fun k => sumR n (fun i => f i k)).
Proof. induction n; simpl. - symmetry. apply sumR_0. auto. - rewrite IHn, <- sumR_plus. reflexivity. Qed.
Lemma sumR_one n f k : (k < n)%nat -> (forall i, (i < n)%nat -> i <> k -> f i = 0) -> sumR n f = f k.
Proof.
  intros Hk H. induction n; [lia|]. simpl. destruct (Nat.eq_dec k n) as [->|E].
  - rewrite sumR_0; [lra|]. intros i Hi. apply H; lia.
  - rewrite IHn; [|lia|intros; apply H; lia]. rewrite (H n); [lra|lia|lia].
Qed.
Lemma sumR_split n p f : sumR (n + p) f = sumR n f + sumR p (fun k => f (n + k)%nat).
Proof. induction p. - rewrite Nat.add_0_r. simpl. lra. - rewrite Nat.add_succ_r. simpl. rewrite IHp. lra. Qed.
Lemma sumR_first n f : sumR (S n) f = f 0%nat + sumR n (fun k => f (S k)).
Proof. change (S n) with (1 + n)%nat. rewrite sumR_split. simpl. lra. Qed.
Lemma sumR_rev n f : sumR n f = sumR n (fun k => f (n - 1 - k)%nat).
Proof.
  induction n; [reflexivity|]. rewrite (sumR_first n (fun k => f (S n - 1 - k)%nat)). cbn [sumR]. rewrite IHn.
  replace (S n - 1 - 0)%nat with n by lia. rewrite Rplus_comm. f_equal. apply sumR_ext. intros k Hk. f_equal. lia.
Qed.
Lemma sumR_if n (b : nat -> bool) f : sumR n (fun k => if b k then f k else 0) = sumR n (fun k => (if b k then 1 else 0) * f k).
Proof. apply sumR_ext. intros k _. destruct (b k); lra. Qed.

(** ** Sums of cosines and sines over a full period *)
Lemma cos_sum_telescope t n : 2 * sin (t / 2) * sumR n (fun i => cos (t * INR i)) = sin (t * (INR n - / 2)) + sin (t / 2).
Proof.
  induction n.
  - simpl. rewrite Rmult_0_r. replace (t * (0 - / 2)) with (- (t / 2)) by field. rewrite sin_neg. lra.
  - cbn [sumR]. rewrite Rmult_plus_distr_l, IHn.
    assert (E : 2 * sin (t / 2) * cos (t * INR n) = sin (t * (INR (S n) - / 2)) - sin (t * (INR n - / 2))).
    { rewrite S_INR. replace (t * (INR n + 1 - / 2)) with (t * INR n + t / 2) by field.
      replace (t * (INR n - / 2)) with (t * INR n - t / 2) by field. rewrite sin_plus, sin_minus. ring. }
    rewrite E. ring.
Qed.
Lemma sin_sum_telescope t n : 2 * sin (t / 2) * sumR n (fun i => sin (t * INR i)) = cos (t / 2) - cos (t * (INR n - / 2)).
Proof.
  induction n.
  - simpl. rewrite Rmult_0_r. replace (t * (0 - / 2)) with (- (t / 2)) by field. rewrite cos_neg. lra.
  - cbn [sumR]. rewrite Rmult_plus_distr_l, IHn.
    assert (E : 2 * sin (t / 2) * sin (t * INR n) = cos (t * (INR n - / 2)) - cos (t * (INR (S n) - / 2))).
    { rewrite S_INR. replace (t * (INR n + 1 - / 2)) with (t * INR n + t / 2) by field.
      replace (t * (INR n - / 2)) with (t * INR n - t / 2) by field. rewrite cos_plus, cos_minus. ring. }
    rewrite E. ring.
Qed.

Lemma INR_pos n : (0 < n)%nat -> 0 < INR n.
Proof. apply (lt_INR 0). Qed.

Section Period.
Variable N : nat.
Hypothesis HN : (0 < N)%nat.

Lemma half_sin_neq k : (0 < k < N)%nat -> sin (2 * PI * INR k / INR N / 2) <> 0.
Proof.
  intros Hk. pose proof (INR_pos N HN). assert (0 < INR k) by (apply INR_pos; lia). assert (INR k < INR N) by (apply lt_INR; lia).
  pose proof PI_RGT_0.
  apply Rgt_not_eq. apply sin_gt_0.
  - apply Rdiv_lt_0_compat; [|lra]. apply Rdiv_lt_0_compat; [|lra]. apply Rmult_lt_0_compat; lra.
  - replace (2 * PI * INR k / INR N / 2) with (PI * (INR k / INR N)) by (field; lra).
    rewrite <- (Rmult_1_r PI) at 2. apply Rmult_lt_compat_l; [lra|]. apply Rmult_lt_reg_r with (INR N); [lra|]. unfold Rdiv. rewrite Rmult_assoc, Rinv_l by lra. lra.
Qed.
Lemma angle_t k i : angle N k i = 2 * PI * INR k / INR N * INR i.
Proof. unfold angle. field. pose proof (INR_pos N HN). lra. Qed.
Lemma full_turn k : 2 * PI * INR k / INR N * (INR N - / 2) = - (2 * PI * INR k / INR N / 2) + 2 * INR k * PI.
Proof. pose proof (INR_pos N HN). field. lra. Qed.

Lemma cos_sum_zero k : (0 < k < N)%nat -> sumR N (fun i => cos (angle N k i)) = 0.
Proof.
  intros Hk. pose proof (half_sin_neq k Hk) as H.
  pose proof (cos_sum_telescope (2 * PI * INR k / INR N) N) as E.
  rewrite full_turn, sin_period, sin_neg in E.
  rewrite (sumR_ext N _ (fun i => cos (2 * PI * INR k / INR N * INR i))) by (intros; rewrite angle_t; reflexivity).
  apply Rmult_eq_reg_l with (2 * sin (2 * PI * INR k / INR N / 2)); [|lra]. rewrite E. lra.
Qed.
Lemma sin_sum_zero k : sumR N (fun i => sin (angle N k i)) = 0.
Proof.
  destruct (Req_dec (sin (2 * PI * INR k / INR N / 2)) 0) as [Z|H].
  - (* every angle is a multiple of pi *)
    apply sin_eq_0_0 in Z. destruct Z as [z Z].
    apply sumR_0. intros i _. rewrite angle_t. replace (2 * PI * INR k / INR N * INR i) with ((2 * PI * INR k / INR N / 2) * 2 * INR i) by (field; pose proof (INR_pos N HN); lra).
    rewrite Z. apply sin_eq_0_1. exists (z * 2 * Z.of_nat i)%Z. rewrite !mult_IZR, <- INR_IZR_INZ. ring.
  - pose proof (sin_sum_telescope (2 * PI * INR k / INR N) N) as E. rewrite full_turn, cos_period, cos_neg in E.
    rewrite (sumR_ext N _ (fun i => sin (2 * PI * INR k / INR N * INR i))) by (intros; rewrite angle_t; reflexivity).
    apply Rmult_eq_reg_l with (2 * sin (2 * PI * INR k / INR N / 2)); [|lra]. rewrite E. lra.
Qed.
Lemma cos_sum_full k : (k = 0 \/ k = N)%nat -> sumR N (fun i => cos (angle N k i)) = INR N.
Proof.
  intros Hk. pose proof (INR_pos N HN).
  rewrite (sumR_ext N _ (fun _ => 1)).
  - clear. induction N; simpl; [reflexivity|]. rewrite IHn. destruct n; simpl; lra.
  - intros i _. destruct Hk as [->| ->]; rewrite angle_t.
    + simpl. replace (2 * PI * 0 / INR N * INR i) with 0 by (field; lra). apply cos_0.
    + replace (2 * PI * INR N / INR N * INR i) with (0 + 2 * INR i * PI) by (field; lra). rewrite cos_period. apply cos_0.
Qed.

Lemma angle_add a b i : angle N (a + b) i = angle N a i + angle N b i.
Proof. unfold angle. rewrite plus_INR. field. pose proof (INR_pos N HN). lra. Qed.
Lemma angle_sub a b i : (b <= a)%nat -> angle N (a - b) i = angle N a i - angle N b i.
Proof. intros H. unfold angle. rewrite minus_INR by lia. field. pose proof (INR_pos N HN). lra. Qed.

(** products; a, b <= N/2 *)
Definition delta (b : bool) : R := if b then 1 else 0.
Lemma cos_cos_sum a b : (2 * a <= N)%nat -> (2 * b <= N)%nat ->
  sumR N (fun i => cos (angle N a i) * cos (angle N b i)) =
    INR N / 2 * (delta (a =? b)%nat + delta (orb (a + b =? 0)%nat (a + b =? N)%nat)).
Proof.
  intros Ha Hb.
  assert (E : forall i, cos (angle N a i) * cos (angle N b i) = / 2 * cos (angle N (Nat.max a b - Nat.min a b) i) + / 2 * cos (angle N (a + b) i)).
  { intros i. rewrite angle_add, angle_sub by lia. rewrite cos_plus, cos_minus.
    destruct (Nat.max_spec a b) as [[? ->]|[? ->]]; destruct (Nat.min_spec a b) as [[? ->]|[? ->]]; try field; lia. }
  rewrite (sumR_ext _ _ _ (fun i _ => E i)), sumR_plus, !sumR_scal.
  assert (A : sumR N (fun i => cos (angle N (Nat.max a b - Nat.min a b) i)) = INR N * delta (a =? b)%nat).
  { destruct (Nat.eqb_spec a b) as [->|Hab]; cbn [delta].
    - rewrite cos_sum_full by lia. ring.
    - rewrite cos_sum_zero; [ring|]. lia. }
  assert (B : sumR N (fun i => cos (angle N (a + b) i)) = INR N * delta (orb (a + b =? 0)%nat (a + b =? N)%nat)).
  { destruct (Nat.eqb_spec (a + b) 0) as [e|He]; cbn [orb delta].
    - rewrite cos_sum_full by lia. ring.
    - destruct (Nat.eqb_spec (a + b) N) as [e|He2]; cbn [orb delta].
      + rewrite cos_sum_full by lia. ring.
      + rewrite cos_sum_zero; [ring|]. lia. }
  rewrite A, B. field.
Qed.
Lemma sin_sin_sum a b : (2 * a <= N)%nat -> (2 * b <= N)%nat ->
  sumR N (fun i => sin (angle N a i) * sin (angle N b i)) =
    INR N / 2 * (delta (a =? b)%nat - delta (orb (a + b =? 0)%nat (a + b =? N)%nat)).
Proof.
  intros Ha Hb.
  assert (E : forall i, sin (angle N a i) * sin (angle N b i) = cos (angle N (Nat.max a b - Nat.min a b) i) - cos (angle N a i) * cos (angle N b i)).
  { intros i. rewrite angle_sub by lia. rewrite cos_minus.
    destruct (Nat.max_spec a b) as [[? ->]|[? ->]]; destruct (Nat.min_spec a b) as [[? ->]|[? ->]]; try ring; lia. }
  rewrite (sumR_ext _ _ _ (fun i _ => E i)), sumR_minus, cos_cos_sum by assumption.
  assert (A : sumR N (fun i => cos (angle N (Nat.max a b - Nat.min a b) i)) = INR N * delta (a =? b)%nat).
  { destruct (Nat.eqb_spec a b) as [->|Hab]; cbn [delta].
    - rewrite cos_sum_full by lia. ring.
    - rewrite cos_sum_zero; [ring|]. lia. }
  rewrite A. field.
Qed.
Lemma sin_cos_sum a b : sumR N (fun i => sin (angle N a i) * cos (angle N b i)) = 0.
Proof.
  destruct (le_lt_dec b a) as [H|H].
  - rewrite (sumR_ext _ _ (fun i => / 2 * sin (angle N (a + b) i) + / 2 * sin (angle N (a - b) i))).
    + rewrite sumR_plus, !sumR_scal, !sin_sum_zero. ring.
    + intros i _. rewrite angle_add, angle_sub by lia. rewrite sin_plus, sin_minus. field.
  - rewrite (sumR_ext _ _ (fun i => / 2 * sin (angle N (a + b) i) - / 2 * sin (angle N (b - a) i))).
    + rewrite sumR_minus, !sumR_scal, !sin_sum_zero. ring.
    + intros i _. rewrite angle_add, angle_sub by lia. rewrite sin_plus, sin_minus. field.
Qed.

(** ** The coefficients of a series are recovered *)
Lemma dft_series M (c : nat -> R * R) m : (m <= M)%nat -> (2 * m <= N)%nat ->
  dft N (series N M c) m = (fst (c m), if orb (m =? 0)%nat (2 * m =? N)%nat then 0 else snd (c m)).
Proof.
  intros Hm HmN. pose proof (INR_pos N HN) as HP.
  set (K := Nat.min M (N / 2)).
  assert (HK : forall k, (k < K)%nat -> (2 * S k <= N)%nat).
  { intros k Hk. unfold K in Hk. assert (S k <= N / 2)%nat by lia. pose proof (Nat.div_mod N 2). lia. }
  assert (HmK : (m = 0 \/ m - 1 < K)%nat).
  { destruct m; [left; reflexivity|right]. unfold K. assert (S m <= N / 2)%nat by (apply Nat.div_le_lower_bound; lia). lia. }
  assert (W : forall g, sumR N (fun i => series N M c i * g i) =
     fst (c 0%nat) * sumR N g + sumR K (fun k => (if (2 * S k =? N)%nat then 1 else 2) * (fst (c (S k)) * sumR N (fun i => cos (angle N (S k) i) * g i) - snd (c (S k)) * sumR N (fun i => sin (angle N (S k) i) * g i)))).
  { intros g. unfold series. fold K.
    rewrite (sumR_ext N _ (fun i => fst (c 0%nat) * g i + sumR K (fun k => (if (2 * S k =? N)%nat then 1 else 2) * (fst (c (S k)) * (cos (angle N (S k) i) * g i) - snd (c (S k)) * (sin (angle N (S k) i) * g i))))).
    - rewrite sumR_plus, sumR_scal, sumR_swap. f_equal. apply sumR_ext. intros k Hk. rewrite sumR_scal, sumR_minus, !sumR_scal. reflexivity.
    - intros i _. rewrite Rmult_plus_distr_r. f_equal. rewrite <- sumR_scal_r. apply sumR_ext. intros k _. ring. }
  unfold dft. f_equal.
  - rewrite W. 
    assert (E0 : sumR N (fun i => cos (angle N m i)) = INR N * delta (m =? 0)%nat).
    { destruct (Nat.eqb_spec m 0) as [->|]; cbn [delta].
      - rewrite cos_sum_full by lia. ring.
      - rewrite cos_sum_zero by lia. ring. }
    rewrite E0.
    rewrite (sumR_ext K _ (fun k => INR N * (delta (S k =? m)%nat * fst (c (S k))))).
    + rewrite sumR_scal. destruct (Nat.eqb_spec m 0) as [->|Hm0]; cbn [delta].
      * rewrite sumR_0; [field; lra|]. intros k _. destruct (Nat.eqb_spec (S k) 0); [lia|]. cbn [delta]. ring.
      * rewrite (sumR_one K _ (m - 1)); [|lia|].
        -- replace (S (m - 1)) with m by lia. rewrite Nat.eqb_refl. cbn [delta]. field. lra.
        -- intros i Hi Hne. destruct (Nat.eqb_spec (S i) m); [lia|]. cbn [delta]. ring.
    + intros k Hk. specialize (HK k Hk). rewrite sin_cos_sum, cos_cos_sum by lia.
      destruct (Nat.eqb_spec (2 * S k) N) as [e|e]; destruct (Nat.eqb_spec (S k) m) as [f|f];
        destruct (Nat.eqb_spec (S k + m) 0) as [h|h]; try lia; cbn [orb];
        destruct (Nat.eqb_spec (S k + m) N) as [h2|h2]; try lia; cbn [delta]; field.
  - rewrite W, sin_sum_zero.
    rewrite (sumR_ext K _ (fun k => - INR N * (delta (andb (S k =? m)%nat (negb (2 * S k =? N)%nat)) * snd (c (S k))))).
    + rewrite sumR_scal. destruct (Nat.eqb_spec m 0) as [->|Hm0]; cbn [orb].
      * rewrite sumR_0; [field; lra|]. intros k _. destruct (Nat.eqb_spec (S k) 0); [lia|]. cbn [andb delta]. ring.
      * rewrite (sumR_one K _ (m - 1)); [|lia|].
        -- replace (S (m - 1)) with m by lia. rewrite Nat.eqb_refl. destruct (2 * m =? N)%nat; cbn [andb negb delta]; field; lra.
        -- intros i Hi Hne. destruct (Nat.eqb_spec (S i) m); [lia|]. cbn [andb delta]. ring.
    + intros k Hk. specialize (HK k Hk). rewrite sin_sin_sum by lia.
      rewrite (sumR_ext N (fun i => cos (angle N (S k) i) * sin (angle N m i)) (fun i => sin (angle N m i) * cos (angle N (S k) i))) by (intros; ring).
      rewrite sin_cos_sum.
      destruct (Nat.eqb_spec (2 * S k) N) as [e|e]; destruct (Nat.eqb_spec (S k) m) as [f|f];
        destruct (Nat.eqb_spec (S k + m) 0) as [h|h]; try lia; cbn [orb andb negb];
        destruct (Nat.eqb_spec (S k + m) N) as [h2|h2]; try lia; cbn [delta]; field.
Qed.
End Period.
