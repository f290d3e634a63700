(** Proofs about the autocorrelation-corrected variances and 32-bit products. *)
From Verif Require Import Base Buffer Loops OrderSpec OrderProofs MKSort_Model MKSort_Proofs MKSort_Props
  MKStat_Model MKStat_Spec MKStat_Proofs1 MKStat_Proofs2 MKStat_Proofs3 MKStat_Proofs4.
Local Open Scope nat_scope.

(** ** The all-lag Bartlett weighted sum is a sum of squares *)
Fixpoint cuts (p : Qc) (l : list Qc) : Qc :=
  match l with [] => 0%Qc | x :: t => ((p + x) * qsum t + cuts (p + x) t)%Qc end.
Fixpoint suf (l : list Qc) : Qc := match l with [] => 0%Qc | x :: t => (qsum t + suf t)%Qc end.
Fixpoint prefsq (p : Qc) (l : list Qc) : Qc :=
  match l with [] => 0%Qc | x :: t => ((p + x) * (p + x) + prefsq (p + x) t)%Qc end.
Definition dsum (l : list Qc) : Qc := qsum (map (fun '(d, x, y) => qz (Z.of_nat d) * (x * y))%Qc (all_pairs l)).
Definition esum (l : list Qc) : Qc := qsum (map (fun '(d, x, y) => x * y)%Qc (all_pairs l)).

Lemma esum_cons x t : esum (x :: t) = (x * qsum t + esum t)%Qc.
Proof.
  unfold esum. cbn [all_pairs]. rewrite map_app, qsum_app. f_equal. generalize 1.
  induction t as [|y t IH]; intros d; cbn [with_dist map]. { cbn. ring. }
  rewrite !qsum_cons, IH. ring.
Qed.
Lemma dsum_cons x t : dsum (x :: t) = (x * (qsum t + suf t) + dsum t)%Qc.
Proof.
  unfold dsum. cbn [all_pairs]. rewrite map_app, qsum_app. f_equal.
  assert (G : forall t d, qsum (map (fun '(d, x, y) => qz (Z.of_nat d) * (x * y))%Qc (with_dist d x t)) = (x * (qz (Z.of_nat d) * qsum t + suf t))%Qc).
  { clear. induction t as [|y t IH]; intros d; cbn [with_dist map suf]. { cbn. ring. }
    rewrite !qsum_cons, IH, Nat2Z.inj_succ. unfold Z.succ. rewrite qz_add, qz_1. ring. }
  rewrite G. change (Z.of_nat 1) with 1%Z. rewrite qz_1. ring.
Qed.
Lemma cuts_dsum l : forall p, cuts p l = (dsum l + p * suf l)%Qc.
Proof.
  induction l as [|x t IH]; intros p; cbn [cuts suf]. { unfold dsum. cbn. ring. }
  rewrite IH, dsum_cons. ring.
Qed.
Lemma cuts_bound l : forall p, (prefsq p l <= qz (Z.of_nat (length l)) * ((p + qsum l) * (p + qsum l)) - 2 * cuts p l)%Qc.
Proof.
  induction l as [|x t IH]; intros p; cbn [cuts prefsq length]. { change (qz (Z.of_nat 0)) with (qz 0). rewrite qz_0. qclra. }
  specialize (IH (p + x)%Qc). rewrite qsum_cons, Nat2Z.inj_succ. unfold Z.succ. rewrite qz_add, qz_1.
  set (N := qz (Z.of_nat (length t))) in *. set (C := cuts (p + x) t) in *. set (s := qsum t) in *. set (Q := prefsq (p + x) t) in *.
  clearbody N C s Q. replace (p + (x + s))%Qc with (p + x + s)%Qc by ring. set (a := (p + x)%Qc) in *. clearbody a.
  assert (S0 : (0 <= s * s)%Qc) by qcnra.
  set (T := ((a + s) * (a + s))%Qc) in *. assert (ET : T = (a * a + 2 * (a * s) + s * s)%Qc) by (unfold T; change (qz 2) with (qz (1 + 1)); rewrite qz_add, qz_1; ring).
  replace ((N + 1) * T - 2 * (a * s + C))%Qc with ((N * T - 2 * C) + (T - 2 * (a * s)))%Qc by ring.
  rewrite ET at 2. clearbody T. set (u := (N * T - 2 * C)%Qc) in *. set (v := (a * s)%Qc) in *. set (w := (s * s)%Qc) in *. set (z := (a * a)%Qc) in *. clearbody u v w z. qclra.
Qed.
Lemma square_sum l : (qsum l * qsum l = sum_squares l + 2 * esum l)%Qc.
Proof.
  unfold sum_squares. change (fold_right Qcplus 0%Qc) with qsum.
  induction l as [|x t IH]. { unfold esum; cbn. ring. }
  cbn [map]. rewrite !qsum_cons, esum_cons.
  replace ((x + qsum t) * (x + qsum t))%Qc with (x * x + (1 + 1) * (x * qsum t) + qsum t * qsum t)%Qc by ring. rewrite IH.
  change (qz 2) with (qz (1 + 1)). rewrite qz_add, qz_1. ring.
Qed.
Lemma prefsq_nonneg l : forall p, (0 <= prefsq p l)%Qc.
Proof.
  induction l as [|x t IH]; intros p; cbn [prefsq]. apply Qcle_refl.
  specialize (IH (p + x)%Qc). assert (0 <= (p + x) * (p + x))%Qc by apply Qcsquare_nonneg. set (a := ((p + x) * (p + x))%Qc) in *. set (b := prefsq (p + x) t) in *. clearbody a b. qclra.
Qed.
Lemma prefsq_zero l : prefsq 0 l = 0%Qc -> sum_squares l = 0%Qc.
Proof.
  induction l as [|x t IH]; cbn [prefsq]; intros H. reflexivity.
  replace (0 + x)%Qc with x in H by ring. pose proof (prefsq_nonneg t x) as N.
  assert (X : x = 0%Qc).
  { assert (0 <= x * x)%Qc by qcnra. assert (E : (x * x = 0)%Qc) by (set (a := (x * x)%Qc) in *; set (b := prefsq x t) in *; clearbody a b; qclra).
    apply Qcmult_integral in E. tauto. }
  subst x. unfold sum_squares in *. cbn [map fold_right]. rewrite IH. ring.
  replace (0 * 0 + prefsq 0 t)%Qc with (prefsq 0 t) in H by ring. auto.
Qed.
(** n * sum of squares + 2 sum (n - d) c_i c_j is >= 0, and > 0 unless all are 0. *)
Lemma bartlett_nonneg l : let n := qz (Z.of_nat (length l)) in
  (0 <= n * sum_squares l + 2 * (n * esum l - dsum l) /\ (sum_squares l <> 0 -> 0 < n * sum_squares l + 2 * (n * esum l - dsum l)))%Qc.
Proof.
  intros n. pose proof (cuts_bound l 0) as B. rewrite cuts_dsum in B. fold n in B.
  replace ((0 + qsum l) * (0 + qsum l))%Qc with (qsum l * qsum l)%Qc in B by ring. rewrite square_sum in B.
  replace (n * (sum_squares l + 2 * esum l) - 2 * (dsum l + 0 * suf l))%Qc with (n * sum_squares l + 2 * (n * esum l - dsum l))%Qc in B by ring.
  pose proof (prefsq_nonneg l 0) as P. split. { eapply Qcle_trans; eauto. }
  intros NZ. eapply Qclt_le_trans; [|exact B]. destruct (Qcle_lt_or_eq _ _ P) as [L|E]; auto. exfalso. apply NZ. apply prefsq_zero. auto.
Qed.

(** ** Lag sums of the kernel *)
Lemma lag_band_perm n k : 1 <= k -> Permutation (map (fun i => (i, i + k)) (seq 1 (n - k))) (filter (fun '(i, j) => j - i =? k) (row_pairs n)).
Proof.
  intros K. apply NoDup_Permutation.
  - apply NoDup_map_inj; [|apply seq_NoDup]. intros a b _ _ E. congruence.
  - apply NoDup_filter, NoDup_row_pairs.
  - intros (i, j). rewrite in_map_iff, filter_In, in_row_pairs, Nat.eqb_eq. split.
    + intros (a & E & H). injection E as <- <-. apply in_seq in H. lia.
    + intros [H E]. exists i. split. f_equal; lia. apply in_seq. lia.
Qed.
Lemma lag_product_ok l k : 1 <= k -> lag_product_sum l (length l) k = lag_products l k.
Proof.
  intros K. unfold lag_product_sum, lag_products. change (fold_right Qcplus 0%Qc) with qsum.
  rewrite all_pairs_index, filter_map_comm, map_map.
  rewrite (filter_ext (fun x => let '(d, _, _) := pair_of l x in d =? k) (fun '(i, j) => j - i =? k)) by (intros (i, j); auto).
  rewrite <- (qsum_perm (Permutation_map _ (lag_band_perm (length l) k K))), map_map. auto.
Qed.

Lemma detrend_seq y slope : map (fun i => get y i - qz (Z.of_nat i) * slope)%Qc (seq 1 (length y)) = detrend 1 slope y.
Proof.
  assert (G : forall y s, map (fun i => nth (i - s) y 0 - qz (Z.of_nat i) * slope)%Qc (seq s (length y)) = detrend s slope y).
  { clear. induction y as [|v y IH]; intros s; cbn [length seq map detrend]; auto. f_equal.
    - rewrite Nat.sub_diag. auto.
    - rewrite <- IH. apply map_ext_in. intros i Hi. apply in_seq in Hi. replace (i - s) with (S (i - S s)) by lia. auto. }
  apply G.
Qed.
Lemma detrend_length y : forall s slope, length (detrend s slope y) = length y.
Proof. induction y; intros; simpl; auto. Qed.

Lemma modified_variance_ok y slope m : modified_variance_with_slope_lag y slope m =
  Some (if (m <=? 0)%Z then Some (mk_variance y) else
    let r := detrend 1 slope y in
    if (sum_squares (centered r) =? 0)%Qc then None else Some (mk_variance y * yue_wang_factor r (Z.to_nat m))%Qc).
Proof.
  unfold modified_variance_with_slope_lag. rewrite sort_real_eq.
  pose proof (sorted_copy_perm y) as P.
  assert (B : base_variance_from_sorted (sorted_copy y) (length y) = mk_variance y).
  { rewrite <- (Permutation_length P). rewrite base_variance_from_sorted_ok by apply sorted_copy_ascending. apply mk_variance_perm. auto. }
  cbv zeta. rewrite B, detrend_seq. destruct (m <=? 0)%Z; auto.
  assert (C : map (fun d => d - qsum (detrend 1 slope y) / qz (Z.of_nat (length y)))%Qc (detrend 1 slope y) = centered (detrend 1 slope y)).
  { unfold centered, mean. rewrite detrend_length. auto. }
  rewrite C. change (qsum (map (fun v => (v * v)%Qc) (centered (detrend 1 slope y)))) with (sum_squares (centered (detrend 1 slope y))).
  destruct (sum_squares (centered (detrend 1 slope y)) =? 0)%Qc; auto. do 2 f_equal. f_equal.
  unfold do_loop. rewrite Nat.add_sub.
  rewrite (fold_left_qsum (fun lag => 2 * (1 - qz (Z.of_nat lag) / qz (Z.of_nat (length y))) * (lag_product_sum (centered (detrend 1 slope y)) (length y) lag / sum_squares (centered (detrend 1 slope y))))%Qc).
  unfold yue_wang_factor. change (fold_right Qcplus 0%Qc) with qsum. f_equal. rewrite <- qsum_map_scale. apply qsum_ext. intros k Hk. apply in_seq in Hk.
  rewrite detrend_length. unfold acf. rewrite <- lag_product_ok by lia.
  replace (length (centered (detrend 1 slope y))) with (length y) by (unfold centered; rewrite map_length, detrend_length; auto). ring.
Qed.

(** With all lags the factor is positive. *)
Lemma lag_sum_all (F : nat -> Qc) l : 
  qsum (map (fun k => F k * lag_products l k)%Qc (seq 1 (length l - 1))) = qsum (map (fun '(d, x, y) => F d * (x * y))%Qc (all_pairs l)).
Proof.
  rewrite (qsum_ext _ (fun k => qsum (map (fun i => F k * (get l i * get l (i + k)%nat))%Qc (seq 1 (length l - k))))).
  2:{ intros k Hk. apply in_seq in Hk. rewrite <- lag_product_ok by lia. unfold lag_product_sum. rewrite <- qsum_map_scale. auto. }
  rewrite (qsum_perm (Permutation_map _ (all_pairs_lag l))), map_map.
  unfold lag_pairs. generalize (seq 1 (length l - 1)). intros ks. induction ks as [|k ks IH]; auto.
  cbn [map flat_map]. rewrite map_app, qsum_app, <- IH, qsum_cons. f_equal. rewrite map_map. apply qsum_ext. intros i _. unfold pair_of.
  replace (i + k - i) with k by lia. auto.
Qed.
Lemma centered_length l : length (centered l) = length l.
Proof. unfold centered. apply map_length. Qed.

Lemma yue_wang_factor_form r : 1 <= length r -> sum_squares (centered r) <> 0%Qc ->
  let n := qz (Z.of_nat (length r)) in let c := centered r in
  (yue_wang_factor r (length r - 1) * (n * sum_squares c) = n * sum_squares c + 2 * (n * esum c - dsum c))%Qc.
Proof.
  intros H NZ n c. unfold yue_wang_factor. change (fold_right Qcplus 0%Qc) with qsum. fold n.
  assert (Nn : n <> 0%Qc) by (apply qz_nonzero; lia).
  assert (E : (qsum (map (fun k => (1 - qz (Z.of_nat k) / n) * acf r k) (seq 1 (length r - 1))) * (n * sum_squares c) = n * esum c - dsum c)%Qc).
  { transitivity (qsum (map (fun k => (n - qz (Z.of_nat k)) * lag_products c k) (seq 1 (length c - 1))))%Qc.
    - unfold c. rewrite centered_length. rewrite (Qcmult_comm (qsum _)), <- qsum_map_scale. apply qsum_ext. intros k _. unfold acf. fold c. field. auto.
    - rewrite (lag_sum_all (fun k => n - qz (Z.of_nat k))%Qc). unfold esum, dsum. rewrite <- qsum_map_scale, <- qsum_map_sub. apply qsum_ext. intros ((d, x), y) _. ring. }
  set (q := qsum _) in *. rewrite Qcmult_plus_distr_l, Qcmult_1_l. f_equal. rewrite <- Qcmult_assoc, E. auto.
Qed.
Lemma sum_squares_nonneg l : (0 <= sum_squares l)%Qc.
Proof. unfold sum_squares. apply qsum_nonneg. intros v Hv. apply in_map_iff in Hv. destruct Hv as (x & <- & _). qcnra. Qed.
Lemma yue_wang_factor_pos r : 1 <= length r -> sum_squares (centered r) <> 0%Qc -> (0 < yue_wang_factor r (length r - 1))%Qc.
Proof.
  intros H NZ. pose proof (yue_wang_factor_form r H NZ) as E. cbv zeta in E.
  destruct (bartlett_nonneg (centered r)) as [_ B]. rewrite centered_length in B. specialize (B NZ). rewrite <- E in B.
  set (f := yue_wang_factor r (length r - 1)) in *. 
  assert (P : (0 < qz (Z.of_nat (length r)) * sum_squares (centered r))%Qc).
  { apply Qcmul_pos. rewrite <- qz_0. apply qz_lt. lia. destruct (Qcle_lt_or_eq _ _ (sum_squares_nonneg (centered r))) as [L|L]; auto. congruence. }
  set (q := (qz (Z.of_nat (length r)) * sum_squares (centered r))%Qc) in *. clearbody f q. clear - B P.
  destruct (Qclt_le_dec 0 f) as [L|L]; auto. exfalso. assert (0 <= (- f) * q)%Qc by (apply Qcmul_nonneg; qclra). qclra.
Qed.

(** ** Hamed-Rao *)
Lemma hamed_rao_factor_ok r bound m : hamed_rao_factor (fun z => z) (length r) bound (map (acf r) (seq 1 m)) = hamed_rao_spec r bound m.
Proof.
  unfold hamed_rao_factor, hamed_rao_spec. cbv zeta. change (fold_right Qcplus 0%Qc) with qsum. unfold do_loop. rewrite map_length, seq_length, Nat.add_sub.
  set (n := Z.of_nat (length r)).
  rewrite (fold_left_ext_in _ (fun s k => (s + (if (acf r k <? - bound)%Qc || (bound <? acf r k)%Qc then qz (falling3 (n - Z.of_nat k)) * acf r k else 0))%Qc)).
  - rewrite fold_left_qsum. do 3 f_equal. ring.
  - intros s k Hk. apply in_seq in Hk. rewrite get_map_seq by lia. destruct (_ || _); [auto | ring].
Qed.

Lemma hamed_rao_variance_ok y slope bound m : hamed_rao_variance (fun z => z) y slope bound m =
  Some (if (length y <? 3) || (m <=? 0)%Z then Some (mk_variance y) else
    let d := detrend 1 slope y in let ranks := map (average_rank d) d in
    if (sum_squares (centered ranks) =? 0)%Qc then None else Some (mk_variance y * hamed_rao_spec ranks bound (Z.to_nat m))%Qc).
Proof.
  unfold hamed_rao_variance. rewrite compute_base_variance_ok. cbv zeta. destruct ((length y <? 3) || (m <=? 0)%Z) eqn:C; auto.
  apply orb_false_iff in C. destruct C as [C1 C2]. apply Nat.ltb_ge in C1.
  rewrite detrend_seq. set (d := detrend 1 slope y). assert (LD : length d = length y) by apply detrend_length.
  rewrite compute_average_ranks_ok by (rewrite repeat_length; lia). rewrite skipn_all2 by (rewrite repeat_length; lia). rewrite app_nil_r.
  set (ranks := map (average_rank d) d).
  assert (LR : length ranks = length y) by (unfold ranks; rewrite map_length; auto).
  assert (M : mean ranks = (qz (Z.of_nat (length y + 1)) / 2)%Qc).
  { unfold mean. change (fold_right Qcplus 0%Qc) with qsum. rewrite LR. unfold ranks.
    rewrite (qsum_ext _ (fun v => (qz (Z.of_nat (length d + 1)) * / 2 + / 2 * qz (rank_score d v))%Qc)).
    2:{ intros v _. rewrite average_rank_score, Nat2Z.inj_add, !qz_add. change (Z.of_nat 1) with 1%Z. unfold Qcdiv. ring. }
    rewrite qsum_map_add, qsum_const, qsum_map_scale, qsum_qz, rank_score_total, LD, qz_0. field. split; apply qz_nonzero; lia. }
  rewrite <- M. change (map (fun r => (r - mean ranks)%Qc) ranks) with (centered ranks).
  change (qsum (map (fun v => (v * v)%Qc) (centered ranks))) with (sum_squares (centered ranks)).
  destruct (sum_squares (centered ranks) =? 0)%Qc; auto. do 3 f_equal. rewrite <- hamed_rao_factor_ok, LR. f_equal.
  apply map_ext_in. intros k Hk. apply in_seq in Hk. unfold acf. rewrite <- lag_product_ok by lia.
  rewrite centered_length, LR. auto.
Qed.

(** ** 32-bit products *)
Definition fits32 (z : Z) : Prop := (-2147483648 <= z <= 2147483647)%Z.
Lemma wrap32_id z : fits32 z -> wrap32 z = z.
Proof. unfold fits32, wrap32. intros H. rewrite Z.mod_small; lia. Qed.
Lemma sen_products_fit n lag : (1 <= lag <= n - 1)%Z -> (n <= 46341)%Z ->
  fits32 (n * (n - 1)) /\ fits32 ((lag - 1) * (2 * n - lag)) /\ fits32 (2 * n - lag).
Proof.
  intros H1 H2. unfold fits32.
  assert ((n * (n - 1) <= 46341 * 46340)%Z) by (apply Z.mul_le_mono_nonneg; lia).
  assert (((lag - 1) * (2 * n - lag) <= n * (n - 1))%Z) by nia. 
  assert ((0 <= (lag - 1) * (2 * n - lag))%Z) by (apply Z.mul_nonneg_nonneg; lia). assert ((0 <= n * (n - 1))%Z) by (apply Z.mul_nonneg_nonneg; lia). lia.
Qed.
Lemma falling3_fit n : (0 <= n <= 1291)%Z -> fits32 (n * (n - 1)) /\ fits32 (n * (n - 1) * (n - 2)).
Proof.
  intros H. unfold fits32. assert (A : (0 <= n * (n - 1) <= 1291 * 1290)%Z).
  { split. destruct (Z.eq_dec n 0) as [->|]; [lia|]. apply Z.mul_nonneg_nonneg; lia.
    destruct (Z.eq_dec n 0) as [->|]; [lia|]. apply Z.mul_le_mono_nonneg; lia. }
  split; [lia|]. destruct (Z_lt_le_dec n 2).
  - assert (n = 0 \/ n = 1)%Z as [->| ->] by lia; lia.
  - assert ((0 <= n * (n - 1) * (n - 2))%Z) by (apply Z.mul_nonneg_nonneg; lia).
    assert ((n * (n - 1) * (n - 2) <= 1291 * 1290 * 1289)%Z) by (apply Z.mul_le_mono_nonneg; lia). lia.
Qed.
Lemma hamed_rao_no_overflow n bound acfs : n <= 1291 -> length acfs <= n ->
  hamed_rao_factor wrap32 n bound acfs = hamed_rao_factor (fun z => z) n bound acfs.
Proof.
  intros H L. unfold hamed_rao_factor. cbv zeta. destruct (@falling3_fit (Z.of_nat n)) as [F1 F2]; [lia|].
  rewrite (wrap32_id _ F1), (wrap32_id _ F2). do 3 f_equal. unfold do_loop. apply fold_left_ext_in. intros s k Hk. apply in_seq in Hk.
  destruct (_ || _); auto. destruct (@falling3_fit (Z.of_nat n - Z.of_nat k)) as [G1 G2]; [lia|]. rewrite (wrap32_id _ G1), (wrap32_id _ G2). auto.
Qed.
