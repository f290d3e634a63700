(** Properties C01, C02, C05-C11, C53, C54: the Mann-Kendall statistics kernels. *)
From Verif Require Import Base Buffer Loops OrderSpec OrderProofs MKSort_Model MKSort_Proofs MKSort_Props
  MKStat_Model MKStat_Spec MKStat_Proofs1 MKStat_Proofs2 MKStat_Proofs3 MKStat_Proofs4 MKStat_Proofs5 MKStat_Proofs6.
Local Open Scope nat_scope.

Definition zl (l : list Z) : list Qc := map qz l.
(** A small series with ties, used by the examples. *)
Definition demo : list Qc := zl [3; 1; 4; 1; 5; 9; 2; 6]%Z.

(** ** C01: S counts every pair once, in both kernels *)
Theorem C01_pair_kernel : forall y, compute_s_value y = mk_S y.
Proof. exact compute_s_value_ok. Qed.
Theorem C01_fused_kernel : forall y work0, length y * (length y - 1) / 2 <= length work0 ->
  exists slope, compute_s_value_and_sen_slope y work0 = Some (mk_S y, slope).
Proof. intros y w H. rewrite compute_s_value_and_sen_ok by auto. eauto. Qed.
Theorem C01_tau_bound : forall y,
  (2 * Z.abs (compute_s_value y) <= Z.of_nat (length y) * (Z.of_nat (length y) - 1))%Z.
Proof. intros y. rewrite compute_s_value_ok. apply mk_S_bound. Qed.
Example C01_demo : compute_s_value demo = 11%Z /\ mk_S demo = 11%Z /\ (8 * (8 - 1) / 2 <= length (repeat 0%Qc 28)).
Proof. vm_compute. repeat split; auto. Qed.

(** ** C02: symmetries of S *)
Theorem C02_reverse : forall y, compute_s_value (rev y) = (- compute_s_value y)%Z.
Proof. intros. rewrite !compute_s_value_ok. apply mk_S_rev. Qed.
Theorem C02_increasing_map : forall f y, (forall a b, (a < b)%Qc -> (f a < f b)%Qc) ->
  compute_s_value (map f y) = compute_s_value y.
Proof. intros. rewrite !compute_s_value_ok. apply mk_S_map_mono; auto. Qed.
Theorem C02_decreasing_map : forall f y, (forall a b, (a < b)%Qc -> (f b < f a)%Qc) ->
  compute_s_value (map f y) = (- compute_s_value y)%Z.
Proof. intros. rewrite !compute_s_value_ok. apply mk_S_map_anti; auto. Qed.
Theorem C02_shift : forall c y, compute_s_value (map (fun v => v + c)%Qc y) = compute_s_value y.
Proof. intros. apply C02_increasing_map. intros; qclra. Qed.
Theorem C02_negate : forall y, compute_s_value (map Qcopp y) = (- compute_s_value y)%Z.
Proof. intros. apply C02_decreasing_map. intros; qclra. Qed.
Example C02_demo : (forall a b, (a < b)%Qc -> (a * a * a + a < b * b * b + b)%Qc) /\ compute_s_value (rev demo) = (-11)%Z.
Proof. split; [|vm_compute; auto]. intros a b H.
  assert (E : (b * b * b + b - (a * a * a + a) = (b - a) * (a * a + a * b + b * b + 1))%Qc) by ring.
  assert (P : (0 < a * a + a * b + b * b + 1)%Qc).
  { assert (0 <= (a + b) * (a + b))%Qc by apply Qcsquare_nonneg. assert (0 <= a * a)%Qc by apply Qcsquare_nonneg. assert (0 <= b * b)%Qc by apply Qcsquare_nonneg. qcnra. }
  assert (0 < (b - a) * (a * a + a * b + b * b + 1))%Qc by (apply Qcmul_pos; auto; qclra). rewrite <- E in H0. qclra. Qed.

(** ** C05: Sen's slope is the median of all pairwise slopes *)
Theorem C05_sen_slope : forall y work0, length y * (length y - 1) / 2 <= length work0 ->
  compute_sen_slope y work0 = Some (if length y <? 2 then None else Some (median (pair_slopes y))).
Proof. exact compute_sen_slope_ok. Qed.
Theorem C05_sen_slope_fused : forall y work0, length y * (length y - 1) / 2 <= length work0 ->
  compute_s_value_and_sen_slope y work0 =
  Some (mk_S y, if length y <? 2 then None else Some (median (pair_slopes y))).
Proof. exact compute_s_value_and_sen_ok. Qed.
(** The median lies between the extreme slopes: it is never an artefact. *)
Theorem C05_sen_between : forall y lo hi, 2 <= length y ->
  (forall s, In s (pair_slopes y) -> (lo <= s <= hi)%Qc) -> (lo <= sen y <= hi)%Qc.
Proof. intros y lo hi H B. apply median_bounds; auto. apply pair_slopes_nonempty; auto. Qed.
Example C05_demo : option_map (option_map this) (compute_sen_slope demo (repeat 0%Qc 28)) = Some (Some (13 # 28)%Q) /\ 2 <= length demo.
Proof. vm_compute. split; auto; lia. Qed.

(** ** C06: equivariance *)
Theorem C06_affine : forall a b c y work0 work1, 2 <= length y ->
  length y * (length y - 1) / 2 <= length work0 -> length y * (length y - 1) / 2 <= length work1 ->
  exists s, compute_sen_slope y work0 = Some (Some s) /\
    compute_sen_slope (affine_series a b c y) work1 = Some (Some (a * s + c)%Qc).
Proof.
  intros a b c y w w' H W W'. exists (sen y). rewrite !compute_sen_slope_ok by (rewrite ?affine_series_length; auto).
  rewrite affine_series_length. replace (length y <? 2) with false by (symmetry; apply Nat.ltb_ge; auto).
  split; auto. rewrite sen_affine by auto. auto.
Qed.
Theorem C06_reverse : forall y work0 work1, 2 <= length y ->
  length y * (length y - 1) / 2 <= length work0 -> length y * (length y - 1) / 2 <= length work1 ->
  exists s, compute_sen_slope y work0 = Some (Some s) /\ compute_sen_slope (rev y) work1 = Some (Some (- s)%Qc).
Proof.
  intros y w w' H W W'. exists (sen y). rewrite !compute_sen_slope_ok by (rewrite ?rev_length; auto). rewrite rev_length.
  replace (length y <? 2) with false by (symmetry; apply Nat.ltb_ge; auto). split; auto. rewrite sen_rev by auto. auto.
Qed.
Example C06_demo : option_map (option_map this) (compute_sen_slope (affine_series (qz (-2)) (qz 7) (qz 10) demo) (repeat 0%Qc 28)) = Some (Some (127 # 14)%Q).
Proof. vm_compute. auto. Qed.

(** ** C07: tie-corrected variance *)
Theorem C07_variance : forall y, compute_base_variance y = Some (mk_variance y).
Proof. exact compute_base_variance_ok. Qed.
Theorem C07_order_independent : forall y y', Permutation y y' -> compute_base_variance y = compute_base_variance y'.
Proof. intros. rewrite !compute_base_variance_ok. f_equal. apply mk_variance_perm; auto. Qed.
Theorem C07_nonneg_zero_iff : forall y, exists v, compute_base_variance y = Some v /\ (0 <= v)%Qc /\
  (v = 0%Qc <-> forall a b, In a y -> In b y -> a = b).
Proof. intros y. exists (mk_variance y). split. apply compute_base_variance_ok. split. apply mk_variance_nonneg. apply mk_variance_zero_iff. Qed.
Theorem C07_no_ties : forall y, NoDup y -> compute_base_variance y =
  Some (let n := Z.of_nat (length y) in qz (n * (n - 1) * (2 * n + 5)) / qz 18)%Qc.
Proof. intros y H. rewrite compute_base_variance_ok, mk_variance_no_ties by auto. auto. Qed.
(** S <> 0 forces a positive variance, so the z score never divides by zero. *)
Theorem C07_nonzero_score_positive_variance : forall y v, compute_s_value y <> 0%Z -> compute_base_variance y = Some v -> (0 < v)%Qc.
Proof.
  intros y v S V. rewrite compute_base_variance_ok in V. injection V as <-.
  destruct (Qcle_lt_or_eq _ _ (mk_variance_nonneg y)) as [L|E]; auto. exfalso. symmetry in E. rewrite mk_variance_zero_iff in E.
  apply S. rewrite compute_s_value_ok. clear S. induction y as [|a y IH]; auto. rewrite mk_S_cons, IH.
  - rewrite (zsum_ext _ (fun _ => 0%Z)). rewrite zsum_const. lia. intros b Hb. rewrite (E b a) by (simpl; auto). apply sgnd_refl.
  - intros; apply E; right; auto.
Qed.
Example C07_demo : option_map this (compute_base_variance demo) = Some (193 # 3)%Q /\ tie_correction demo = 18%Z.
Proof. vm_compute. auto. Qed.

(** ** C08: grouped Sen slope *)
Theorem C08_grouped_sen : forall y period inv_lag work0, 1 <= period ->
  (forall lag, 1 <= lag <= (length y - 1) / period -> get inv_lag lag = (1 / qz (Z.of_nat lag))%Qc) ->
  grouped_slope_count (length y) period <= length work0 ->
  grouped_sen_slope_with_inv_lag y period inv_lag work0 =
    Some (match group_slopes y period with [] => None | l => Some (median l) end).
Proof. exact grouped_sen_ok. Qed.
Theorem C08_slope_count : forall y period, 1 <= period ->
  grouped_slope_count (length y) period = length (group_slopes y period).
Proof. intros. symmetry. apply group_slopes_length; auto. Qed.
(** Period 1 is the ungrouped slope. *)
Theorem C08_period_one : forall y, group_slopes y 1 = pair_slopes y.
Proof.
  intros y. unfold group_slopes, pair_slopes. rewrite (filter_ext _ (fun _ => true)).
  - assert (F : forall A (l : list A), filter (fun _ => true) l = l) by (induction l; simpl; f_equal; auto). rewrite F.
    apply map_ext. intros ((d, a), b). rewrite Nat.div_1_r. auto.
  - intros ((d, a), b). rewrite Nat.mod_1_r. auto.
Qed.
Example C08_demo : grouped_slope_count 8 3 = 7 /\ length (group_slopes demo 3) = 7 /\
  option_map (option_map this) (grouped_sen_slope_with_inv_lag demo 3 (make_inv_lag 7) (repeat 0%Qc 7)) = Some (Some (1 # 1)%Q) /\
  (forall lag, 1 <= lag <= (length demo - 1) / 3 -> get (make_inv_lag 7) lag = (1 / qz (Z.of_nat lag))%Qc).
Proof. split; [|split; [|split]]; try (vm_compute; auto; fail). intros lag H. apply get_inv_lag. change ((length demo - 1) / 3) with 2 in H. lia. Qed.

(** ** C09: average ranks, both kernels *)
Theorem C09_average_ranks : forall values rank0, length values <= length rank0 ->
  compute_average_ranks values rank0 = Some (map (average_rank values) values ++ skipn (length values) rank0).
Proof. exact compute_average_ranks_ok. Qed.
Theorem C09_rank_vector : forall values, compute_rank_vector values = map (average_rank values) values.
Proof. exact compute_rank_vector_ok. Qed.
Theorem C09_rank_sum : forall values,
  (fold_right Qcplus 0 (compute_rank_vector values) = qz (Z.of_nat (length values) * (Z.of_nat (length values) + 1)) / 2)%Qc.
Proof.
  intros l. rewrite compute_rank_vector_ok. change (fold_right Qcplus 0%Qc) with qsum.
  rewrite (qsum_ext _ (fun v => (qz (Z.of_nat (length l) + 1) * / 2 + / 2 * qz (rank_score l v))%Qc)).
  - rewrite qsum_map_add, qsum_const, qsum_map_scale, qsum_qz, rank_score_total, qz_0, qz_mul. unfold Qcdiv. ring.
  - intros v _. rewrite average_rank_score, !qz_add. unfold Qcdiv. ring.
Qed.
Example C09_demo : map this (compute_rank_vector demo) = [4 # 1; 3 # 2; 5 # 1; 3 # 2; 6 # 1; 8 # 1; 3 # 1; 7 # 1]%Q /\
  option_map (map this) (compute_average_ranks demo (repeat 0%Qc 8)) = Some (map this (compute_rank_vector demo)).
Proof. vm_compute. auto. Qed.

(** ** C10: default-integer products.  They fit up to explicit lengths and do
    not fit one step beyond, where the Hamed-Rao factor goes wrong. *)
Theorem C10_sen_products_fit : forall n lag, (1 <= lag <= n - 1)%Z -> (n <= 46341)%Z ->
  fits32 (n * (n - 1)) /\ fits32 ((lag - 1) * (2 * n - lag)) /\ fits32 (2 * n - lag).
Proof. exact sen_products_fit. Qed.
Theorem C10_sen_products_refuted : exists n, (n = 46342)%Z /\ ~ fits32 (n * (n - 1)) /\ (wrap32 (n * (n - 1)) < 0)%Z.
Proof. exists 46342%Z. split; auto. split; [intros H; unfold fits32 in H; lia | vm_compute; auto]. Qed.
Theorem C10_hamed_rao_exact : forall n bound acfs, n <= 1291 -> length acfs <= n ->
  hamed_rao_factor wrap32 n bound acfs = hamed_rao_factor (fun z => z) n bound acfs.
Proof. exact hamed_rao_no_overflow. Qed.
(** At n = 1292 the wrapped denominator is negative: a positive
    autocorrelation is reported as shrinking the variance. *)
Theorem C10_hamed_rao_refuted : exists n bound acfs, n = 1292 /\ length acfs <= n /\
  (1 < hamed_rao_factor (fun z => z) n bound acfs)%Qc /\ (hamed_rao_factor wrap32 n bound acfs < 1)%Qc.
Proof.
  exists 1292, (Q2Qc (1 # 4)), (Q2Qc (1 # 2) :: nil). split; auto. split. { apply Nat.leb_le. vm_compute. auto. }
  split; vm_compute; auto.
Qed.
Example C10_demo : (1 <= 46340 <= 46341 - 1)%Z /\ length (repeat 0%Qc 12) <= 1291 /\ fits32 (46341 * 46340).
Proof. unfold fits32. split; [lia|]. split; [|lia]. apply Nat.leb_le. vm_compute. auto. Qed.

(** ** C11: autocorrelation-corrected variances *)
Theorem C11_yue_wang_formula : forall y slope m, modified_variance_with_slope_lag y slope m =
  Some (if (m <=? 0)%Z then Some (mk_variance y) else
    let r := detrend 1 slope y in
    if (sum_squares (centered r) =? 0)%Qc then None else Some (mk_variance y * yue_wang_factor r (Z.to_nat m))%Qc).
Proof. exact modified_variance_ok. Qed.
(** With all lags the corrected variance is never negative, and it is positive
    whenever the data are not all equal. *)
Theorem C11_yue_wang_all_lags : forall y slope v, modified_variance_with_slope y slope = Some (Some v) ->
  (0 <= v)%Qc /\ ((exists a b, In a y /\ In b y /\ a <> b) -> (0 < v)%Qc).
Proof.
  intros y slope v. unfold modified_variance_with_slope. rewrite modified_variance_ok. intros E. injection E as E.
  pose proof (mk_variance_nonneg y) as B.
  assert (BP : (exists a b, In a y /\ In b y /\ a <> b) -> (0 < mk_variance y)%Qc).
  { intros (a & b & Ha & Hb & N). destruct (Qcle_lt_or_eq _ _ B) as [L|Z]; auto. symmetry in Z. rewrite mk_variance_zero_iff in Z. exfalso; auto. }
  destruct (Z.leb_spec (Z.of_nat (length y) - 1) 0) as [L|L]. { injection E as <-. auto. }
  destruct (Qceqb_spec (sum_squares (centered (detrend 1 slope y))) 0) as [Z|NZ]; [discriminate|]. injection E as <-.
  pose proof (yue_wang_factor_pos (detrend 1 slope y)) as P. rewrite detrend_length in P. specialize (P ltac:(lia) NZ).
  replace (Z.to_nat (Z.of_nat (length y) - 1)) with (length y - 1) by lia.
  split. { apply Qcmul_nonneg; auto. apply Qclt_le_weak; auto. } intros D. apply Qcmul_pos; auto.
Qed.
Theorem C11_yue_wang_zero_acf : forall y slope m, (1 <= m)%Z ->
  (forall k, 1 <= k <= Z.to_nat m -> acf (detrend 1 slope y) k = 0%Qc) -> sum_squares (centered (detrend 1 slope y)) <> 0%Qc ->
  modified_variance_with_slope_lag y slope m = Some (Some (mk_variance y)).
Proof.
  intros y slope m H A NZ. rewrite modified_variance_ok. cbv zeta. replace (m <=? 0)%Z with false by (symmetry; apply Z.leb_gt; lia).
  destruct (Qceqb_spec (sum_squares (centered (detrend 1 slope y))) 0) as [Z|_]; [congruence|]. do 2 f_equal.
  unfold yue_wang_factor. change (fold_right Qcplus 0%Qc) with qsum. rewrite (qsum_ext _ (fun _ => 0%Qc)).
  - rewrite qsum_const. ring.
  - intros k Hk. apply in_seq in Hk. rewrite A by lia. ring.
Qed.
(** With a user-limited number of lags the corrected variance can be negative
    (its square root is then NaN): an alternating series with lag = 1. *)
Theorem C11_yue_wang_limited_refuted : exists y slope m v, (1 <= m)%Z /\ (m < Z.of_nat (length y))%Z /\
  compute_sen_slope y (repeat 0%Qc 28) = Some (Some slope) /\
  modified_variance_with_slope_lag y slope m = Some (Some v) /\ (v < 0)%Qc.
Proof.
  exists (zl [0; 1; 0; 1; 0; 1; 0; 1]%Z).
  destruct (compute_sen_slope (zl [0; 1; 0; 1; 0; 1; 0; 1]%Z) (repeat 0%Qc 28)) as [[s|]|] eqn:E; [| vm_compute in E; discriminate | vm_compute in E; discriminate].
  exists s. exists 1%Z.
  destruct (modified_variance_with_slope_lag (zl [0; 1; 0; 1; 0; 1; 0; 1]%Z) s 1) as [[v|]|] eqn:V.
  - exists v. repeat split; auto; try (vm_compute; auto; fail).
    + lia.
    + vm_compute in E. injection E as <-. vm_compute in V. injection V as <-. vm_compute. auto.
  - exfalso. vm_compute in E. injection E as <-. vm_compute in V. discriminate.
  - exfalso. vm_compute in E. injection E as <-. vm_compute in V. discriminate.
Qed.
Theorem C11_hamed_rao_formula : forall y slope bound m, hamed_rao_variance (fun z => z) y slope bound m =
  Some (if (length y <? 3) || (m <=? 0)%Z then Some (mk_variance y) else
    let d := detrend 1 slope y in let ranks := map (average_rank d) d in
    if (sum_squares (centered ranks) =? 0)%Qc then None else Some (mk_variance y * hamed_rao_spec ranks bound (Z.to_nat m))%Qc).
Proof. exact hamed_rao_variance_ok. Qed.
Example C11_demo : option_map (option_map (fun v => Qcltb 0 v)) (compute_modified_variance demo (repeat 0%Qc 28)) = Some (Some true) /\
  (exists a b, In a demo /\ In b demo /\ a <> b).
Proof. split. vm_compute. auto. exists (qz 3), (qz 1). repeat split; try (simpl; auto; fail). intros E. apply qz_inj in E. discriminate. Qed.
(** a series whose lag-1 autocorrelation vanishes *)
Example C11_zero_demo : this (acf (detrend 1 0 (zl [1; 0; -1; 0]%Z)) 1) = 0%Q /\ sum_squares (centered (detrend 1 0 (zl [1; 0; -1; 0]%Z))) <> 0%Qc.
Proof. split. vm_compute. auto. intros E. apply this_eq_Qc in E. vm_compute in E. discriminate. Qed.

(** ** C53: correlated seasonal statistics (Dietz-Killeen) *)
Theorem C53_correlated_stats : forall y period, 1 <= period -> period <= length y ->
  correlated_grouped_stats y period =
   (zsum (map mk_S (groups y period)), cov_sum (groups y period),
    (qz (Z.of_nat period) * (qz (Z.of_nat (length y / period * (length y / period - 1))) / 2))%Qc).
Proof. exact correlated_ok. Qed.
(** The covariance of a group with itself is its tie-corrected variance. *)
Theorem C53_diagonal : forall g, gamma_term g g (length g) = mk_variance g.
Proof. intros g. rewrite gamma_term_ok by auto. apply dk_cov_diag. Qed.
Theorem C53_symmetric : forall g h, length h = length g -> gamma_term h g (length g) = gamma_term g h (length g).
Proof. intros g h L. rewrite <- L at 1. rewrite gamma_term_ok, gamma_term_ok by auto. apply dk_cov_sym. auto. Qed.
Theorem C53_variance_nonneg : forall y period, 1 <= period -> period <= length y ->
  let '(_, v, _) := correlated_grouped_stats y period in (0 <= v)%Qc.
Proof.
  intros y P H1 H2. rewrite correlated_ok by auto. apply (@cov_sum_nonneg _ (length y / P)).
  intros g Hg. unfold groups in Hg. apply in_map_iff in Hg. destruct Hg as (i & <- & _). apply group_series_length.
Qed.
Example C53_demo : 1 <= 2 /\ 2 <= length demo /\
  (let '(s, v, d) := correlated_grouped_stats demo 2 in (s, this v, this d)) = (3%Z, 21%Q, 12%Q).
Proof. split; [lia|]. split; [vm_compute; lia|]. vm_compute. reflexivity. Qed.

(** ** C54: partial Mann-Kendall test *)
Theorem C54_partial_stats : forall x y, length y = length x -> 3 <= length x ->
  compute_partial_stats x y = (partial_S x y, partial_var x y,
   (qz (mk_S x) / (qz (Z.of_nat (length x)) * qz (Z.of_nat (length x) - 1) / 2))%Qc).
Proof. exact compute_partial_stats_ok. Qed.
Theorem C54_fused_agrees : forall x y work0, length y = length x -> 3 <= length x ->
  length x * (length x - 1) / 2 <= length work0 ->
  partial_stats_and_sen_slope x y (make_inv_lag (length x - 1)) work0 = Some (compute_partial_stats x y, Some (median (pair_slopes x))).
Proof. intros x y w L H W. rewrite compute_partial_stats_ok, partial_fused_ok by (auto; lia). auto. Qed.
Theorem C54_variance_nonneg : forall x y, length y = length x -> 3 <= length x ->
  let '(_, v, _) := compute_partial_stats x y in (0 <= v)%Qc.
Proof. intros x y L H. rewrite compute_partial_stats_ok by auto. apply partial_var_nonneg; auto; lia. Qed.
Theorem C54_rho_bound : forall x y, length y = length x -> 2 <= length x -> (-(1) <= partial_rho x y <= 1)%Qc.
Proof. exact partial_rho_bound. Qed.
(** A covariate equal to the (untied) series removes the whole trend. *)
Theorem C54_self_covariate : forall x, NoDup x -> 3 <= length x ->
  exists tau, compute_partial_stats x x = (0%Qc, 0%Qc, tau).
Proof. intros x D H. rewrite compute_partial_stats_ok by auto. destruct (@partial_self x D ltac:(lia)) as (_ & -> & ->). eauto. Qed.
Example C54_demo : length (rev demo) = length demo /\ 3 <= length demo /\
  (let '(s, v, t) := compute_partial_stats demo (zl [1;2;3;4;5;6;7;9]%Z) in (this s, this v, this t)) = ((-18 # 7)%Q, (9797 # 196)%Q, (11 # 28)%Q).
Proof. split; [reflexivity|]. split; [vm_compute; lia|]. vm_compute. reflexivity. Qed.
Example C54_self_demo : NoDup (zl [5;2;9]%Z) /\ 3 <= length (zl [5;2;9]%Z).
Proof. split; [|simpl; lia]. unfold zl. simpl. repeat constructor; simpl; intros H; repeat destruct H as [H|H]; auto; apply qz_inj in H; discriminate. Qed.

Print Assumptions C01_pair_kernel.
Print Assumptions C01_fused_kernel.
Print Assumptions C01_tau_bound.
Print Assumptions C02_reverse.
Print Assumptions C02_increasing_map.
Print Assumptions C05_sen_slope.
Print Assumptions C06_affine.
Print Assumptions C06_reverse.
Print Assumptions C07_nonneg_zero_iff.
Print Assumptions C08_grouped_sen.
Print Assumptions C09_average_ranks.
Print Assumptions C10_hamed_rao_refuted.
Print Assumptions C11_yue_wang_all_lags.
Print Assumptions C11_yue_wang_limited_refuted.
Print Assumptions C11_hamed_rao_formula.
Print Assumptions C53_variance_nonneg.
Print Assumptions C54_fused_agrees.
Print Assumptions C54_variance_nonneg.
