From Verif Require Import Base Buffer Loops OrderSpec OrderProofs MKSort_Model MKStat_Model MKStat_Spec MKStat_Proofs1 MKStat_Proofs2 MKStat_Proofs3 MKStat_Proofs4 MKStat_Proofs5 MKStat_Proofs6 MKStat_Props NdArray MKTest_Model MKTest_Spec.
From Coq Require Import Reals Qreals Lra.
Local Open Scope nat_scope.

(** ** Real images of rationals *)
Lemma QcR_pos v : (0 < v)%Qc -> (0 < QcR v)%R.
Proof. intros H. unfold QcR. replace 0%R with (Q2R 0) by (unfold Q2R; simpl; lra). apply Qlt_Rlt. exact H. Qed.
Lemma QcR_0 : QcR 0 = 0%R. Proof. unfold QcR, Q2R. simpl. lra. Qed.
Lemma QcR_mul a b : QcR (a * b) = (QcR a * QcR b)%R.
Proof. unfold QcR. rewrite <- Q2R_mult. apply Qeq_eqR. apply Qred_correct. Qed.
Lemma QcR_opp a : QcR (- a) = (- QcR a)%R.
Proof. unfold QcR. rewrite <- Q2R_opp. apply Qeq_eqR. apply Qred_correct. Qed.
Lemma sqrt_QcR_pos v : (0 < v)%Qc -> (0 < sqrt (QcR v))%R.
Proof. intros. apply sqrt_lt_R0. apply QcR_pos; auto. Qed.

(** ** Means and variances *)
Lemma np_mean_mean l : np_mean l = mean l. Proof. reflexivity. Qed.
Lemma np_var_variance l : np_var l = variance l.
Proof. unfold np_var, variance, sum_squares, centered, np_mean. rewrite map_length, map_map. reflexivity. Qed.
Lemma qlen_pos {A} (l : list A) : l <> [] -> (0 < qz (Z.of_nat (length l)))%Qc.
Proof. intros H. destruct l; [congruence|]. change 0%Qc with (qz 0). apply qz_lt. simpl. lia. Qed.
Lemma mean_shift c l : l <> [] -> mean (map (fun v => v - c)%Qc l) = (mean l - c)%Qc.
Proof.
  intros H. pose proof (qlen_pos l H) as P. unfold mean. rewrite map_length. change (fold_right Qcplus 0%Qc) with qsum.
  rewrite (qsum_map_sub (fun v => v) (fun _ => c)), map_id, qsum_const. field. apply Qcpos_neq; auto.
Qed.
Lemma centered_shift c l : centered (map (fun v => v - c)%Qc l) = centered l.
Proof.
  destruct l as [|a l]; auto. unfold centered. rewrite mean_shift by discriminate. rewrite map_map. apply map_ext. intros. ring.
Qed.
Lemma variance_shift c l : variance (map (fun v => v - c)%Qc l) = variance l.
Proof. unfold variance. rewrite centered_shift, map_length. auto. Qed.

(** ** Residuals *)
Lemma resid_scalar slope c y : forall k, map2 (fun yi xi => yi - (xi * slope + c))%Qc y (map (fun i => qz (Z.of_nat i)) (seq k (length y))) =
  map (fun v => v - c)%Qc (detrend k slope y).
Proof.
  induction y as [|v y IH]; intros k; auto. cbn [length seq map detrend]. unfold map2 in *. cbn [combine map]. f_equal. ring. apply IH.
Qed.
Lemma resid_theil slope y : forall k, map2 (fun xi yi => xi * slope * - (1) + yi)%Qc (map (fun i => qz (Z.of_nat i)) (seq k (length y))) y = detrend k slope y.
Proof.
  induction y as [|v y IH]; intros k; auto. cbn [length seq map detrend]. unfold map2 in *. cbn [combine map]. f_equal. ring. apply IH.
Qed.
Lemma resid_lin slope c y : forall k, map2 (fun xi yi => (xi * slope + c) * - (1) + yi)%Qc (map (fun i => qz (Z.of_nat i)) (seq k (length y))) y = map (fun v => v - c)%Qc (detrend k slope y).
Proof.
  induction y as [|v y IH]; intros k; auto. cbn [length seq map detrend]. unfold map2 in *. cbn [combine map]. f_equal. ring. apply IH.
Qed.
Lemma std_shift c l n : std_over_sqrt (map (fun v => v - c)%Qc l) n = (sqrt (QcR (variance l)) / sqrt (INR n))%R.
Proof. unfold std_over_sqrt. rewrite np_var_variance, variance_shift. auto. Qed.

(** ** Least squares *)
Lemma combine_map {A B C D} (f : A -> B) (g : C -> D) a : forall b, combine (map f a) (map g b) = map (fun '(x, y) => (f x, g y)) (combine a b).
Proof. induction a; intros [|y b]; simpl; auto. f_equal. auto. Qed.
Lemma combine_map_l {A B C} (f : A -> B) a : forall b : list C, combine (map f a) b = map (fun '(x, y) => (f x, y)) (combine a b).
Proof. induction a; intros [|y b]; simpl; auto. f_equal. auto. Qed.
Lemma linregress_slope y : fst (linregress (arange (length y)) y) = ols_slope y.
Proof.
  unfold linregress, ols_slope, arange, sum_squares. cbn [fst]. cbv zeta. rewrite !np_mean_mean. unfold map2. rewrite combine_map, !map_map.
  change (fold_right Qcplus 0%Qc) with qsum. f_equal. f_equal. apply map_ext. intros [? ?]. auto.
Qed.
Lemma qsum_combine_const (f : Qc -> Qc) c (x y : list Qc) : length x = length y ->
  qsum (map (fun '(a, b) => f a * c)%Qc (combine x y)) = (qsum (map f x) * c)%Qc.
Proof. revert y. induction x as [|a x IH]; intros [|b y] L; try discriminate L. { cbn [map combine qsum fold_right]. ring. } cbn [combine map qsum fold_right]. change (fold_right Qcplus 0%Qc) with qsum. rewrite IH by (simpl in L; lia). ring. Qed.
Lemma sum_dev l : l <> [] -> qsum (map (fun a => a - mean l)%Qc l) = 0%Qc.
Proof.
  intros H. pose proof (qlen_pos l H) as P. rewrite (qsum_map_sub (fun v => v) (fun _ => mean l)), map_id, qsum_const. unfold mean.
  change (fold_right Qcplus 0%Qc) with qsum. field. apply Qcpos_neq; auto.
Qed.
Lemma linregress_batch y : linregress_slope_batch (arange (length y)) y = ols_slope y.
Proof.
  destruct y as [|v0 y0] eqn:EY. vm_compute. reflexivity. rewrite <- EY. assert (NE : arange (length y) <> []) by (subst; discriminate).
  assert (L : length (arange (length y)) = length y) by (unfold arange; rewrite map_length, seq_length; auto).
  rewrite <- linregress_slope. unfold linregress_slope_batch, linregress. cbn [fst]. cbv zeta. rewrite !np_mean_mean.
  set (x := arange (length y)) in *. clearbody x. rewrite map_map. f_equal.
  unfold map2. rewrite combine_map_l, map_map.
  transitivity (qsum (map (fun '(a, b) => (a - mean x) * (b - mean y) + (a - mean x) * mean y)%Qc (combine x y))).
  - f_equal. apply map_ext. intros [a b]. ring.
  - rewrite (map_ext _ (fun q => ((fun '(a, b) => (a - mean x) * (b - mean y)) q + (fun '(a, b) => (a - mean x) * mean y) q)%Qc)) by (intros [? ?]; auto).
    rewrite qsum_map_add. rewrite (qsum_combine_const (fun a => a - mean x)%Qc (mean y)) by auto. rewrite sum_dev by auto. rewrite Qcmult_0_l, Qcplus_0_r. reflexivity.
Qed.

(** ** The z score *)
Lemma z_same S v : z_batch S v = z_scalar S v.
Proof. unfold z_batch, z_scalar. destruct (Z.ltb_spec 0 S), (Z.ltb_spec S 0), (Z.eqb_spec S 0); auto; lia. Qed.
Lemma z_scalar_pos S v : (0 < v)%Qc -> z_scalar S v = Zfin (if (S =? 0)%Z then 0 else IZR (corrected S) / sqrt (QcR v)).
Proof.
  intros H. unfold z_scalar, div_sqrt, corrected. destruct (Qcltb_spec v 0) as [L|_]; [exfalso; qclra|].
  destruct (Qceqb_spec v 0) as [E|_]; [exfalso; subst; qclra|].
  destruct (Z.ltb_spec 0 S), (Z.eqb_spec S 0); try lia; auto; do 3 f_equal.
  - rewrite Z.sgn_pos, Z.abs_eq by lia. lia.
  - rewrite Z.sgn_neg, Z.abs_neq by lia. lia.
Qed.
Lemma z_test y : z_scalar (mk_S y) (mk_variance y) = Zfin (if (mk_S y =? 0)%Z then 0 else IZR (corrected (mk_S y)) / sqrt (QcR (mk_variance y))).
Proof.
  destruct (Z.eqb_spec (mk_S y) 0) as [E|N].
  - rewrite E. reflexivity.
  - rewrite z_scalar_pos. destruct (Z.eqb_spec (mk_S y) 0); [lia|auto].
    apply (C07_nonzero_score_positive_variance y); rewrite ?C01_pair_kernel, ?C07_variance; auto.
Qed.

(** ** The closed form of the result *)
Definition zr y : R := if (mk_S y =? 0)%Z then 0%R else (IZR (corrected (mk_S y)) / sqrt (QcR (mk_variance y)))%R.
Definition slope_of (theil : bool) y := if theil then sen y else ols_slope y.
Definition result cdf ppf alpha theil y : stat :=
  mk_stat (Some (slope_of theil y)) (significant ppf alpha (Zfin (zr y))) (p_value cdf (Zfin (zr y))) (Zfin (zr y))
    (Some (qz (2 * mk_S y) / qz (Z.of_nat (length y) * (Z.of_nat (length y) - 1)))%Qc)
    (Some (sqrt (QcR (variance (detrend 0 (slope_of theil y) y))) / sqrt (INR (length y)))%R).
Lemma result_ok cdf ppf alpha theil y : mk_result cdf ppf alpha theil y (result cdf ppf alpha theil y).
Proof.
  unfold mk_result, result, slope_of. cbv zeta. cbn [trend z p h tau std_error p_value significant]. fold (zr y). repeat split; auto.
  - destruct (Rlt_dec (ppf (1 - alpha / 2)%R) (Rabs (zr y))); auto; discriminate.
  - intros H. destruct (Rlt_dec (ppf (1 - alpha / 2)%R) (Rabs (zr y))); auto; contradiction.
Qed.
Lemma mk_result_unique cdf ppf alpha theil y r r' : mk_result cdf ppf alpha theil y r -> mk_result cdf ppf alpha theil y r' -> r = r'.
Proof.
  unfold mk_result. cbv zeta. destruct r as [a1 a2 a3 a4 a5 a6], r' as [b1 b2 b3 b4 b5 b6]. cbn [trend z p h tau std_error].
  intros (-> & -> & -> & A & -> & ->) (-> & -> & -> & B & -> & ->). replace b2 with a2; auto.
  rewrite <- B in A. destruct a2, b2; auto; destruct A as [A A']; try (symmetry; auto; fail); try (apply A; auto; fail); try (rewrite A'; auto).
Qed.
Lemma tau_form sc n : 2 <= n -> (qz sc / (qz (Z.of_nat n) * qz (Z.of_nat n - 1) / qz 2) = qz (2 * sc) / qz (Z.of_nat n * (Z.of_nat n - 1)))%Qc.
Proof.
  intros H. rewrite !qz_mul. assert (P1 : qz (Z.of_nat n) <> 0%Qc) by (apply Qcpos_neq; change 0%Qc with (qz 0); apply qz_lt; lia).
  assert (P2 : qz (Z.of_nat n - 1) <> 0%Qc) by (apply Qcpos_neq; change 0%Qc with (qz 0); apply qz_lt; lia).
  assert (P3 : qz 2 <> 0%Qc) by (apply Qcpos_neq; change 0%Qc with (qz 0); apply qz_lt; lia).
  field. repeat split; auto.
Qed.

(** ** Batch kernels *)
Lemma columns_ok {A B} (f : nat -> A -> option B) (F : A -> B) l : (forall k a, In a l -> f k a = Some (F a)) ->
  forall k, columns f k l = Some (map F l).
Proof. induction l as [|a l IH]; intros H k; simpl; auto. rewrite H by (simpl; auto). rewrite IH; auto. intros; apply H; simpl; auto. Qed.
Lemma buffer_length g n : length (buffer g n) = Nat.max 1 (n * (n - 1) / 2).
Proof. unfold buffer. rewrite map_length, seq_length. auto. Qed.
Lemma mk_score_var_batch_ok data : mk_score_var_batch data = Some (map (fun y => (mk_S y, mk_variance y)) data).
Proof. unfold mk_score_var_batch. apply columns_ok. intros k y _. rewrite C07_variance, C01_pair_kernel. auto. Qed.
Lemma sen_slope_batch_ok g n data : (forall y, In y data -> length y = n) ->
  sen_slope_batch g n data = Some (map (fun y => if length y <? 2 then None else Some (sen y)) data).
Proof.
  intros H. unfold sen_slope_batch. apply columns_ok. intros k y Hy. rewrite <- (H y Hy) at 1.
  rewrite sen_slope_with_inv_lag_ok; auto. rewrite buffer_length, (H y Hy). lia.
Qed.
Lemma mk_score_var_sen_batch_ok g n data : (forall y, In y data -> length y = n) ->
  mk_score_var_sen_batch g n data = Some (map (fun y => (mk_S y, mk_variance y, if length y <? 2 then None else Some (sen y))) data).
Proof.
  intros H. unfold mk_score_var_sen_batch. apply columns_ok. intros k y Hy. rewrite <- (H y Hy) at 1.
  rewrite s_value_and_sen_ok. rewrite C07_variance. auto. rewrite buffer_length, (H y Hy). lia.
Qed.

Lemma finite_values_some l : finite_values (map Some l) = l.
Proof. induction l; simpl; f_equal; auto. Qed.
Lemma scalar_ok cdf ppf g alpha theil values :
  mann_kendall_test cdf ppf g alpha theil values =
  Some (if length (finite_values values) <? 3 then nan_stat else result cdf ppf alpha theil (finite_values values)).
Proof.
  unfold mann_kendall_test. set (y := finite_values values). cbv zeta. destruct (Nat.ltb_spec (length y) 3) as [L|L]; auto.
  rewrite sen_slope_batch_ok by (intros y' [<-|[]]; auto). rewrite mk_score_var_sen_batch_ok by (intros y' [<-|[]]; auto).
  rewrite mk_score_var_batch_ok. cbn [map]. replace (length y <? 2) with false by (symmetry; apply Nat.ltb_ge; lia).
  unfold result, slope_of. destruct theil.
  - rewrite z_test. fold (zr y). rewrite tau_form by lia. unfold arange. rewrite resid_scalar, std_shift. auto.
  - pose proof (linregress_slope y) as E. destruct (linregress (arange (length y)) y) as [s c]. cbn [fst] in E. subst s.
    rewrite z_test. fold (zr y). rewrite tau_form by lia. unfold arange. rewrite resid_scalar, std_shift. auto.
Qed.

Lemma combine_map_self {A B} (f : A -> B) l : combine l (map f l) = map (fun x => (x, f x)) l.
Proof. induction l; simpl; f_equal; auto. Qed.
Lemma clean_batch_ok cdf ppf g alpha theil n clean : 3 <= n -> (forall y, In y clean -> length y = n) ->
  clean_batch cdf ppf g alpha theil n clean = Some (map (result cdf ppf alpha theil) clean).
Proof.
  intros N H. unfold clean_batch. cbv zeta. rewrite mk_score_var_sen_batch_ok, mk_score_var_batch_ok by auto. cbn [option_map].
  rewrite combine_map_self, map_map. destruct theil; f_equal.
  - rewrite combine_map_self, map_map. apply map_ext_in. intros y Hy. pose proof (H y Hy) as Ly.
    replace (length y <? 2) with false by (symmetry; apply Nat.ltb_ge; lia). rewrite z_same, z_test. fold (zr y).
    unfold result, slope_of. cbn [option_map]. rewrite tau_form by lia. rewrite Ly. do 2 f_equal.
    unfold theil_std_error_batch, arange. rewrite <- Ly. rewrite resid_theil, std_shift. auto.
  - rewrite combine_map_self, map_map. apply map_ext_in. intros y Hy. pose proof (H y Hy) as Ly.
    rewrite z_same, z_test. fold (zr y). unfold result, slope_of. cbn [option_map]. rewrite tau_form by lia.
    rewrite <- Ly. rewrite linregress_batch. do 2 f_equal. unfold linregress_std_error_batch, arange. rewrite resid_lin, std_shift. auto.
Qed.

(** ** Scatter and the chunk kernel *)
Lemma nth_error_upd0 {A} (a : list A) i v k : nth_error (upd0 a i v) k = if (k =? i) && (k <? length a) then Some v else nth_error a k.
Proof.
  destruct (Nat.eqb_spec k i) as [->|N]; cbn [andb].
  - destruct (Nat.ltb_spec i (length a)) as [L|L]. apply nth_error_upd0_eq; auto.
    rewrite (proj2 (nth_error_None _ _)), (proj2 (nth_error_None a i)); auto. rewrite upd0_length; auto.
  - apply nth_error_upd0_neq; auto.
Qed.
Lemma fold_upd {A} (F : nat -> A) idx : forall r k,
  nth_error (fold_left (fun r i => upd0 r i (F i)) idx r) k =
  if existsb (Nat.eqb k) idx && (k <? length r) then Some (F k) else nth_error r k.
Proof.
  induction idx as [|i idx IH]; intros r k; simpl; auto. rewrite IH, upd0_length, nth_error_upd0.
  destruct (Nat.eqb_spec k i) as [->|N]; cbn [andb orb]; destruct (existsb _ idx), (_ <? length r); auto.
Qed.
Lemma scatter_map {A} (F : nat -> A) idx : forall r, scatter r idx (map F idx) = fold_left (fun r i => upd0 r i (F i)) idx r.
Proof. unfold scatter. induction idx; intros r; simpl; auto. Qed.
Lemma existsb_filter k (P : nat -> bool) l : existsb (Nat.eqb k) (filter P l) = existsb (Nat.eqb k) l && P k.
Proof.
  induction l as [|a l IH]; simpl; auto. destruct (P a) eqn:E; simpl; rewrite IH; destruct (Nat.eqb_spec k a) as [->|N]; simpl; rewrite ?E; auto.
  destruct (existsb _ l); auto.
Qed.
Lemma existsb_seq k n : existsb (Nat.eqb k) (seq 0 n) = (k <? n).
Proof.
  destruct (Nat.ltb_spec k n) as [L|L].
  - apply existsb_exists. exists k. split. apply in_seq; lia. apply Nat.eqb_refl.
  - apply Bool.not_true_iff_false. intros H. apply existsb_exists in H. destruct H as (x & Hx & E). apply in_seq in Hx. apply Nat.eqb_eq in E. lia.
Qed.
Lemma list_ext {A} (a b : list A) : (forall k, nth_error a k = nth_error b k) -> a = b.
Proof.
  revert b. induction a as [|x a IH]; intros [|y b] H; auto; try (specialize (H 0); discriminate).
  f_equal. specialize (H 0). simpl in H. congruence. apply IH. intros k. apply (H (S k)).
Qed.
Lemma fold_upd_length {A} (F : nat -> A) idx : forall r, length (fold_left (fun r i => upd0 r i (F i)) idx r) = length r.
Proof. induction idx; intros r; simpl; auto. rewrite IHidx, upd0_length. auto. Qed.
Lemma nth_error_repeat {A} (x : A) n k : nth_error (repeat x n) k = if k <? n then Some x else None.
Proof. revert k. induction n; intros [|k]; simpl; auto. rewrite IHn. reflexivity. Qed.

Definition point cdf ppf alpha theil (c : list fl) : stat :=
  if length (finite_values c) <? 3 then nan_stat else result cdf ppf alpha theil (finite_values c).
Lemma vectorized_ok cdf ppf g alpha theil T chunk :
  vectorized_mk_test cdf ppf g alpha theil T chunk = Some (map (point cdf ppf alpha theil) chunk).
Proof.
  unfold vectorized_mk_test. cbv zeta.
  set (vi := filter (fun k => 3 <=? length (finite_values (nth k chunk []))) (seq 0 (length chunk))).
  set (F := fun k => result cdf ppf alpha theil (finite_values (nth k chunk []))).
  assert (VI : forall k, existsb (Nat.eqb k) vi = (k <? length chunk) && (3 <=? length (finite_values (nth k chunk [])))).
  { intros k. unfold vi. rewrite existsb_filter, existsb_seq. auto. }
  assert (G : forall k, nth_error (map (point cdf ppf alpha theil) chunk) k = if existsb (Nat.eqb k) vi then Some (F k) else nth_error (repeat nan_stat (length chunk)) k).
  { intros k. rewrite VI, nth_error_repeat. destruct (Nat.ltb_spec k (length chunk)) as [L|L]; cbn [andb].
    - rewrite (map_nth_error _ _ _ (nth_error_nth' chunk [] L)). unfold point, F.
      destruct (Nat.leb_spec 3 (length (finite_values (nth k chunk [])))), (Nat.ltb_spec (length (finite_values (nth k chunk []))) 3); auto; lia.
    - apply nth_error_None. rewrite map_length. auto. }
  destruct (Nat.eqb_spec (length vi) 0) as [E|NE].
  - f_equal. apply list_ext. intros k. rewrite G. destruct vi; [auto|discriminate].
  - set (cl := filter (fun k => length (finite_values (nth k chunk [])) =? T) vi). set (na := filter (fun k => negb (length (finite_values (nth k chunk [])) =? T)) vi).
    assert (C : (if 0 <? length cl then option_map (scatter (repeat nan_stat (length chunk)) cl)
                   (clean_batch cdf ppf g alpha theil T (map (fun k => finite_values (nth k chunk [])) cl))
                 else Some (repeat nan_stat (length chunk)))
                = Some (fold_left (fun r i => upd0 r i (F i)) cl (repeat nan_stat (length chunk)))).
    { destruct cl as [|k0 cl'] eqn:Ecl; auto. rewrite <- Ecl. replace (0 <? length cl) with true by (rewrite Ecl; auto).
      assert (InT : forall k, In k cl -> length (finite_values (nth k chunk [])) = T /\ 3 <= length (finite_values (nth k chunk []))).
      { intros k Hk. unfold cl in Hk. apply filter_In in Hk. destruct Hk as [Hk Et]. apply Nat.eqb_eq in Et. unfold vi in Hk. apply filter_In in Hk. destruct Hk as [_ Hk]. apply Nat.leb_le in Hk. auto. }
      rewrite clean_batch_ok.
      - rewrite map_map. cbn [option_map]. rewrite (scatter_map F). auto.
      - destruct (InT k0). rewrite Ecl; simpl; auto. lia.
      - intros y Hy. apply in_map_iff in Hy. destruct Hy as (k & <- & Hk). apply InT in Hk. apply Hk. }
    rewrite C. cbn [option_map]. f_equal.
    rewrite (fold_left_ext_in _ (fun r i => upd0 r i (F i))).
    + apply list_ext. intros k. rewrite G. rewrite !fold_upd, fold_upd_length, repeat_length. unfold cl, na. rewrite !existsb_filter.
      rewrite VI. destruct (k <? length chunk); cbn [andb]; [|destruct (existsb (Nat.eqb k) vi); auto].
      destruct (3 <=? length (finite_values (nth k chunk []))); cbn [andb]; auto. destruct (length (finite_values (nth k chunk [])) =? T); cbn [negb andb]; auto.
    + intros r k Hk. rewrite scalar_ok, finite_values_some. unfold na in Hk. apply filter_In in Hk. destruct Hk as [Hk _].
      unfold vi in Hk. apply filter_In in Hk. destruct Hk as [_ Hk]. apply Nat.leb_le in Hk.
      destruct (Nat.ltb_spec (length (finite_values (nth k chunk []))) 3); [lia|]. reflexivity.
Qed.

(** ** The chunk loop *)
Lemma firstn_skipn_split {A} (l : list A) a b : a <= b -> firstn a l ++ firstn (b - a) (skipn a l) = firstn b l.
Proof.
  revert b l. induction a; intros b l H; simpl. rewrite Nat.sub_0_r. auto.
  destruct b; [lia|]. destruct l; simpl; auto. rewrite firstn_nil. auto. f_equal. apply IHa. lia.
Qed.
Lemma chunk_loop_ok cdf ppf g alpha theil T c cols : (1 <= c)%Z ->
  chunk_loop cdf ppf g alpha theil T c cols = Some (map (point cdf ppf alpha theil) cols).
Proof.
  intros Hc. unfold chunk_loop, range0. destruct (Z.eqb_spec c 0); [lia|]. destruct (Z.ltb_spec c 0); [lia|]. cbv zeta.
  set (s := Z.to_nat c). assert (Hs : 1 <= s) by (unfold s; lia). set (N := length cols). set (P := map (point cdf ppf alpha theil)).
  set (step := fun acc start => _).
  assert (INV : forall m, fold_left step (map (fun i => i * s) (seq 0 m)) (Some (repeat nan_stat N))
     = Some (P (firstn (Nat.min (m * s) N) cols) ++ repeat nan_stat (N - Nat.min (m * s) N))).
  { induction m as [|m IH].
    - simpl. rewrite Nat.sub_0_r. auto.
    - rewrite seq_S, map_app, fold_left_app, IH. cbn [map fold_left]. rewrite Nat.add_0_l. unfold step at 1.
      fold N. rewrite vectorized_ok. cbn [option_map]. f_equal. unfold store. fold P.
      set (a := Nat.min (m * s) N). set (b := Nat.min (m * s + s) N). assert (AB : a <= b) by (unfold a, b; lia).
      replace (Nat.min (S m * s) N) with b by (unfold b; f_equal; lia).
      destruct (Nat.le_gt_cases N (m * s)) as [L|L].
      + assert (Ha : a = N) by (unfold a; lia). assert (Hb : b = N) by (unfold b; lia). rewrite Ha, Hb.
        replace (N - m * s) with 0 by lia. replace (N - N) with 0 by lia. cbn [firstn map app]. rewrite app_nil_r. unfold P at 2. cbn [map length app].
        rewrite firstn_all2 by (unfold P; rewrite map_length, firstn_length; lia). rewrite skipn_all2 by (unfold P; rewrite map_length, firstn_length; lia).
        unfold P. simpl. rewrite app_nil_r. auto.
      + assert (Ea : a = m * s) by (unfold a; lia). rewrite <- Ea.
        assert (LP : length (P (firstn a cols)) = a) by (unfold P; rewrite map_length, firstn_length; fold N; lia).
        rewrite firstn_app, LP, Nat.sub_diag. rewrite (@firstn_all2 _ a (P (firstn a cols))) by (rewrite LP; auto). cbn [firstn]. rewrite app_nil_r.
        assert (LQ : length (P (firstn (b - a) (skipn a cols))) = b - a) by (unfold P; rewrite map_length, firstn_length, skipn_length; fold N; unfold b; lia).
        rewrite LQ. rewrite skipn_app, LP. rewrite (@skipn_all2 _ (a + (b - a)) (P (firstn a cols))) by (rewrite LP; lia). cbn [app].
        replace (a + (b - a) - a) with (b - a) by lia.
        rewrite app_assoc. f_equal.
        * unfold P. rewrite <- map_app. rewrite firstn_skipn_split by auto. auto.
        * clear. assert (SR : forall k n, skipn k (repeat nan_stat n) = repeat nan_stat (n - k)).
          { induction k; intros n; simpl. rewrite Nat.sub_0_r. auto. destruct n; simpl; auto. }
          rewrite SR. f_equal. lia. }
  rewrite INV. f_equal.
  assert (LE : N <= (N + s - 1) / s * s).
  { pose proof (Nat.div_mod_eq (N + s - 1) s). pose proof (Nat.mod_upper_bound (N + s - 1) s). nia. }
  rewrite Nat.min_r by auto. rewrite Nat.sub_diag. cbn [repeat]. rewrite app_nil_r. unfold N. rewrite firstn_all. auto.
Qed.
