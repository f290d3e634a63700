From Verif Require Import Base Buffer Loops OrderSpec OrderProofs MKStat_Model MKStat_Spec MKStat_Proofs1 MKStat_Proofs2 MKTest_Model MKTest_Spec MKTest_Proofs.
From Coq Require Import Reals Qreals Lra.
Local Open Scope nat_scope.

Lemma mean_perm l l' : Permutation l l' -> mean l = mean l'.
Proof. intros H. unfold mean. change (fold_right Qcplus 0%Qc) with qsum. rewrite (qsum_perm H), (Permutation_length H). auto. Qed.
Lemma mean_affine a b l : l <> [] -> mean (map (fun v => a * v + b)%Qc l) = (a * mean l + b)%Qc.
Proof.
  intros H. pose proof (qlen_pos l H) as P. unfold mean. rewrite map_length. change (fold_right Qcplus 0%Qc) with qsum.
  rewrite (qsum_map_add (fun v => a * v)%Qc (fun _ => b)), (qsum_map_scale a (fun v => v)), map_id, qsum_const. field. apply Qcpos_neq; auto.
Qed.
Lemma centered_affine a b l : centered (map (fun v => a * v + b)%Qc l) = map (fun v => a * v)%Qc (centered l).
Proof. destruct l as [|x l]; auto. unfold centered. rewrite mean_affine by discriminate. rewrite !map_map. apply map_ext. intros. ring. Qed.
Lemma variance_affine a b l : variance (map (fun v => a * v + b)%Qc l) = (a * a * variance l)%Qc.
Proof.
  unfold variance. rewrite centered_affine, map_length. unfold sum_squares. rewrite map_map. change (fold_right Qcplus 0%Qc) with qsum.
  rewrite (map_ext _ (fun v => a * a * (v * v))%Qc) by (intros; ring). rewrite (qsum_map_scale (a * a) (fun v => v * v))%Qc. unfold Qcdiv. ring.
Qed.
Lemma variance_perm l l' : Permutation l l' -> variance l = variance l'.
Proof.
  intros H. unfold variance, sum_squares, centered. rewrite (mean_perm l l' H), (Permutation_length H), !map_map. f_equal.
  change (fold_right Qcplus 0%Qc) with qsum. apply qsum_perm. apply Permutation_map. auto.
Qed.

Lemma rev_arange n : rev (arange n) = map (fun x => qz (Z.of_nat n - 1) - x)%Qc (arange n).
Proof.
  unfold arange. rewrite map_map. induction n as [|n IH]; auto.
  rewrite seq_S at 1. rewrite map_app, rev_app_distr. cbn [map rev app plus].
  rewrite IH. cbn [seq map]. f_equal. rewrite <- qz_sub. f_equal. lia.
  rewrite <- seq_shift, map_map. apply map_ext. intros i. rewrite <- !qz_sub. f_equal. lia.
Qed.
Lemma arange_length n : length (arange n) = n. Proof. unfold arange. rewrite map_length, seq_length. auto. Qed.
Lemma mean_arange n : 1 <= n -> (mean (arange n) + mean (arange n) = qz (Z.of_nat n - 1))%Qc.
Proof.
  intros H. assert (NE : arange n <> []) by (destruct n; [lia|discriminate]).
  assert (E : mean (arange n) = (- (1) * mean (arange n) + qz (Z.of_nat n - 1))%Qc).
  { rewrite <- mean_affine by auto. rewrite (mean_perm (arange n) (rev (arange n))) by apply Permutation_rev. rewrite rev_arange. f_equal. apply map_ext. intros. ring. }
  rewrite E at 1. ring.
Qed.
Lemma combine_rev' {A B} (a : list A) : forall b : list B, length a = length b -> combine (rev a) (rev b) = rev (combine a b).
Proof.
  induction a as [|x a IH]; intros [|y b] L; try discriminate; auto. simpl in *.
  assert (CA : forall (u : list A) (v : list B) s t, length u = length v -> combine (u ++ s) (v ++ t) = combine u v ++ combine s t).
  { clear. induction u; intros [|? v] s t L; try discriminate; auto. simpl. f_equal. apply IHu. auto. }
  rewrite CA by (rewrite !rev_length; lia). rewrite IH by lia. auto.
Qed.
Definition dxs n := map (fun x => x - mean (arange n))%Qc (arange n).
Lemma ols_form y : ols_slope y = (qsum (map (fun '(a, b) => a * b) (combine (dxs (length y)) (centered y))) / sum_squares (dxs (length y)))%Qc.
Proof. reflexivity. Qed.
Lemma dxs_rev n : rev (dxs n) = map (fun v => - v)%Qc (dxs n).
Proof.
  destruct n as [|n]; auto. unfold dxs. rewrite <- map_rev, rev_arange, !map_map. apply map_ext. intros x.
  pose proof (mean_arange (S n) ltac:(lia)) as E. rewrite <- E. ring.
Qed.
Lemma centered_rev l : centered (rev l) = rev (centered l).
Proof. unfold centered. rewrite map_rev, (mean_perm (rev l) l). auto. symmetry. apply Permutation_rev. Qed.
Lemma centered_length l : length (centered l) = length l. Proof. apply map_length. Qed.
Lemma ols_rev y : ols_slope (rev y) = (- ols_slope y)%Qc.
Proof.
  rewrite !ols_form, rev_length, centered_rev. set (n := length y).
  assert (E : qsum (map (fun '(a, b) => a * b)%Qc (combine (dxs n) (rev (centered y)))) = (- qsum (map (fun '(a, b) => a * b)%Qc (combine (dxs n) (centered y))))%Qc).
  { rewrite <- (rev_involutive (dxs n)) at 1. rewrite combine_rev' by (rewrite rev_length; unfold dxs; rewrite map_length, arange_length, centered_length; auto).
    rewrite dxs_rev. rewrite (@qsum_perm _ (map (fun '(a, b) => a * b)%Qc (combine (map (fun v => - v)%Qc (dxs n)) (centered y)))).
    - rewrite combine_map_l, map_map. rewrite (map_ext _ (fun q => - (1) * (fun '(a, b) => a * b) q)%Qc) by (intros [? ?]; ring). rewrite qsum_map_scale. ring.
    - rewrite map_rev. apply Permutation_sym, Permutation_rev. }
  rewrite E. unfold Qcdiv. ring.
Qed.
Lemma ols_affine a b y : ols_slope (map (fun v => a * v + b)%Qc y) = (a * ols_slope y)%Qc.
Proof.
  rewrite !ols_form, map_length, centered_affine.
  assert (E : forall u v, qsum (map (fun '(p, q) => p * q)%Qc (combine u (map (fun w => a * w)%Qc v))) = (a * qsum (map (fun '(p, q) => p * q)%Qc (combine u v)))%Qc).
  { induction u as [|p u IH]; intros [|q v]; try (cbn [map combine qsum fold_right]; ring). cbn [map combine qsum fold_right]. change (fold_right Qcplus 0%Qc) with qsum. rewrite IH. ring. }
  rewrite E. unfold Qcdiv. ring.
Qed.

Lemma detrend_form s y : detrend 0 s y = map (fun '(x, v) => v - x * s)%Qc (combine (arange (length y)) y).
Proof. rewrite <- (resid_theil s y 0). unfold map2, arange. apply map_ext. intros [? ?]. ring. Qed.
Lemma combine_affine (A : list Qc) a b : forall y, combine A (map (fun v => a * v + b)%Qc y) = map (fun '(x, v) => (x, a * v + b)%Qc) (combine A y).
Proof. induction A; intros [|v y]; simpl; auto. f_equal. auto. Qed.
Lemma detrend_affine a b s y : detrend 0 (a * s) (map (fun v => a * v + b)%Qc y) = map (fun v => a * v + b)%Qc (detrend 0 s y).
Proof. rewrite !detrend_form, map_length, combine_affine, !map_map. apply map_ext. intros [? ?]. ring. Qed.
Lemma detrend_rev s y : Permutation (detrend 0 (- s) (rev y)) (map (fun v => 1 * v + qz (Z.of_nat (length y) - 1) * s)%Qc (detrend 0 s y)).
Proof.
  rewrite !detrend_form, rev_length. rewrite <- (rev_involutive (arange (length y))) at 1. rewrite combine_rev' by (rewrite rev_length, arange_length; auto).
  rewrite map_rev. etransitivity. apply Permutation_sym, Permutation_rev. rewrite rev_arange, combine_map_l, !map_map.
  rewrite (map_ext _ (fun '(x, v) => 1 * (v - x * s) + qz (Z.of_nat (length y) - 1) * s)%Qc) by (intros [? ?]; ring).
  rewrite (map_ext (fun x => 1 * (let '(x0, v) := x in v - x0 * s) + _)%Qc (fun '(x, v) => 1 * (v - x * s) + qz (Z.of_nat (length y) - 1) * s)%Qc) by (intros [? ?]; ring). reflexivity.
Qed.

(** ** z under a change of sign *)
Definition zneg (z : zval) : zval := match z with Zfin r => Zfin (- r) | Zinf b => Zinf (negb b) | Znan => Znan end.
Lemma div_sqrt_opp n v : div_sqrt (- n) v = zneg (div_sqrt n v).
Proof.
  unfold div_sqrt. destruct (v <? 0)%Qc; auto. destruct (v =? 0)%Qc.
  - destruct (Z.eqb_spec n 0), (Z.eqb_spec (- n) 0); try lia; auto. cbn [zneg]. f_equal. destruct (Z.ltb_spec 0 n), (Z.ltb_spec 0 (- n)); auto; lia.
  - cbn [zneg]. f_equal. rewrite opp_IZR. unfold Rdiv. ring.
Qed.
Lemma z_opp S v : z_scalar (- S) v = zneg (z_scalar S v).
Proof.
  unfold z_scalar. destruct (Z.ltb_spec 0 S), (Z.ltb_spec 0 (- S)), (Z.eqb_spec S 0), (Z.eqb_spec (- S) 0); try lia.
  - rewrite <- div_sqrt_opp. f_equal. lia.
  - rewrite <- div_sqrt_opp. f_equal. lia.
  - cbn [zneg]. f_equal. lra.
Qed.
Lemma zneg_p cdf z : p_value cdf (zneg z) = p_value cdf z.
Proof. destruct z; simpl; auto. rewrite Rabs_Ropp. auto. Qed.
Lemma zneg_h ppf alpha z : significant ppf alpha (zneg z) = significant ppf alpha z.
Proof. destruct z; simpl; auto. rewrite Rabs_Ropp. auto. Qed.
Lemma zr_rev y : zr (rev y) = (- zr y)%R.
Proof.
  assert (V : mk_variance (rev y) = mk_variance y) by (apply mk_variance_perm; symmetry; apply Permutation_rev).
  pose proof (z_test (rev y)) as E. rewrite mk_S_rev, V in E.
  rewrite z_opp, z_test in E. cbn [zneg] in E. injection E as E. unfold zr. rewrite mk_S_rev, V. auto.
Qed.
