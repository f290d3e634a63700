(** Proofs for C51: the value that liang returns, and its invariance. *)
From Coq Require Import Reals List Lia Lra Psatz.
From Verif Require Import Base SH_Model TP_Model CA_Model CA_Proofs LC_Model LC_Spec LC_Proofs.
Local Close Scope Qc_scope.
Import ListNotations.
Local Open Scope R_scope.

Definition mk (t s n : R) : flow RO :=
  Build_flow RO t (t / (Rabs t + Rabs s + Rabs n)) (Rabs t + Rabs s + Rabs n) (s / (Rabs t + Rabs s + Rabs n)) (n / (Rabs t + Rabs s + Rabs n)).
Definition flow_of (l : list ob) : flow RO :=
  mk (fb l * (S ox oy l / S ox ox l)) (fa l) (sse l (ff l) (fa l) (fb l) / INR (length l) / (2 * (S ox ox l / (INR (length l) - 1)))).

Section Value.
Variables (y1 y2 : list R) (npt : nat).
Hypothesis Hl : length y1 = length y2.
Hypothesis Hp : (1 <= npt)%nat.
Hypothesis Hn : (npt + 2 <= length y1)%nat.
Let l := observations y1 y2 npt.
Lemma len_l : length l = (length y1 - npt)%nat. Proof. apply view_len. Qed.
Lemma two_l : (2 <= length l)%nat. Proof. rewrite len_l. lia. Qed.
Lemma pred_l : INR (length l - 1) = INR (length l) - 1.
Proof. rewrite minus_INR by (pose proof two_l; lia). reflexivity. Qed.
Lemma pred_pos : 0 < INR (length l) - 1.
Proof. rewrite <- pred_l. apply lt_0_INR. pose proof two_l. lia. Qed.

Lemma liang_value : liang RO y1 y2 npt =
  if Req_EM_T (det l) 0 then None else if Req_EM_T (sse l (ff l) (fa l) (fb l)) 0 then None else Some (flow_of l).
Proof.
  unfold liang. change (T (obase RO)) with R.
  replace (length y1 =? length y2)%nat with true by (symmetry; apply Nat.eqb_eq; exact Hl).
  replace (npt =? 0)%nat with false by (symmetry; apply Nat.eqb_neq; lia).
  cbn [negb]. cbv zeta.
  replace (length y1 - npt <? 2)%nat with false by (symmetry; apply Nat.ltb_ge; lia).
  rewrite (view_g y1 y2 npt) by lia. rewrite (view_x y1 y2 npt) by lia. rewrite (view_y y1 y2 npt) by lia. fold l.
  rewrite <- len_l. rewrite !cross_R, !r_mean_R, !rnat_INR, pred_l, !rabs_R.
  pose proof pred_pos as K. set (k := INR (length l) - 1) in *.
  assert (Kn : 0 < INR (length l)) by (unfold k in K; lra).
  change (radd RO) with Rplus. change (rsub RO) with Rminus. change (rmul RO) with Rmult. change (rdiv RO) with Rdiv.
  change (ropp RO) with Ropp. change (rsqrt RO) with R_sqrt.sqrt. change (rz RO 1) with 1. change (rz RO 2) with 2.
  rewrite (S_sym oy ox).
  assert (Ed : S ox ox l / k * (S oy oy l / k) - S ox oy l / k * (S ox oy l / k) = det l / (k * k)).
  { unfold det. field. lra. }
  rewrite Ed.
  destruct (Req_EM_T (det l) 0) as [D|D].
  { replace (is_zero RO (det l / (k * k))) with true by (symmetry; apply is_zero_R; rewrite D; field; lra). reflexivity. }
  replace (is_zero RO (det l / (k * k))) with false.
  2:{ symmetry. apply is_zero_R_false. intro E. apply D. apply (Rmult_eq_reg_r (/ (k * k))); [rewrite Rmult_0_l; exact E|]. apply Rinv_neq_0_compat. nra. }
  pose proof (sxx_pos l two_l D) as X.
  assert (Ea : (S oy oy l / k * (S ox og l / k) - S ox oy l / k * (S oy og l / k)) / (det l / (k * k)) = fa l).
  { unfold fa. field. split; [exact D|lra]. }
  assert (Eb : (- (S ox oy l / k) * (S ox og l / k) + S ox ox l / k * (S oy og l / k)) / (det l / (k * k)) = fb l).
  { unfold fb. field. split; [exact D|lra]. }
  assert (Et : S ox oy l / k / (S ox ox l / k) * (- (S ox oy l / k) * (S ox og l / k) + S ox ox l / k * (S oy og l / k)) / (det l / (k * k)) = fb l * (S ox oy l / S ox ox l)).
  { unfold fb. field. repeat split; lra || exact D. }
  rewrite Ea, Eb, Et. fold (ff l).
  assert (Eq : rsum RO (map (fun r : R => r * r) (zip2 (fun (g : R) (p : R * R) => g - (ff l + fa l * fst p + fb l * snd p)) (map og l) (combine (map ox l) (map oy l))))
     = sse l (ff l) (fa l) (fb l)).
  { rewrite combine_map_both, zip2_map, map_map. cbn [fst snd]. unfold sse.
    rewrite (tot_ext _ (fun e => (og e - (ff l + fa l * ox e + fb l * oy e)) * (og e - (ff l + fa l * ox e + fb l * oy e)))) by (intros; ring).
    exact (rsum_map (fun e => (og e - (ff l + fa l * ox e + fb l * oy e)) * (og e - (ff l + fa l * ox e + fb l * oy e))) l). }
  unfold ff in Eq |- *. rewrite Eq. fold (ff l) in *.
  set (q := sse l (ff l) (fa l) (fb l)) in *. rewrite Rmult_1_r.
  assert (Q0 : 0 <= q) by (apply tot_nonneg; intro; apply pow2_ge_0).
  assert (Q1 : 0 <= q / INR (length l)) by (apply Rmult_le_pos; [exact Q0|left; apply Rinv_0_lt_compat; exact Kn]).
  destruct (Req_EM_T q 0) as [E|E].
  { replace (is_zero RO (R_sqrt.sqrt (q / INR (length l)))) with true; [reflexivity|].
    symmetry. apply is_zero_R. rewrite E. unfold Rdiv. rewrite Rmult_0_l. apply sqrt_0. }
  replace (is_zero RO (R_sqrt.sqrt (q / INR (length l)))) with false.
  2:{ symmetry. apply is_zero_R_false. assert (0 < R_sqrt.sqrt (q / INR (length l))); [|lra]. apply sqrt_lt_R0. apply Rmult_lt_0_compat; [lra|apply Rinv_0_lt_compat; exact Kn]. }
  replace (is_zero RO (S ox ox l / k)) with false.
  2:{ symmetry. apply is_zero_R_false. assert (0 < S ox ox l / k); [|lra]. apply Rmult_lt_0_compat; [exact X|apply Rinv_0_lt_compat; exact K]. }
  rewrite (sqrt_sqrt _ Q1). reflexivity.
Qed.
End Value.

Lemma liang_bad (y1 y2 : list R) npt : ~ (length y1 = length y2 /\ (1 <= npt)%nat /\ (npt + 2 <= length y1)%nat) -> liang RO y1 y2 npt = None.
Proof.
  intro H. unfold liang. change (T (obase RO)) with R. destruct (Nat.eqb_spec (length y1) (length y2)) as [E|E]; [|reflexivity]. cbn [negb].
  destruct (Nat.eqb_spec npt 0) as [F|F]; [reflexivity|].
  destruct (Nat.ltb_spec (length y1 - npt) 2) as [G|G]; [reflexivity|]. exfalso. apply H. lia.
Qed.
Lemma liang_some (y1 y2 : list R) npt r : liang RO y1 y2 npt = Some r ->
  length y1 = length y2 /\ (1 <= npt)%nat /\ (npt + 2 <= length y1)%nat /\
  det (observations y1 y2 npt) <> 0 /\ sse (observations y1 y2 npt) (ff (observations y1 y2 npt)) (fa (observations y1 y2 npt)) (fb (observations y1 y2 npt)) <> 0 /\
  r = flow_of (observations y1 y2 npt).
Proof.
  intro H.
  destruct (Nat.eq_dec (length y1) (length y2)) as [E|E]; [|rewrite liang_bad in H by tauto; discriminate].
  destruct (le_lt_dec 1 npt) as [F|F]; [|rewrite liang_bad in H by lia; discriminate].
  destruct (le_lt_dec (npt + 2) (length y1)) as [G|G]; [|rewrite liang_bad in H by lia; discriminate].
  rewrite (liang_value y1 y2 npt E F G) in H.
  destruct (Req_EM_T (det _) 0); [discriminate|]. destruct (Req_EM_T (sse _ _ _ _) 0); [discriminate|].
  injection H as H. repeat split; try assumption. congruence.
Qed.

(** ** Affine changes of the series *)
Section Affine.
Variables (a b c d : R).
Hypothesis Ha : a <> 0.
Hypothesis Hc : c <> 0.
Definition move (e : ob) : ob := {| ox := a * ox e + b; oy := c * oy e + d; og := a * og e |}.
Lemma avg_affine f p q (l : list ob) : l <> [] -> avg (fun e => p * f e + q) l = p * avg f l + q.
Proof.
  intro H. unfold avg. rewrite tot_add, tot_scale, tot_const. field.
  destruct l; [congruence|]. cbn [length]. rewrite S_INR. pose proof (pos_INR (length l)). lra.
Qed.
Lemma S_affine f g p q r s l : l <> [] -> S (fun e => p * f e + q) (fun e => r * g e + s) l = p * r * S f g l.
Proof.
  intro H. unfold S. rewrite !avg_affine by exact H. rewrite <- tot_scale. apply tot_ext. intros. ring.
Qed.
Lemma avg_map f (h : ob -> ob) l : avg f (map h l) = avg (fun e => f (h e)) l.
Proof. unfold avg. rewrite tot_map, map_length. reflexivity. Qed.
Lemma S_map f g (h : ob -> ob) l : S f g (map h l) = S (fun e => f (h e)) (fun e => g (h e)) l.
Proof. unfold S. rewrite tot_map, !avg_map. reflexivity. Qed.
Variable l : list ob.
Hypothesis Hl : l <> [].
Lemma mv_xx : S ox ox (map move l) = a * a * S ox ox l.
Proof. rewrite S_map. exact (S_affine ox ox a b a b l Hl). Qed.
Lemma mv_xy : S ox oy (map move l) = a * c * S ox oy l.
Proof. rewrite S_map. exact (S_affine ox oy a b c d l Hl). Qed.
Lemma mv_yy : S oy oy (map move l) = c * c * S oy oy l.
Proof. rewrite S_map. exact (S_affine oy oy c d c d l Hl). Qed.
Lemma S_ext f f' g g' (m : list ob) : (forall e, f e = f' e) -> (forall e, g e = g' e) -> S f g m = S f' g' m.
Proof.
  intros H K. unfold S. assert (E1 : avg f m = avg f' m) by (unfold avg; f_equal; apply tot_ext; intros; apply H).
  assert (E2 : avg g m = avg g' m) by (unfold avg; f_equal; apply tot_ext; intros; apply K). rewrite E1, E2. apply tot_ext. intros. rewrite H, K. reflexivity.
Qed.
Lemma mv_xg : S ox og (map move l) = a * a * S ox og l.
Proof. rewrite S_map. rewrite <- (S_affine ox og a b a 0 l Hl). apply S_ext; intro e; cbn; ring. Qed.
Lemma mv_yg : S oy og (map move l) = a * c * S oy og l.
Proof. rewrite S_map. replace (a * c) with (c * a) by ring. rewrite <- (S_affine oy og c d a 0 l Hl). apply S_ext; intro e; cbn; ring. Qed.
Lemma mv_det : det (map move l) = a * a * (c * c) * det l.
Proof. unfold det. rewrite mv_xx, mv_xy, mv_yy. ring. Qed.
Lemma mv_ax : avg ox (map move l) = a * avg ox l + b.
Proof. rewrite avg_map. exact (avg_affine ox a b l Hl). Qed.
Lemma mv_ay : avg oy (map move l) = c * avg oy l + d.
Proof. rewrite avg_map. exact (avg_affine oy c d l Hl). Qed.
Lemma mv_ag : avg og (map move l) = a * avg og l.
Proof. rewrite avg_map. replace (a * avg og l) with (a * avg og l + 0) by ring. rewrite <- (avg_affine og a 0 l Hl). unfold avg. f_equal. apply tot_ext. intros; cbn; ring. Qed.
Hypothesis D : det l <> 0.
Lemma mv_fa : fa (map move l) = fa l.
Proof. unfold fa. rewrite mv_xg, mv_yg, mv_xy, mv_yy, mv_det. field. repeat split; assumption. Qed.
Lemma mv_fb : fb (map move l) = a / c * fb l.
Proof. unfold fb. rewrite mv_xg, mv_yg, mv_xy, mv_xx, mv_det. field. repeat split; assumption. Qed.
Lemma mv_sse : sse (map move l) (ff (map move l)) (fa (map move l)) (fb (map move l)) = a * a * sse l (ff l) (fa l) (fb l).
Proof.
  unfold sse. rewrite tot_map, <- tot_scale. apply tot_ext. intros e _. unfold ff. rewrite mv_fa, mv_fb, mv_ax, mv_ay, mv_ag. cbn. field. exact Hc.
Qed.
Hypothesis X : S ox ox l <> 0.
Hypothesis K : (2 <= length l)%nat.
Lemma mv_flow : flow_of (map move l) = flow_of l.
Proof.
  unfold flow_of. rewrite mv_fa, mv_fb, mv_xx, mv_xy, map_length.
  assert (E : sse (map move l) (ff (map move l)) (fa l) (a / c * fb l) = a * a * sse l (ff l) (fa l) (fb l)) by (rewrite <- mv_sse, mv_fa, mv_fb; reflexivity).
  rewrite E.
  assert (K1 : INR (length l) - 1 <> 0).
  { assert (INR 2 <= INR (length l)) by (apply le_INR; exact K). cbn in H. lra. }
  assert (K2 : INR (length l) <> 0) by (apply not_0_INR; lia).
  f_equal; field; repeat split; assumption.
Qed.
End Affine.

Lemma nth_affine p q (y : list R) i : (i < length y)%nat -> nth i (affine p q y) 0 = p * nth i y 0 + q.
Proof. intro H. unfold affine. rewrite (nth_indep _ 0 (p * 0 + q)) by (rewrite map_length; exact H). apply (map_nth (fun v => p * v + q)). Qed.
Lemma observations_affine a b c d y1 y2 npt : length y1 = length y2 -> (1 <= npt)%nat ->
  observations (affine a b y1) (affine c d y2) npt = map (move a b c d) (observations y1 y2 npt).
Proof.
  intros Hl Hp. unfold observations. rewrite map_map. unfold affine at 3. rewrite map_length. apply map_ext_in. intros i Hi. apply in_seq in Hi.
  unfold observe, move. cbn [ox oy og]. rewrite !nth_affine by lia. f_equal. field. apply not_0_INR. lia.
Qed.
Lemma liang_affine a b c d (y1 y2 : list R) npt : a <> 0 -> c <> 0 ->
  liang RO (affine a b y1) (affine c d y2) npt = liang RO y1 y2 npt.
Proof.
  intros Ha Hc.
  assert (L1 : length (affine a b y1) = length y1) by apply map_length.
  assert (L2 : length (affine c d y2) = length y2) by apply map_length.
  destruct (Nat.eq_dec (length y1) (length y2)) as [E|E]; [|transitivity (@None (flow RO)); [apply liang_bad|symmetry; apply liang_bad]; rewrite ?L1, ?L2; lia].
  destruct (le_lt_dec 1 npt) as [F|F]; [|transitivity (@None (flow RO)); [apply liang_bad|symmetry; apply liang_bad]; rewrite ?L1, ?L2; lia].
  destruct (le_lt_dec (npt + 2) (length y1)) as [G|G]; [|transitivity (@None (flow RO)); [apply liang_bad|symmetry; apply liang_bad]; rewrite ?L1, ?L2; lia].
  rewrite !liang_value by lia. rewrite observations_affine by assumption.
  set (l := observations y1 y2 npt).
  assert (K : (2 <= length l)%nat) by (unfold l; rewrite view_len; lia).
  assert (Hne : l <> []) by (intro Z; rewrite Z in K; cbn in K; lia).
  rewrite mv_det by exact Hne.
  destruct (Req_EM_T (det l) 0) as [D|D].
  { rewrite D, Rmult_0_r. destruct (Req_EM_T 0 0); [reflexivity|congruence]. }
  assert (P : a * a * (c * c) <> 0) by (intro Z; apply Rmult_integral in Z; destruct Z as [Z|Z]; apply Rmult_integral in Z; tauto).
  destruct (Req_EM_T (a * a * (c * c) * det l) 0) as [D'|_]; [apply Rmult_integral in D'; tauto|].
  rewrite mv_sse by assumption.
  destruct (Req_EM_T (sse l (ff l) (fa l) (fb l)) 0) as [Q|Q].
  { rewrite Q, Rmult_0_r. destruct (Req_EM_T 0 0); [reflexivity|congruence]. }
  destruct (Req_EM_T (a * a * sse l (ff l) (fa l) (fb l)) 0) as [Q'|_].
  { apply Rmult_integral in Q'. destruct Q' as [Q'|Q']; [apply Rmult_integral in Q'|]; tauto. }
  f_equal. pose proof (sxx_pos l K D). apply mv_flow; try assumption. lra.
Qed.
