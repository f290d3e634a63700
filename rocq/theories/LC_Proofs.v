(** Proofs for C51. *)
From Coq Require Import Reals List Lia Lra Psatz Morphisms.
From Verif Require Import Base SH_Model TP_Model CA_Model CA_Proofs LC_Model LC_Spec.
Local Close Scope Qc_scope.
Import ListNotations.
Local Open Scope R_scope.

(** ** Sums *)
Lemma tot_nil f : tot f [] = 0. Proof. reflexivity. Qed.
Lemma tot_cons f e l : tot f (e :: l) = f e + tot f l. Proof. reflexivity. Qed.
Lemma tot_ext f g l : (forall e, In e l -> f e = g e) -> tot f l = tot g l.
Proof.
  induction l as [|e l IH]; [reflexivity|]. intro H. rewrite !tot_cons, (H e) by (left; reflexivity). f_equal. apply IH. intros; apply H; right; assumption.
Qed.
Lemma tot_add f g l : tot (fun e => f e + g e) l = tot f l + tot g l.
Proof. induction l as [|e l IH]; rewrite ?tot_nil, ?tot_cons, ?IH; ring. Qed.
Lemma tot_sub f g l : tot (fun e => f e - g e) l = tot f l - tot g l.
Proof. induction l as [|e l IH]; rewrite ?tot_nil, ?tot_cons, ?IH; ring. Qed.
Lemma tot_scale c f l : tot (fun e => c * f e) l = c * tot f l.
Proof. induction l as [|e l IH]; rewrite ?tot_nil, ?tot_cons, ?IH; ring. Qed.
Lemma tot_const c l : tot (fun _ => c) l = INR (length l) * c.
Proof. induction l as [|e l IH]; cbn [length]; rewrite ?tot_nil, ?tot_cons, ?IH, ?S_INR; [cbn [INR]; ring|ring]. Qed.
Lemma tot_nonneg f l : (forall e, 0 <= f e) -> 0 <= tot f l.
Proof. intro H. induction l as [|e l IH]; rewrite ?tot_nil, ?tot_cons; [lra|]. specialize (H e). lra. Qed.
Lemma tot_zero f l : (forall e, 0 <= f e) -> tot f l = 0 -> forall e, In e l -> f e = 0.
Proof.
  intro H. induction l as [|e l IH]; intros E d Hd; [destruct Hd|]. destruct Hd as [Hd|Hd].
  - subst. rewrite tot_cons in E. pose proof (H d). pose proof (tot_nonneg f l H). lra.
  - rewrite tot_cons in E. pose proof (H e). pose proof (tot_nonneg f l H). apply IH; [lra|assumption].
Qed.
Lemma tot_map f g l : tot f (map g l) = tot (fun e => f (g e)) l.
Proof. induction l as [|e l IH]; cbn [map]; rewrite ?tot_nil, ?tot_cons, ?IH; reflexivity. Qed.

(** Deviation products. *)
Definition S (f g : ob -> R) (l : list ob) : R := tot (fun e => (f e - avg f l) * (g e - avg g l)) l.
Lemma dev_zero f l : l <> [] -> tot (fun e => f e - avg f l) l = 0.
Proof.
  intro H. rewrite tot_sub, tot_const. unfold avg. field. destruct l; [congruence|]. cbn [length]. rewrite S_INR. pose proof (pos_INR (length l)). lra.
Qed.
Lemma S_sym f g l : S f g l = S g f l.
Proof. apply tot_ext. intros. ring. Qed.
Lemma S_nonneg f l : 0 <= S f f l.
Proof. apply tot_nonneg. intro e. apply Rle_0_sqr. Qed.

(** ** Reading the model *)
Lemma is_zero_R (x : R) : is_zero RO x = true <-> x = 0.
Proof.
  unfold is_zero. cbn. unfold Rltb. destruct (Rlt_dec x 0); destruct (Rlt_dec 0 x); cbn; split; intro H; try discriminate; try lra; reflexivity.
Qed.
Lemma is_zero_R_false (x : R) : is_zero RO x = false <-> x <> 0.
Proof. split; intro H. - intro E. apply is_zero_R in E. congruence. - destruct (is_zero RO x) eqn:E; [apply is_zero_R in E; congruence|reflexivity]. Qed.
Lemma rnat_INR n : rnat RO n = INR n.
Proof. unfold rnat. cbn. symmetry. apply INR_IZR_INZ. Qed.
Lemma r_mean_R f l : r_mean RO (map f l) = avg f l.
Proof.
  unfold r_mean, avg. rewrite map_length. change (rdiv RO) with Rdiv. f_equal; [|apply rnat_INR].
  exact (rsum_map f l).
Qed.
Lemma cross_R f g l : cross RO (map f l) (map g l) = S f g l.
Proof.
  unfold cross. rewrite !r_mean_R, zip2_map.
  exact (rsum_map (fun e => (f e - avg f l) * (g e - avg g l)) l).
Qed.
Lemma firstn_map_nth (l : list R) n : (n <= length l)%nat -> firstn n l = map (fun i => nth i l 0) (seq 0 n).
Proof.
  revert n. induction l as [|a l IH]; intros [|n] H; cbn in *; try reflexivity; try lia. f_equal. rewrite <- seq_shift, map_map. apply IH. lia.
Qed.
Lemma skipn_map_nth (l : list R) n : (n <= length l)%nat -> skipn n l = map (fun i => nth (i + n) l 0) (seq 0 (length l - n)).
Proof.
  revert n. induction l as [|a l IH]; intros n H; cbn [length] in *.
  - assert (n = 0)%nat by lia. subst. reflexivity.
  - destruct n as [|n].
    + cbn [skipn]. rewrite Nat.sub_0_r. rewrite (map_ext _ (fun i => nth i (a :: l) 0)) by (intro; f_equal; lia).
      rewrite <- firstn_map_nth by (cbn; lia). symmetry. apply firstn_all2. cbn; lia.
    + cbn [skipn Nat.sub]. rewrite IH by lia. apply map_ext. intro i. rewrite Nat.add_succ_r. reflexivity.
Qed.
Section Views.
Variables (y1 y2 : list R) (npt : nat).
Hypothesis Hl : length y1 = length y2.
Hypothesis Hn : (npt <= length y1)%nat.
Let l := observations y1 y2 npt.
Lemma view_x : firstn (length y1 - npt) y1 = map ox l.
Proof. unfold l, observations. rewrite map_map. apply firstn_map_nth. lia. Qed.
Lemma view_y : firstn (length y1 - npt) y2 = map oy l.
Proof. unfold l, observations. rewrite map_map. apply firstn_map_nth. lia. Qed.
Lemma view_g : @zip2 R R R (fun a b => rdiv RO (rsub RO a b) (rnat RO npt)) (skipn npt y1) (firstn (length y1 - npt) y1) = map og l.
Proof.
  rewrite (firstn_map_nth y1) by lia. rewrite skipn_map_nth by lia. rewrite zip2_map. unfold l, observations. rewrite map_map.
  apply map_ext. intro i. cbn [observe og]. change (rdiv RO) with Rdiv. rewrite rnat_INR. reflexivity.
Qed.
Lemma view_len : length l = (length y1 - npt)%nat.
Proof. unfold l, observations. rewrite map_length, seq_length. reflexivity. Qed.
End Views.

(** ** The fit *)
Section Fit.
Variable l : list ob.
Hypothesis Hl : (2 <= length l)%nat.
Notation Sxx := (S ox ox l). Notation Sxy := (S ox oy l). Notation Syy := (S oy oy l).
Notation Sxg := (S ox og l). Notation Syg := (S oy og l).
Definition det := Sxx * Syy - Sxy * Sxy.
Lemma l_ne : l <> [].
Proof. intro E. rewrite E in Hl. cbn in Hl. lia. Qed.
Definition fa := (Syy * Sxg - Sxy * Syg) / det.
Definition fb := (- Sxy * Sxg + Sxx * Syg) / det.
Definition ff := avg og l - fa * avg ox l - fb * avg oy l.
Definition res (e : ob) : R := og e - (ff + fa * ox e + fb * oy e).
Lemma res_dev e : res e = (og e - avg og l) - fa * (ox e - avg ox l) - fb * (oy e - avg oy l).
Proof. unfold res, ff. ring. Qed.
Lemma res_sum : tot res l = 0.
Proof.
  rewrite (tot_ext _ (fun e => ((og e - avg og l) - fa * (ox e - avg ox l)) - fb * (oy e - avg oy l))) by (intros; apply res_dev).
  rewrite tot_sub, tot_sub, !tot_scale, !dev_zero by apply l_ne. ring.
Qed.
Lemma res_x : det <> 0 -> tot (fun e => res e * ox e) l = 0.
Proof.
  intro D.
  transitivity (tot (fun e => ((og e - avg og l) * (ox e - avg ox l) - fa * ((ox e - avg ox l) * (ox e - avg ox l)) - fb * ((oy e - avg oy l) * (ox e - avg ox l))) + avg ox l * res e) l).
  { apply tot_ext. intros e _. rewrite res_dev. ring. }
  rewrite tot_add, tot_sub, tot_sub, !tot_scale, res_sum. fold (S og ox l). fold (S ox ox l). fold (S oy ox l).
  rewrite (S_sym og ox), (S_sym oy ox). unfold fa, fb. field_simplify_eq; [|exact D]. unfold det. ring.
Qed.
Lemma res_y : det <> 0 -> tot (fun e => res e * oy e) l = 0.
Proof.
  intro D.
  transitivity (tot (fun e => ((og e - avg og l) * (oy e - avg oy l) - fa * ((ox e - avg ox l) * (oy e - avg oy l)) - fb * ((oy e - avg oy l) * (oy e - avg oy l))) + avg oy l * res e) l).
  { apply tot_ext. intros e _. rewrite res_dev. ring. }
  rewrite tot_add, tot_sub, tot_sub, !tot_scale, res_sum. fold (S og oy l). fold (S ox oy l). fold (S oy oy l).
  rewrite (S_sym og oy). unfold fa, fb. field_simplify_eq; [|exact D]. unfold det. ring.
Qed.
Lemma sse_split f a b : det <> 0 ->
  sse l f a b = sse l ff fa fb + tot (fun e => ((f - ff) + (a - fa) * ox e + (b - fb) * oy e) ^ 2) l.
Proof.
  intro D. unfold sse.
  transitivity (tot (fun e => ((res e) ^ 2 + ((f - ff) + (a - fa) * ox e + (b - fb) * oy e) ^ 2)
     - ((2 * (f - ff)) * res e + ((2 * (a - fa)) * (res e * ox e) + (2 * (b - fb)) * (res e * oy e)))) l).
  { apply tot_ext. intros e _. unfold res. ring. }
  rewrite tot_sub, !tot_add, !tot_scale, res_sum, res_x, res_y by exact D. unfold res. ring.
Qed.
Lemma fit_best : det <> 0 -> best_fit l ff fa fb.
Proof.
  intros D f a b. rewrite (sse_split f a b D).
  assert (0 <= tot (fun e => ((f - ff) + (a - fa) * ox e + (b - fb) * oy e) ^ 2) l) by (apply tot_nonneg; intro; apply pow2_ge_0). lra.
Qed.
(** ** Degenerate cases *)
Lemma det_zero_dep : det = 0 -> ~ independent l.
Proof.
  intros D I.
  (* the combination Sxy*dx - Sxx*dy, or dx itself *)
  destruct (Req_dec Sxx 0) as [Z|Z].
  - assert (H : forall e, In e l -> 1 * ox e + 0 * oy e = avg ox l).
    { intros e He. assert (Q : (ox e - avg ox l) * (ox e - avg ox l) = 0).
      { apply (tot_zero (fun e => (ox e - avg ox l) * (ox e - avg ox l)) l); [intro; apply Rle_0_sqr|exact Z|exact He]. }
      apply Rsqr_0_uniq in Q. lra. }
    destruct (I 1 0 _ H). lra.
  - assert (H : forall e, In e l -> Sxy * ox e + (- Sxx) * oy e = Sxy * avg ox l - Sxx * avg oy l).
    { intros e He.
      assert (Q : (Sxy * (ox e - avg ox l) - Sxx * (oy e - avg oy l)) ^ 2 = 0).
      { apply (tot_zero (fun e => (Sxy * (ox e - avg ox l) - Sxx * (oy e - avg oy l)) ^ 2) l); [intro; apply pow2_ge_0| |exact He].
        transitivity (tot (fun e => ((Sxy * Sxy) * ((ox e - avg ox l) * (ox e - avg ox l)) - (2 * Sxx * Sxy) * ((ox e - avg ox l) * (oy e - avg oy l)))
            + (Sxx * Sxx) * ((oy e - avg oy l) * (oy e - avg oy l))) l).
        { apply tot_ext. intros; ring. }
        rewrite tot_add, tot_sub, !tot_scale. fold (S ox ox l). fold (S ox oy l). fold (S oy oy l).
        unfold det in D. replace (Sxy * Sxy) with (Sxx * Syy) by lra. nra. }
      rewrite <- Rsqr_pow2 in Q. apply Rsqr_0_uniq in Q. lra. }
    destruct (I _ _ _ H) as [_ E]. lra.
Qed.
Lemma dep_det p q s : (forall e, In e l -> p * ox e + q * oy e = s) -> (p <> 0 \/ q <> 0) -> det = 0.
Proof.
  intros H N.
  assert (Hm : p * avg ox l + q * avg oy l = s).
  { assert (E : tot (fun e => p * ox e + q * oy e) l = INR (length l) * s) by (rewrite <- tot_const; apply tot_ext; exact H).
    rewrite tot_add, !tot_scale in E. assert (INR (length l) <> 0) by (apply not_0_INR; lia).
    unfold avg. apply (Rmult_eq_reg_r (INR (length l))); [|assumption]. field_simplify; [|assumption]. lra. }
  assert (Hx : p * Sxx + q * Sxy = 0).
  { unfold S. rewrite <- !tot_scale, <- tot_add. transitivity (tot (fun _ => 0) l); [|rewrite tot_const; ring].
    apply tot_ext. intros e He. specialize (H e He). replace (p * ((ox e - avg ox l) * (ox e - avg ox l)) + q * ((ox e - avg ox l) * (oy e - avg oy l)))
     with ((ox e - avg ox l) * ((p * ox e + q * oy e) - (p * avg ox l + q * avg oy l))) by ring. rewrite H, Hm. ring. }
  assert (Hy : p * Sxy + q * Syy = 0).
  { unfold S. rewrite <- !tot_scale, <- tot_add. transitivity (tot (fun _ => 0) l); [|rewrite tot_const; ring].
    apply tot_ext. intros e He. specialize (H e He). replace (p * ((ox e - avg ox l) * (oy e - avg oy l)) + q * ((oy e - avg oy l) * (oy e - avg oy l)))
     with ((oy e - avg oy l) * ((p * ox e + q * oy e) - (p * avg ox l + q * avg oy l))) by ring. rewrite H, Hm. ring. }
  assert (Hp : p * det = 0).
  { unfold det. replace (p * (Sxx * Syy - Sxy * Sxy)) with ((p * Sxx + q * Sxy) * Syy - Sxy * (p * Sxy + q * Syy)) by ring. rewrite Hx, Hy. ring. }
  assert (Hq : q * det = 0).
  { unfold det. replace (q * (Sxx * Syy - Sxy * Sxy)) with ((p * Sxy + q * Syy) * Sxx - Sxy * (p * Sxx + q * Sxy)) by ring. rewrite Hx, Hy. ring. }
  destruct N as [N|N]; [apply Rmult_integral in Hp; tauto|apply Rmult_integral in Hq; tauto].
Qed.
Lemma det_independent : det <> 0 <-> independent l.
Proof.
  split.
  - intros D p q s H. split; destruct (Req_dec p 0); destruct (Req_dec q 0); try assumption; exfalso; apply D; apply (dep_det p q s H); tauto.
  - intros I D. exact (det_zero_dep D I).
Qed.
Lemma sxx_pos : det <> 0 -> 0 < Sxx.
Proof.
  intro D. pose proof (S_nonneg ox l). destruct (Req_dec Sxx 0) as [Z|Z]; [|lra].
  exfalso. apply D. apply (dep_det 1 0 (avg ox l)); [|left; lra].
  intros e He. assert (Q : (ox e - avg ox l) * (ox e - avg ox l) = 0).
  { apply (tot_zero (fun e => (ox e - avg ox l) * (ox e - avg ox l)) l); [intro; apply Rle_0_sqr|exact Z|exact He]. }
  apply Rsqr_0_uniq in Q. lra.
Qed.
(** The best fit is unique. *)
Lemma fit_unique f a b : det <> 0 -> best_fit l f a b -> f = ff /\ a = fa /\ b = fb.
Proof.
  intros D B. pose proof (B ff fa fb) as H. rewrite (sse_split f a b D) in H.
  assert (P : forall e, 0 <= ((f - ff) + (a - fa) * ox e + (b - fb) * oy e) ^ 2) by (intro; apply pow2_ge_0).
  pose proof (tot_nonneg _ l P).
  assert (Z : tot (fun e => ((f - ff) + (a - fa) * ox e + (b - fb) * oy e) ^ 2) l = 0) by lra.
  assert (V : forall e, In e l -> (a - fa) * ox e + (b - fb) * oy e = - (f - ff)).
  { intros e He. pose proof (tot_zero _ l P Z e He) as Q. cbn beta in Q. apply Rsqr_0_uniq in Q || (rewrite <- Rsqr_pow2 in Q; apply Rsqr_0_uniq in Q). lra. }
  pose proof (proj1 det_independent D _ _ _ V) as [E1 E2].
  destruct l as [|e0 l0]; [cbn in Hl; lia|]. specialize (V e0 (or_introl eq_refl)). rewrite E1, E2 in V. repeat split; lra.
Qed.
End Fit.
