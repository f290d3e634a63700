(** Sums, first minima and the regression of the emergent-constraint code. *)
From Coq Require Import Reals List Arith Lia Bool Lra Permutation.
From Verif Require Import Base Buffer VH_Model VH_Proofs EC_Model EC_Spec.
Import ListNotations.
Local Open Scope R_scope.

Lemma rsum_total l : rsum l = total l.
Proof. induction l as [|x l IH]; cbn; [auto|]. unfold rsum in *. rewrite IH. auto. Qed.
Section Sums.
Context {A : Type}.
Implicit Types (f g : A -> R) (l : list A).
Lemma total_ext f g l : (forall x, In x l -> f x = g x) -> total (map f l) = total (map g l).
Proof. induction l as [|x l IH]; intros H; cbn; [auto|]. rewrite (H x), IH; auto. - intros; apply H; right; auto. - left; auto. Qed.
Lemma total_plus f g l : total (map (fun x => f x + g x) l) = total (map f l) + total (map g l).
Proof. induction l as [|x l IH]; cbn; [lra|]. rewrite IH. lra. Qed.
Lemma total_scal c f l : total (map (fun x => c * f x) l) = c * total (map f l).
Proof. induction l as [|x l IH]; cbn; [lra|]. rewrite IH. lra. Qed.
Lemma total_const c l : total (map (fun _ => c) l) = INR (length l) * c.
Proof. induction l as [|x l IH]; [cbn; lra|]. change (length (x :: l)) with (S (length l)). rewrite S_INR. cbn [map total]. rewrite IH. lra. Qed.
Lemma total_nonneg f l : (forall x, In x l -> 0 <= f x) -> 0 <= total (map f l).
Proof. induction l as [|x l IH]; intros H; cbn; [lra|]. assert (0 <= f x) by (apply H; left; auto). assert (0 <= total (map f l)) by (apply IH; intros; apply H; right; auto). lra. Qed.
Lemma total_zero f l : (forall x, In x l -> 0 <= f x) -> total (map f l) = 0 -> forall x, In x l -> f x = 0.
Proof.
  induction l as [|x l IH]; intros H E y I; [contradiction|]. cbn in E.
  assert (0 <= f x) by (apply H; left; auto). assert (P : 0 <= total (map f l)) by (apply total_nonneg; intros; apply H; right; auto).
  destruct I as [<-|I]; [lra|]. apply IH; auto; [intros; apply H; right; auto|lra].
Qed.
Lemma total_perm f l l' : Permutation l l' -> total (map f l) = total (map f l').
Proof. induction 1; cbn; lra. Qed.
End Sums.
Lemma total_swap {A B} (h : A -> B -> R) (l : list A) (m : list B) :
  total (map (fun x => total (map (h x) m)) l) = total (map (fun y => total (map (fun x => h x y) l)) m).
Proof.
  induction l as [|x l IH]; cbn.
  - rewrite total_const. lra.
  - rewrite IH. rewrite <- total_plus. auto.
Qed.

(** ** First minima *)
Lemma argmin_from_spec : forall l best bi i pre, length pre = i -> (bi < i)%nat -> nth bi pre 0 = best ->
  (forall j, (j < i)%nat -> best <= nth j pre 0) -> (forall j, (j < bi)%nat -> best < nth j pre 0) ->
  first_min (pre ++ l) (argmin_from best bi i l).
Proof.
  induction l as [|x l IH]; intros best bi i pre L B N M F; cbn [argmin_from].
  - rewrite app_nil_r. subst best. split; [lia|]. split; intros j J; [apply M; lia|apply F; auto].
  - replace (pre ++ x :: l) with ((pre ++ [x]%list) ++ l) by (rewrite <- app_assoc; auto).
    assert (N1 : forall j, (j < i)%nat -> nth j (pre ++ [x]%list) 0 = nth j pre 0) by (intros; apply app_nth1; lia).
    assert (N2 : nth i (pre ++ [x]%list) 0 = x) by (rewrite app_nth2, L, Nat.sub_diag by lia; auto).
    destruct (Rlt_dec x best) as [H|H]; apply IH; try (rewrite app_length; cbn; lia); auto.
    + intros j J. destruct (Nat.eq_dec j i) as [->|]; [rewrite N2; lra|]. rewrite N1 by lia. specialize (M j ltac:(lia)). lra.
    + intros j J. rewrite N1 by lia. specialize (M j ltac:(lia)). lra.
    + rewrite N1 by lia. auto.
    + intros j J. destruct (Nat.eq_dec j i) as [->|]; [rewrite N2; lra|]. rewrite N1 by lia. apply M; lia.
    + intros j J. rewrite N1 by lia. apply F; auto.
Qed.
Lemma argmin_spec l k : argmin l = Some k -> first_min l k.
Proof.
  destruct l as [|x l]; intros H; [discriminate|]. injection H as <-. apply (argmin_from_spec l x 0 1 [x]%list); auto.
  - intros j J. replace j with 0%nat by lia. cbn; lra.
  - intros j J. lia.
Qed.
Lemma argmin_some l : l <> [] -> exists k, argmin l = Some k.
Proof. destruct l; [contradiction|]. cbn; eauto. Qed.
Lemma argmax_spec l k : argmax l = Some k -> first_max l k.
Proof.
  intros H. apply argmin_spec in H. destruct H as (A & B & C). rewrite map_length in *.
  assert (N : forall i, nth i (map Ropp l) 0 = - nth i l 0).
  { intros i. rewrite <- Ropp_0 at 1. apply map_nth. }
  split; [auto|]. split; intros i I; [specialize (B i I)|specialize (C i I)]; rewrite !N in *; lra.
Qed.
Lemma first_min_unique l a b : first_min l a -> first_min l b -> a = b.
Proof.
  intros (A & B & C) (A' & B' & C'). destruct (Nat.lt_trichotomy a b) as [L|[L|L]]; auto; exfalso.
  - specialize (C' a L). specialize (B b A'). lra.
  - specialize (C b L). specialize (B' a A). lra.
Qed.
Lemma first_max_unique l a b : first_max l a -> first_max l b -> a = b.
Proof.
  intros (A & B & C) (A' & B' & C'). destruct (Nat.lt_trichotomy a b) as [L|[L|L]]; auto; exfalso.
  - specialize (C' a L). specialize (B b A'). lra.
  - specialize (C b L). specialize (B' a A). lra.
Qed.

(** ** The regression *)
Lemma kept_paired : forall xs ys ps, kept xs ys ps -> paired xs ys = ps.
Proof.
  induction 1; cbn; [auto|rewrite IHkept; auto|]. destruct H as [-> | ->]; auto. destruct x; auto.
Qed.
Lemma kept_exists : forall xs ys, length xs = length ys -> exists ps, kept xs ys ps.
Proof.
  induction xs as [|x xs IH]; destruct ys as [|y ys]; intros L; cbn in L; try lia; [exists []; constructor|].
  destruct (IH ys) as [ps H]; [lia|]. destruct x as [x|]; [destruct y as [y|]|].
  - exists ((x, y) :: ps). constructor; auto.
  - exists ps. apply K_drop; auto.
  - exists ps. apply K_drop; auto.
Qed.
Lemma kept_length xs ys ps : kept xs ys ps -> length xs = length ys.
Proof. induction 1; cbn; lia. Qed.

Definition mean (l : list R) : R := total l / INR (length l).
Definition fit_of (ps : list (R * R)) : fit :=
  let xm := mean (map fst ps) in let ym := mean (map snd ps) in
  let ssx := spread xm ps in
  let slope := if Rlt_dec 0 ssx then total (map (fun p => (fst p - xm) * (snd p - ym)) ps) / ssx else 0 in
  let icpt := ym - slope * xm in
  mkfit (length ps) xm slope icpt (sqrt (misfit icpt slope ps / INR (if (2 <? length ps)%nat then length ps - 2 else length ps))) ssx.
Lemma fit_kept xs ys ps : kept xs ys ps -> ps <> [] -> fit_linear xs ys = Some (fit_of ps).
Proof.
  intros K N. unfold fit_linear. rewrite (kept_length _ _ _ K), Nat.eqb_refl. cbn [negb]. rewrite (kept_paired _ _ _ K).
  destruct ps as [|p ps]; [contradiction|]. unfold fit_of. cbv zeta. destruct (2 <? length (p :: ps))%nat; reflexivity.
Qed.
Lemma fit_iff xs ys f : fit_linear xs ys = Some f <-> exists ps, kept xs ys ps /\ ps <> [] /\ f = fit_of ps.
Proof.
  split.
  - intros H. assert (L : length xs = length ys).
    { unfold fit_linear in H. destruct (Nat.eqb_spec (length xs) (length ys)); [auto|discriminate]. }
    destruct (kept_exists xs ys L) as [ps K]. exists ps. split; [auto|].
    assert (N : ps <> []). { intros ->. unfold fit_linear in H. rewrite L, Nat.eqb_refl, (kept_paired _ _ _ K) in H. discriminate. }
    rewrite (fit_kept _ _ _ K N) in H. split; congruence.
  - intros (ps & K & N & ->). apply fit_kept; auto.
Qed.
Section Fit.
Variable ps : list (R * R).
Hypothesis Hps : ps <> [].
Let n := INR (length ps).
Let xm := mean (map fst ps).
Let ym := mean (map snd ps).
Let ssx := spread xm ps.
Let f := fit_of ps.
Let b0 := f_slope f.
Let a0 := f_icpt f.
Let res (p : R * R) : R := snd p - (a0 + b0 * fst p).

Lemma n_pos : 0 < n.
Proof. unfold n. destruct ps; [contradiction|]. apply lt_0_INR. cbn; lia. Qed.
Lemma ssx_nonneg : 0 <= ssx.
Proof. apply total_nonneg. intros; apply pow2_ge_0. Qed.
Lemma ssx_zero : ssx = 0 -> forall p, In p ps -> fst p = xm.
Proof.
  intros E p I. assert (Z : (fst p - xm) ^ 2 = 0) by (apply (total_zero (fun p => (fst p - xm) ^ 2) ps); auto; intros; apply pow2_ge_0).
  assert (fst p - xm = 0) by (apply Rsqr_0_uniq; rewrite Rsqr_pow2; auto). lra.
Qed.
Lemma sum_x : total (map (fun p => fst p - xm) ps) = 0.
Proof.
  rewrite (total_ext _ (fun p => fst p + - xm)) by (intros; lra). rewrite total_plus, total_const. fold n. unfold xm, mean. rewrite map_length. fold n.
  pose proof n_pos. field. lra.
Qed.
Lemma sum_y : total (map (fun p => snd p - ym) ps) = 0.
Proof.
  rewrite (total_ext _ (fun p => snd p + - ym)) by (intros; lra). rewrite total_plus, total_const. fold n. unfold ym, mean. rewrite map_length. fold n.
  pose proof n_pos. field. lra.
Qed.
Lemma a0_eq : a0 = ym - b0 * xm. Proof. reflexivity. Qed.
Lemma res_sum : total (map res ps) = 0.
Proof.
  rewrite (total_ext _ (fun p => (snd p - ym) + (- b0) * (fst p - xm))) by (intros; unfold res; rewrite a0_eq; ring).
  rewrite total_plus, total_scal, sum_x, sum_y. lra.
Qed.
Lemma res_x : total (map (fun p => res p * (fst p - xm)) ps) = 0.
Proof.
  destruct (Rlt_dec 0 ssx) as [P|P].
  - rewrite (total_ext _ (fun p => (fst p - xm) * (snd p - ym) + (- b0) * (fst p - xm) ^ 2)) by (intros; unfold res; rewrite a0_eq; ring).
    rewrite total_plus, total_scal. fold (spread xm ps). fold ssx.
    assert (E : b0 = total (map (fun p => (fst p - xm) * (snd p - ym)) ps) / ssx).
    { unfold b0, f, fit_of. cbn [f_slope]. fold xm ym ssx. destruct (Rlt_dec 0 ssx); [auto|contradiction]. }
    rewrite E. field. lra.
  - assert (Z : ssx = 0) by (pose proof ssx_nonneg; lra). rewrite (total_ext _ (fun _ => 0)).
    + rewrite total_const. lra.
    + intros p I. rewrite (ssx_zero Z p I). ring.
Qed.
Lemma misfit_split a b : misfit a b ps = misfit a0 b0 ps + n * (a0 - a + (b0 - b) * xm) ^ 2 + (b0 - b) ^ 2 * ssx.
Proof.
  set (c := a0 - a + (b0 - b) * xm). set (d := b0 - b). unfold misfit at 1.
  rewrite (total_ext _ (fun p => ((snd p - (a0 + b0 * fst p)) ^ 2 + 2 * c * res p) + ((2 * d) * (res p * (fst p - xm)) + (c ^ 2 + ((2 * c * d) * (fst p - xm) + d ^ 2 * (fst p - xm) ^ 2)))))
    by (intros; unfold res, c, d; ring).
  rewrite !total_plus, !total_scal, res_sum, res_x, sum_x, total_const. fold (misfit a0 b0 ps) (spread xm ps). fold n ssx. ring.
Qed.
Lemma misfit_nonneg a b : 0 <= misfit a b ps.
Proof. apply total_nonneg. intros; apply pow2_ge_0. Qed.
Lemma misfit_zero a b : misfit a b ps = 0 <-> forall p, In p ps -> snd p = a + b * fst p.
Proof.
  split.
  - intros E p I. assert (Z : (snd p - (a + b * fst p)) ^ 2 = 0) by (apply (total_zero (fun p => (snd p - (a + b * fst p)) ^ 2) ps); auto; intros; apply pow2_ge_0).
    assert (snd p - (a + b * fst p) = 0) by (apply Rsqr_0_uniq; rewrite Rsqr_pow2; auto). lra.
  - intros H. unfold misfit. rewrite (total_ext _ (fun _ => 0)); [rewrite total_const; lra|]. intros p I. rewrite (H p I). ring.
Qed.
Lemma dof_pos : 0 < INR (if (2 <? length ps)%nat then length ps - 2 else length ps).
Proof. pose proof n_pos as P. unfold n in P. destruct (Nat.ltb_spec 2 (length ps)); [|auto]. apply lt_0_INR. lia. Qed.
Lemma err_sq : f_err f ^ 2 * INR (if (2 <? length ps)%nat then length ps - 2 else length ps) = misfit a0 b0 ps.
Proof.
  pose proof dof_pos as D. pose proof (misfit_nonneg a0 b0) as M. unfold f at 1, fit_of. cbn [f_err]. fold xm ym ssx.
  change (if Rlt_dec 0 ssx then total (map (fun p => (fst p - xm) * (snd p - ym)) ps) / ssx else 0) with b0. change (ym - b0 * xm) with a0.
  rewrite <- Rsqr_pow2, Rsqr_sqrt; [field; lra|]. apply Rmult_le_pos; [auto|]. left. apply Rinv_0_lt_compat; auto.
Qed.
Lemma err_nonneg : 0 <= f_err f. Proof. apply sqrt_pos. Qed.
Lemma err_zero : f_err f = 0 <-> exists a b, forall p, In p ps -> snd p = a + b * fst p.
Proof.
  pose proof dof_pos as D. pose proof err_sq as E. split.
  - intros Z. exists a0, b0. apply misfit_zero. rewrite <- E, Z. ring.
  - intros (a & b & H). apply misfit_zero in H. pose proof (misfit_split a b) as S. pose proof (misfit_nonneg a0 b0). pose proof n_pos. pose proof ssx_nonneg.
    assert (Z : misfit a0 b0 ps = 0).
    { assert (0 <= n * (a0 - a + (b0 - b) * xm) ^ 2) by (apply Rmult_le_pos; auto using pow2_ge_0; lra). assert (0 <= (b0 - b) ^ 2 * ssx) by (apply Rmult_le_pos; auto using pow2_ge_0; lra). lra. }
    rewrite Z in E. assert (f_err f ^ 2 = 0) by nra. nra.
Qed.
End Fit.
