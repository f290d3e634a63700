(** The prior, the posterior and the spread of the emergent-constraint code. *)
From Coq Require Import Reals List Arith Lia Bool Lra Permutation.
From Verif Require Import Base Buffer VH_Model VH_Proofs EC_Model EC_Spec EC_Proofs EC_Props.
Import ListNotations.
Local Open Scope R_scope.

(** ** Lists by index *)
Lemma by_index {A} (l : list A) d : l = map (fun i => nth i l d) (seq 0 (length l)).
Proof.
  apply nth_ext with d d; [rewrite map_length, seq_length; auto|]. intros i Hi.
  rewrite (nth_indep (map _ _) d (nth 0 l d)) by (rewrite map_length, seq_length; auto).
  rewrite (map_nth (fun i => nth i l d) (seq 0 (length l)) 0%nat i), seq_nth by auto. auto.
Qed.
Lemma total_index {A} (g : A -> R) l d : total (map g l) = total (map (fun i => g (nth i l d)) (seq 0 (length l))).
Proof. rewrite (by_index l d) at 1. rewrite map_map. auto. Qed.
Lemma nth_map_R {A} (g : A -> R) l d i : (i < length l)%nat -> nth i (map g l) 0 = g (nth i l d).
Proof. intros L. rewrite (nth_indep _ 0 (g d)) by (rewrite map_length; auto). apply map_nth. Qed.

(** ** The normal density *)
Lemma likelihood_normal line sigma t : 0 < sigma -> likelihood line sigma t = normal line sigma t.
Proof.
  intros P. unfold likelihood, normal.
  replace (- (1 / 2) * ((t - line) / sigma) ^ 2) with (- (t - line) ^ 2 / (2 * sigma ^ 2)) by (field; lra).
  rewrite (Rmult_comm sigma). auto.
Qed.
Lemma sqrt2pi : 0 < sqrt (2 * PI).
Proof. apply sqrt_lt_R0. pose proof PI_RGT_0. lra. Qed.
Lemma normal_pos mu sigma x : 0 < sigma -> 0 < normal mu sigma x.
Proof. intros P. apply Rdiv_lt_0_compat; [apply exp_pos|]. apply Rmult_lt_0_compat; [auto|apply sqrt2pi]. Qed.
Lemma normal_aff mu sigma x s d : 0 < sigma -> 0 < s -> normal (s * mu + d) (s * sigma) (s * x + d) = normal mu sigma x / s.
Proof.
  intros P S. unfold normal. pose proof sqrt2pi.
  replace (- (s * x + d - (s * mu + d)) ^ 2 / (2 * (s * sigma) ^ 2)) with (- (x - mu) ^ 2 / (2 * sigma ^ 2)) by (field; lra). field. lra.
Qed.

(** ** The nearest target *)
Lemma argmin_iff l k : argmin l = Some k <-> first_min l k.
Proof.
  split; [apply argmin_spec|]. intros F. destruct (argmin_some l) as [k' E].
  { intros ->. destruct F as [F _]. cbn in F. lia. }
  rewrite E. f_equal. apply (first_min_unique l); auto. apply argmin_spec; auto.
Qed.
Lemma first_max_min l k : first_max l k <-> first_min (map Ropp l) k.
Proof.
  assert (N : forall i, nth i (map Ropp l) 0 = - nth i l 0) by (intros i; rewrite <- Ropp_0 at 1; apply map_nth).
  unfold first_max, first_min. rewrite map_length. split; intros (A & B & C); (split; [auto|]; split; intros i I; [specialize (B i I)|specialize (C i I)]; rewrite !N in *; lra).
Qed.
Lemma argmax_iff l k : argmax l = Some k <-> first_max l k.
Proof. unfold argmax. rewrite argmin_iff, first_max_min. tauto. Qed.
Lemma argmin_none l : argmin l = None <-> l = [].
Proof. destruct l; cbn; split; congruence. Qed.
Lemma first_min_scale c l k : 0 < c -> first_min (map (Rmult c) l) k <-> first_min l k.
Proof.
  intros P. assert (N : forall i, nth i (map (Rmult c) l) 0 = c * nth i l 0) by (intros i; rewrite <- (Rmult_0_r c) at 1; apply map_nth).
  unfold first_min. rewrite map_length. split; intros (A & B & C); (split; [auto|]; split; intros i I; [specialize (B i I)|specialize (C i I)]; rewrite !N in *; nra).
Qed.
Lemma argmin_scale c l : 0 < c -> argmin (map (Rmult c) l) = argmin l.
Proof.
  intros P. destruct (argmin l) as [k|] eqn:E.
  - apply argmin_iff. apply first_min_scale; auto. apply argmin_iff; auto.
  - apply argmin_none in E. subst l. auto.
Qed.
Lemma argmax_scale c l : 0 < c -> argmax (map (Rmult c) l) = argmax l.
Proof.
  intros P. unfold argmax. rewrite map_map, (map_ext _ (fun x => c * - x)) by (intros; ring). rewrite <- map_map. apply argmin_scale; auto.
Qed.

(** ** The deviation at one constraint value *)
Definition dev (f : fit) (x : R) : R :=
  if Req_EM_T (f_err f) 0 then 0
  else f_err f * sqrt (1 + 1 / INR (f_n f) + (if Rlt_dec 0 (f_ssx f) then (x - f_xm f) ^ 2 / f_ssx f else 0)).
Definition line_at (f : fit) (x : R) : R := f_icpt f + f_slope f * x.
Lemma dev_list f grid : prediction_std f grid = map (dev f) grid.
Proof. unfold prediction_std, dev. destruct (Req_EM_T (f_err f) 0); auto. Qed.
Lemma fit_err xs ys f : fit_linear xs ys = Some f -> 0 <= f_err f.
Proof. intros H. apply fit_iff in H. destruct H as (ps & _ & _ & ->). apply err_nonneg. Qed.
Lemma dev_pos xs ys f x : fit_linear xs ys = Some f -> f_err f <> 0 -> 0 < dev f x.
Proof.
  intros H Z. assert (L := H). apply fit_iff in L. destruct L as (ps & K & N & E).
  destruct (C84_std xs ys ps f x H K) as (s & A & B & _). rewrite dev_list in A. injection A as ->. pose proof (fit_err _ _ _ H). lra.
Qed.
Lemma dev_zero f x : f_err f = 0 -> dev f x = 0.
Proof. intros Z. unfold dev. destruct (Req_EM_T (f_err f) 0); [auto|contradiction]. Qed.

(** ** Columns of the prior *)
Definition hot (n k : nat) : list R := map (fun i => if (i =? k)%nat then 1 else 0) (seq 0 n).
Lemma combine_map {A B C} (g : A -> B) (h : A -> C) l : combine (map g l) (map h l) = map (fun x => (g x, h x)) l.
Proof. induction l; cbn; congruence. Qed.
Lemma prior_columns xs ys f cgrid target : fit_linear xs ys = Some f ->
  prior xs ys cgrid target =
    (let* cols := (if Req_EM_T (f_err f) 0 then mapM (fun x => let* k := nearest target (line_at f x) in Some (hot (length target) k)) cgrid
                   else Some (map (fun x => map (likelihood (line_at f x) (dev f x)) target) cgrid)) in
     Some (cols, map (dev f) cgrid, map (line_at f) cgrid)).
Proof.
  intros H. unfold prior. rewrite H. cbn [bind]. rewrite dev_list. change (regression_line f cgrid) with (map (line_at f) cgrid).
  rewrite combine_map, mapM_map. f_equal.
  destruct (Req_EM_T (f_err f) 0) as [Z|Z].
  - apply mapM_ext_in. intros x _. unfold prior_column. rewrite (dev_zero f x Z). destruct (Rlt_dec 0 0); [lra|]. auto.
  - apply mapM_Some_map. intros x _. unfold prior_column. destruct (Rlt_dec 0 (dev f x)) as [P|P]; [auto|].
    exfalso. apply P. eapply dev_pos; eauto.
Qed.

(** ** The posterior density, one target value at a time *)
Definition weight (f : fit) (target : list R) (x : R) (i : nat) : R :=
  if Req_EM_T (f_err f) 0 then
    match nearest target (line_at f x) with Some k => if (k =? i)%nat then 1 else 0 | None => 0 end
  else normal (line_at f x) (dev f x) (nth i target 0).
Definition joint (f : fit) (cgrid target obs : list R) (dx : R) (i : nat) : R :=
  total (map (fun j => weight f target (nth j cgrid 0) i * (nth j obs 0 * dx)) (seq 0 (length cgrid))).
Lemma existsb_dev xs ys f cgrid : fit_linear xs ys = Some f -> cgrid <> [] ->
  existsb (fun s => if Rlt_dec 0 s then true else false) (map (dev f) cgrid) = if Req_EM_T (f_err f) 0 then false else true.
Proof.
  intros H N. destruct (Req_EM_T (f_err f) 0) as [Z|Z].
  - induction cgrid as [|x l IH]; [contradiction|]. cbn. rewrite (dev_zero f x Z). destruct (Rlt_dec 0 0); [lra|]. cbn.
    destruct l; [auto|]. apply IH. discriminate.
  - destruct cgrid as [|x l]; [contradiction|]. cbn. destruct (Rlt_dec 0 (dev f x)) as [P|P]; [auto|]. exfalso. apply P. eapply dev_pos; eauto.
Qed.
Lemma combine_index {A B} (l : list A) (m : list B) a b : length l = length m ->
  combine l m = map (fun j => (nth j l a, nth j m b)) (seq 0 (length l)).
Proof. intros L. rewrite (by_index l a) at 1. rewrite (by_index m b) at 1. rewrite <- L. apply combine_map. Qed.
Lemma posterior_joint xs ys f cgrid target obs dx : fit_linear xs ys = Some f -> cgrid <> [] -> length obs = length cgrid -> target <> [] ->
  posterior_pdf f cgrid target obs dx = Some (map (joint f cgrid target obs dx) (seq 0 (length target))).
Proof.
  intros H N L T. unfold posterior_pdf. rewrite dev_list, (existsb_dev xs ys f cgrid H N). change (regression_line f cgrid) with (map (line_at f) cgrid).
  destruct (Req_EM_T (f_err f) 0) as [Z|Z].
  - assert (NR : forall x, exists k, nearest target (line_at f x) = Some k).
    { intros x. apply argmin_some. destruct target; [contradiction|discriminate]. }
    set (kk := fun x => match nearest target (line_at f x) with Some k => k | None => O end).
    assert (M : mapM (nearest target) (map (line_at f) cgrid) = Some (map kk cgrid)).
    { rewrite mapM_map. apply mapM_Some_map. intros x _. unfold kk. destruct (NR x) as [k ->]. auto. }
    rewrite M. cbn [bind].
    assert (O : (match obs with o :: nil => repeat o (length cgrid) | _ => obs end) = obs).
    { destruct obs as [|o [|? ?]]; auto. cbn in L. rewrite <- L. auto. }
    rewrite O, L, Nat.eqb_refl. cbn [negb]. f_equal. unfold add_at. apply map_ext. intros i. rewrite rsum_total.
    assert (L2 : length (map kk cgrid) = length (map (fun o => o * dx) obs)) by (rewrite !map_length; auto).
    rewrite (combine_index _ _ (kk 0) 0 L2), map_map, map_length. unfold joint. apply total_ext. intros j J. apply in_seq in J. cbn [fst snd].
    rewrite map_nth, (nth_map_R (fun o => o * dx) obs 0) by lia. unfold weight. destruct (Req_EM_T (f_err f) 0); [|contradiction].
    unfold kk. destruct (NR (nth j cgrid 0)) as [k ->]. destruct (k =? i)%nat; ring.
  - rewrite L, Nat.eqb_refl. cbn [negb]. f_equal. rewrite (by_index target 0) at 1. rewrite map_map. apply map_ext. intros i. rewrite rsum_total, combine_map.
    assert (L2 : length (map (fun x => (line_at f x, dev f x)) cgrid) = length obs) by (rewrite map_length; auto).
    rewrite (combine_index _ _ (line_at f 0, dev f 0) 0 L2), map_map, map_length. unfold joint. apply total_ext. intros j J. cbn [fst snd].
    rewrite (map_nth (fun x => (line_at f x, dev f x)) cgrid 0 j). cbn [fst snd].
    assert (P : 0 < dev f (nth j cgrid 0)) by (eapply dev_pos; eauto). destruct (Rlt_dec 0 _); [|contradiction].
    unfold weight. destruct (Req_EM_T (f_err f) 0); [contradiction|]. rewrite likelihood_normal by auto. auto.
Qed.

(** ** The spread *)
Lemma nth_firstn_lt {A} (d : A) : forall l c k, (k < c)%nat -> nth k (firstn c l) d = nth k l d.
Proof. induction l as [|x l IH]; intros [|c] [|k] H; cbn; try lia; auto. apply IH. lia. Qed.
Lemma nth_skipn_add {A} (d : A) : forall l i k, nth k (skipn i l) d = nth (i + k) l d.
Proof. induction l as [|x l IH]; intros [|i] k; cbn; auto. destruct k; auto. Qed.
Lemma mass_model pdf m i : (i <= m)%nat -> (m < length pdf)%nat -> rsum (firstn (m + 1 - i) (skipn i pdf)) = mass pdf i m.
Proof.
  intros I M. rewrite rsum_total. unfold mass. f_equal. set (c := (m + 1 - i)%nat).
  assert (L : length (firstn c (skipn i pdf)) = c) by (rewrite firstn_length, skipn_length; unfold c; lia).
  apply nth_ext with 0 0; [rewrite L, map_length, seq_length; auto|]. rewrite L. intros k K.
  rewrite (nth_map_R _ _ O) by (rewrite seq_length; auto). rewrite seq_nth by auto.
  rewrite nth_firstn_lt, nth_skipn_add by auto. auto.
Qed.
Lemma std_loop_found thr tot values pdf m i d : 0 < tot -> (i <= m)%nat -> (m < length pdf)%nat ->
  std_loop thr tot values pdf m i = Some d <->
  exists k, (k <= i)%nat /\ thr * tot <= mass pdf k m /\ (forall j, (k < j <= i)%nat -> mass pdf j m < thr * tot) /\ d = Rabs (nth m values 0 - nth k values 0).
Proof.
  intros P I M. induction i as [|i IH]; cbn [std_loop]; rewrite mass_model by lia.
  - destruct (Rle_dec thr (mass pdf 0 m / tot)) as [Q|Q].
    + split.
      * intros [= <-]. exists O. repeat split; auto; [|intros; lia]. apply Rmult_le_compat_r with (r := tot) in Q; [|lra]. unfold Rdiv in Q. rewrite Rmult_assoc, Rinv_l in Q; lra.
      * intros (k & K & _ & _ & ->). replace k with O by lia. auto.
    + split; [discriminate|]. intros (k & K & C & _). replace k with O in C by lia. exfalso. apply Q.
      apply Rmult_le_reg_r with tot; [auto|]. unfold Rdiv. rewrite Rmult_assoc, Rinv_l; lra.
  - destruct (Rle_dec thr (mass pdf (S i) m / tot)) as [Q|Q].
    + assert (Q' : thr * tot <= mass pdf (S i) m).
      { apply Rmult_le_compat_r with (r := tot) in Q; [|lra]. unfold Rdiv in Q. rewrite Rmult_assoc, Rinv_l in Q; lra. }
      split.
      * intros [= <-]. exists (S i). repeat split; auto. intros; lia.
      * intros (k & K & C & F & ->). destruct (Nat.eq_dec k (S i)) as [->|D]; [auto|]. specialize (F (S i) ltac:(lia)). lra.
    + assert (Q' : mass pdf (S i) m < thr * tot).
      { destruct (Rlt_dec (mass pdf (S i) m) (thr * tot)); [auto|]. exfalso. apply Q. apply Rmult_le_reg_r with tot; [auto|]. unfold Rdiv. rewrite Rmult_assoc, Rinv_l; lra. }
      rewrite IH by lia. split; intros (k & K & C & F & D); exists k.
      * repeat split; auto. intros j J. destruct (Nat.eq_dec j (S i)) as [->|]; [auto|apply F; lia].
      * assert (k <> S i) by (intros ->; lra). repeat split; auto; [lia|]. intros j J. apply F. lia.
Qed.
Lemma std_loop_none thr tot values pdf m i : 0 < tot -> (i <= m)%nat -> (m < length pdf)%nat ->
  (forall k, (k <= i)%nat -> mass pdf k m < thr * tot) -> std_loop thr tot values pdf m i = None.
Proof.
  intros P I M F. destruct (std_loop thr tot values pdf m i) as [d|] eqn:E; [|auto]. exfalso.
  apply std_loop_found in E; auto. destruct E as (k & K & C & _). specialize (F k K). lra.
Qed.
(** from the mode downwards some index is the first to reach the threshold, or none does *)
Lemma reach thr tot pdf m : (exists k, (k <= m)%nat /\ thr * tot <= mass pdf k m /\ (forall j, (k < j <= m)%nat -> mass pdf j m < thr * tot)) \/
  (forall k, (k <= m)%nat -> mass pdf k m < thr * tot).
Proof.
  assert (G : forall i, (i <= m)%nat -> (exists k, (k <= i)%nat /\ thr * tot <= mass pdf k m /\ (forall j, (k < j <= i)%nat -> mass pdf j m < thr * tot)) \/
    (forall k, (k <= i)%nat -> mass pdf k m < thr * tot)).
  { induction i as [|i IH]; intros I.
    - destruct (Rlt_dec (mass pdf 0 m) (thr * tot)) as [Q|Q]; [right|left].
      + intros k K. replace k with O by lia. auto.
      + exists O. split; [auto|]. split; [lra|intros; lia].
    - destruct (Rlt_dec (mass pdf (S i) m) (thr * tot)) as [Q|Q].
      + destruct IH as [(k & K & C & F)|F]; [lia|left|right].
        * exists k. repeat split; auto. intros j J. destruct (Nat.eq_dec j (S i)) as [->|]; [auto|apply F; lia].
        * intros k K. destruct (Nat.eq_dec k (S i)) as [->|]; [auto|apply F; lia].
      + left. exists (S i). repeat split; [auto|lra|intros; lia]. }
  apply G. auto.
Qed.
