(** The reductions of the spectrum. *)
From Coq Require Import Reals List Lra Lia Arith.
From Verif Require Import Base Buffer Loops VH_Model VH_Proofs GB_Model GB_Spec GB_Real GB_Proofs2.
Import ListNotations.
Local Open Scope R_scope.
Local Open Scope nat_scope.

Lemma fmax_R a b : fmax Rops a b = Rmax a b.
Proof. unfold fmax. cbn [fleb Rops]. unfold Rmax. destruct (Rle_dec a b); reflexivity. Qed.

(** * The largest valid sample *)
Lemma max_fold l : forall m, exists r, fold_left (max_step Rops) l (Some m) = Some r /\ (m <= r)%R /\
  (forall v, In (Some v) l -> (v <= r)%R) /\ (r = m \/ In (Some r) l).
Proof.
  induction l as [|[v|] l IH]; intros m; cbn [fold_left max_step].
  - exists m. repeat split; auto; [lra|intros v []].
  - rewrite fmax_R. destruct (IH (Rmax m v)) as [r [E [L [A I]]]]. exists r. rewrite E. assert (X := Rmax_l m v). assert (Y := Rmax_r m v).
    repeat split; auto; [lra| |].
    + intros x [Hx|Hx]; [inversion Hx; subst; lra|auto].
    + destruct I as [->|I]; [|right; right; auto]. unfold Rmax. destruct (Rle_dec m v); [right; left; reflexivity|auto].
  - destruct (IH m) as [r [E [L [A I]]]]. exists r. rewrite E. repeat split; auto.
    + intros x [Hx|Hx]; [discriminate|auto].
    + destruct I; [auto|right; right; auto].
Qed.
Lemma max_valid_cases l : (max_valid Rops l = None /\ no_sample l) \/ (exists m, max_valid Rops l = Some m /\ is_max l m).
Proof.
  unfold max_valid. induction l as [|[v|] l IH].
  - left. split; [reflexivity|intros v []].
  - right. cbn. destruct (max_fold l v) as [r [E [L [A I]]]]. exists r. split; auto. split.
    + destruct I as [->|I]; [left; reflexivity|right; auto].
    + intros x [Hx|Hx]; [inversion Hx; subst; auto|auto].
  - cbn. destruct IH as [[E H]|[m [E [I A]]]].
    + left. split; auto. intros v [Hv|Hv]; [discriminate|apply (H v Hv)].
    + right. exists m. split; auto. split; [right; auto|]. intros x [Hx|Hx]; [discriminate|auto].
Qed.
Lemma is_max_unique l a b : is_max l a -> is_max l b -> a = b.
Proof. intros [I1 A1] [I2 A2]. apply Rle_antisym; auto. Qed.
Lemma max_valid_some l m : max_valid Rops l = Some m <-> is_max l m.
Proof.
  destruct (max_valid_cases l) as [[E H]|[r [E H]]]; rewrite E; split; intros X; try discriminate.
  - exfalso. exact (H m (proj1 X)).
  - inversion X; subst; auto.
  - f_equal. eapply is_max_unique; eauto.
Qed.
Lemma max_valid_none l : max_valid Rops l = None <-> no_sample l.
Proof.
  destruct (max_valid_cases l) as [[E H]|[r [E H]]]; rewrite E; split; intros X; try discriminate; auto.
  exfalso. exact (X r (proj1 H)).
Qed.

(** * The running mean *)
Lemma mean_fold l : forall s c, fold_left (mean_step Rops) l (s, c) = ((s + suml (present l))%R, c + length (present l)).
Proof.
  induction l as [|[v|] l IH]; intros s c; cbn [fold_left mean_step present suml length fst snd].
  - f_equal; [lra|lia].
  - rewrite IH. f_equal; [cbn; lra|lia].
  - apply IH.
Qed.
Lemma window_mean_is l : window_mean Rops l = mean l.
Proof.
  unfold window_mean, mean. rewrite mean_fold. cbn [fst snd fz Rops fdiv]. rewrite Rplus_0_l, Nat.add_0_l.
  destruct (present l) as [|v r]; [reflexivity|]. cbn [length Nat.ltb Nat.leb]. rewrite <- INR_IZR_INZ. reflexivity.
Qed.

Lemma mapM_rd (A : Type) (l : list A) : forall m s, s + m <= length l -> mapM (fun j => rd l j) (seq (S s) m) = Some (firstn m (skipn s l)).
Proof.
  induction m as [|m IH]; intros s H; [reflexivity|].
  cbn [seq mapM]. assert (X : exists x, rd l (S s) = Some x /\ skipn s l = x :: skipn (S s) l).
  { clear IH. cbn [rd]. revert l H. induction s as [|s IHs]; intros [|a l] H; cbn in H; try lia.
    - exists a. auto.
    - destruct (IHs l ltac:(lia)) as [x [E1 E2]]. exists x. split; [exact E1|exact E2]. }
  destruct X as [x [-> ->]]. rewrite IH by lia. reflexivity.
Qed.
Definition smooth (l : list (option R)) (w : Z) : list (option R) :=
  if (w <=? 1)%Z then l else map (fun i => mean (around l i (Z.to_nat (w / 2)))) (seq 0 (length l)).
Lemma firstn_cap (A : Type) (l : list A) m m' : m' = Nat.min m (length l) -> firstn m' l = firstn m l.
Proof. intros ->. destruct (Nat.le_ge_cases m (length l)); [rewrite Nat.min_l by auto; reflexivity|]. rewrite Nat.min_r by auto. rewrite firstn_all, firstn_all2 by auto. reflexivity. Qed.
Lemma running_mean_is l w : apply_centered_running_mean Rops l w = Some (smooth l w).
Proof.
  unfold apply_centered_running_mean, smooth. destruct (w <=? 1)%Z; [reflexivity|]. cbv zeta. set (h := Z.to_nat (w / 2)).
  rewrite <- seq_shift, mapM_map. apply mapM_Some_map. intros i Hi. apply in_seq in Hi.
  set (js := Nat.max 1 (S i - h)). set (je := Nat.min (length l) (S i + h)).
  replace js with (S (js - 1)) at 1 by lia. rewrite mapM_rd by lia. cbn [bind]. rewrite window_mean_is. do 2 f_equal. unfold around.
  replace (js - 1) with (i - h) by lia. apply firstn_cap. rewrite skipn_length. lia.
Qed.

(** * The turning point *)
Lemma turn_fold used : forall m, S m <= length used -> exists t, fold_left (turn_step Rops used) (seq 1 m) (Some 0) = Some t /\ t <= m /\
  (forall i, t <= i < m -> ~ decreases used i) /\ (t = 0 \/ decreases used (t - 1)).
Proof.
  induction m as [|m IH]; intros H.
  - exists 0. cbn. split; [reflexivity|]. split; [lia|]. split; [intros; lia|auto].
  - destruct (IH ltac:(lia)) as [t [E [L [A I]]]].
    rewrite seq_S, fold_left_app, E. cbn [fold_left]. unfold turn_step at 1. cbn [bind].
    assert (R1 : exists a, rd used (1 + m) = Some a) by (destruct (rd used (1 + m)) eqn:X; eauto; change (nth_error used m = None) in X; apply nth_error_None in X; lia).
    assert (R2 : exists b, rd used (1 + m + 1) = Some b). { destruct (rd used (1 + m + 1)) eqn:X; eauto. replace (1 + m + 1) with (S (S m)) in X by lia. change (nth_error used (S m) = None) in X. apply nth_error_None in X. lia. }
    destruct R1 as [a Ea], R2 as [b Eb]. rewrite Ea, Eb. cbn [bind].
    assert (Na : nth_error used m = Some a) by exact Ea. assert (Nb : nth_error used (S m) = Some b) by (replace (1 + m + 1) with (S (S m)) in Eb by lia; exact Eb).
    assert (Dec : decreases used m <-> exists x y, a = Some x /\ b = Some y /\ (y < x)%R).
    { unfold decreases. rewrite Na, Nb. split; intros [x [y [P [Q W]]]]; exists x, y; repeat split; auto; congruence. }
    destruct a as [x|]; [destruct b as [y|]|].
    + unfold fgtb. cbn [fleb fsub fz Rops]. destruct (Rle_dec (x - y) 0) as [Y|Y]; cbn [negb].
      * exists t. split; [reflexivity|]. split; [lia|]. split; [|auto]. intros i Hi. destruct (Nat.eq_dec i m) as [->|]; [|apply A; lia].
        rewrite Dec. intros [x' [y' [P [Q W]]]]. inversion P; inversion Q; subst. lra.
      * exists (1 + m). split; [reflexivity|]. split; [lia|]. split; [intros; lia|]. right. replace (1 + m - 1) with m by lia. rewrite Dec. exists x, y. repeat split; auto. lra.
    + exists t. split; [reflexivity|]. split; [lia|]. split; [|auto]. intros i Hi. destruct (Nat.eq_dec i m) as [->|]; [|apply A; lia].
      rewrite Dec. intros [x' [y' [P [Q W]]]]. discriminate.
    + exists t. split; [reflexivity|]. split; [lia|]. split; [|auto]. intros i Hi. destruct (Nat.eq_dec i m) as [->|]; [|apply A; lia].
      rewrite Dec. intros [x' [y' [P [Q W]]]]. discriminate.
Qed.
Lemma decreases_bound l i : decreases l i -> S i < length l.
Proof. intros [a [b [_ [H _]]]]. apply nth_error_Some. congruence. Qed.
Lemma last_turn_is used : exists t, last_turn Rops used = Some t /\
  ((t = 0 /\ forall i, ~ decreases used i) \/ (0 < t /\ t < length used /\ decreases used (t - 1) /\ forall i, t <= i -> ~ decreases used i)).
Proof.
  unfold last_turn. destruct (Nat.eq_dec (length used) 0) as [Z|Z].
  - exists 0. rewrite Z. cbn. split; [reflexivity|]. left. split; [reflexivity|]. intros i D. apply decreases_bound in D. lia.
  - destruct (turn_fold used (length used - 1) ltac:(lia)) as [t [E [L [A I]]]]. exists t. split; auto.
    assert (A' : forall i, t <= i -> ~ decreases used i). { intros i Hi D. assert (X := decreases_bound _ _ D). apply (A i); auto. lia. }
    destruct (Nat.eq_dec t 0) as [T|T]; [left; split; auto; intros i; apply A'; lia|].
    right. repeat split; auto; [lia|lia|]. destruct I; [lia|auto].
Qed.

Lemma In_firstn_S (A : Type) (l : list A) n x : In x (firstn (S n) l) -> In x (firstn n l) \/ nth_error l n = Some x.
Proof.
  revert l. induction n as [|n IH]; intros [|a l] H; cbn in H; try tauto.
  - destruct H as [->|[]]. right. reflexivity.
  - destruct H as [->|H]; [left; left; reflexivity|]. destruct (IH l H) as [X|X]; [left; right; exact X|right; exact X].
Qed.
Lemma firstn_incl (A : Type) (l : list A) m n x : m <= n -> In x (firstn m l) -> In x (firstn n l).
Proof. revert n l. induction m as [|m IH]; intros [|n] [|a l] H I; cbn in *; try tauto; try lia. destruct I; [left; auto|right; apply IH; auto; lia]. Qed.
Lemma nth_firstn_in (A : Type) (l : list A) i m x : i < m -> nth_error l i = Some x -> In x (firstn m l).
Proof. revert m l. induction i as [|i IH]; intros [|m] [|a l] H E; cbn in *; try lia; try discriminate; [inversion E; left; auto|right; apply IH; auto; lia]. Qed.

Lemma finalize_baroc_is growth w :
  let used := smooth growth w in
  ((forall i, ~ decreases used i) /\ finalize_baroc_growth Rops growth w = Some (inr 300%Z)) \/
  (exists i m, decreases used i /\ (forall j, i < j -> ~ decreases used j) /\ is_max (firstn (S i) used) m /\
     finalize_baroc_growth Rops growth w = Some (inl m)).
Proof.
  intros used. unfold finalize_baroc_growth. rewrite running_mean_is. cbn [bind]. fold used.
  destruct (last_turn_is used) as [t [E D]]. rewrite E. cbn [bind].
  destruct D as [[-> D]|[T [L [D A]]]]; [left; auto|]. right.
  destruct (Nat.eqb_spec t 0); [lia|]. rewrite (mapM_rd _ used (t + 1) 0) by lia. cbn [bind skipn].
  destruct (max_valid_cases (firstn (t + 1) used)) as [[_ X]|[m [M [I B]]]].
  { exfalso. destruct D as [a [b [Ha _]]]. apply (X a). apply (nth_firstn_in _ used (t - 1)); auto. lia. }
  rewrite M. exists (t - 1), m. split; [auto|]. split; [intros j Hj; apply A; lia|]. split; [|reflexivity].
  replace (S (t - 1)) with t by lia. destruct D as [a [b [Ha [Hb W]]]]. replace (S (t - 1)) with t in Hb by lia.
  assert (Ia : In (Some a) (firstn t used)) by (apply (nth_firstn_in _ used (t - 1)); auto; lia).
  split.
  - replace (t + 1) with (S t) in I by lia. destruct (In_firstn_S _ _ _ _ I) as [X|X]; auto.
    exfalso. rewrite Hb in X. inversion X; subst. assert (Y := B a (firstn_incl _ _ t (t + 1) _ ltac:(lia) Ia)). lra.
  - intros v Hv. apply B. apply (firstn_incl _ _ t); auto. lia.
Qed.

(** the mean stays within bounds of the samples *)
Lemma suml_le l M : (forall v, In v l -> (v <= M)%R) -> (suml l <= M * INR (length l))%R.
Proof.
  induction l as [|v l IH]; intros H; cbn [suml length]; [cbn; lra|].
  assert (v <= M)%R by (apply H; left; auto). assert (suml l <= M * INR (length l))%R by (apply IH; intros; apply H; right; auto).
  rewrite S_INR. lra.
Qed.
Lemma suml_ge l M : (forall v, In v l -> (M <= v)%R) -> (M * INR (length l) <= suml l)%R.
Proof.
  induction l as [|v l IH]; intros H; cbn [suml length]; [cbn; lra|].
  assert (M <= v)%R by (apply H; left; auto). assert (M * INR (length l) <= suml l)%R by (apply IH; intros; apply H; right; auto).
  rewrite S_INR. lra.
Qed.
Lemma present_in l v : In v (present l) <-> In (Some v) l.
Proof.
  induction l as [|[x|] l IH]; cbn [present In]; [tauto| |].
  - rewrite IH. split; intros [H|H]; auto; left; congruence.
  - rewrite IH. split; [auto|]. intros [H|H]; [discriminate|auto].
Qed.
Lemma around_in l i h x : In x (around l i h) -> In x l.
Proof.
  unfold around. intros H. assert (X : forall m (k : list (option R)), In x (firstn m k) -> In x k).
  { induction m as [|m IH]; intros [|a k] Y; cbn in *; try tauto. destruct Y; auto. }
  apply X in H. rewrite <- (firstn_skipn (i - h) l). apply in_or_app. right. auto.
Qed.
Lemma mean_range l m lo hi : mean l = Some m -> (forall v, In (Some v) l -> (lo <= v <= hi)%R) -> (lo <= m <= hi)%R.
Proof.
  unfold mean. intros E H. destruct (present l) as [|v r] eqn:P; [discriminate|].
  assert (E' : m = (suml (v :: r) / INR (length (v :: r)))%R) by congruence. rewrite E'. clear E E'.
  assert (HP : forall x, In x (v :: r) -> (lo <= x <= hi)%R) by (intros x Hx; apply H, present_in; rewrite P; auto).
  assert (S1 := suml_le (v :: r) hi (fun x Hx => proj2 (HP x Hx))). assert (S2 := suml_ge (v :: r) lo (fun x Hx => proj1 (HP x Hx))).
  assert (L : (0 < INR (length (v :: r)))%R) by (apply lt_0_INR; cbn; lia).
  set (S' := suml (v :: r)) in *. set (C := INR (length (v :: r))) in *.
  assert (X : (S' / C * C = S')%R) by (field; lra).
  split; apply (Rmult_le_reg_r C); auto; rewrite X; lra.
Qed.
Lemma smooth_range l w lo hi : (forall v, In (Some v) l -> (lo <= v <= hi)%R) -> forall v, In (Some v) (smooth l w) -> (lo <= v <= hi)%R.
Proof.
  intros H v Hv. unfold smooth in Hv. destruct (w <=? 1)%Z; auto.
  apply in_map_iff in Hv. destruct Hv as [i [E _]]. eapply mean_range; eauto. intros x Hx. apply H. eapply around_in; eauto.
Qed.
