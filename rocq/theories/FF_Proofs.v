(** Programs of assignments (FF_Model): loops, and what a run leaves in the
    two arrays. *)
From Coq Require Import Reals List Arith Lia Bool.
From Verif Require Import Base Buffer VH_Model FF_Model.
Import ListNotations.
Local Open Scope nat_scope.

Lemma in_loop {A} lo hi (f : nat -> list A) x : In x (loop lo hi f) <-> exists k, lo <= k <= hi /\ In x (f k).
Proof.
  unfold loop. rewrite in_flat_map. split; intros (k & H1 & H2); exists k; split; auto;
    [apply in_seq in H1 | apply in_seq]; lia.
Qed.
Lemma half_odd ido q : 1 <= q -> (q < 1 + (ido - 1) / 2 <-> 2 * q + 1 <= ido).
Proof.
  intros Hq. pose proof (Nat.div_mod_eq (ido - 1) 2). pose proof (Nat.mod_upper_bound (ido - 1) 2 ltac:(lia)).
  split; intros; lia.
Qed.
Lemma in_loop2 {A} ido (f : nat -> list A) x :
  In x (loop2 ido f) <-> exists q, 1 <= q /\ 2 * q + 1 <= ido /\ In x (f (2 * q + 1)).
Proof.
  unfold loop2. rewrite in_flat_map. split.
  - intros (q & H1 & H2). apply in_seq in H1. exists q. repeat split; auto; try lia. apply half_odd; lia.
  - intros (q & H1 & H2 & H3). exists q. split; auto. apply in_seq. split; auto. apply half_odd; lia.
Qed.
Lemma exists_loop {A} lo hi (f : nat -> list A) (P : A -> Prop) k :
  lo <= k <= hi -> Exists P (f k) -> Exists P (loop lo hi f).
Proof.
  rewrite !Exists_exists. intros H (x & H1 & H2). exists x. split; auto. apply in_loop. eauto.
Qed.
Lemma exists_loop2 {A} ido (f : nat -> list A) (P : A -> Prop) q :
  1 <= q -> 2 * q + 1 <= ido -> Exists P (f (2 * q + 1)) -> Exists P (loop2 ido f).
Proof.
  rewrite !Exists_exists. intros H H' (x & H1 & H2). exists x. split; auto. apply in_loop2. eauto 6.
Qed.
Lemma exists_app_l {A} (P : A -> Prop) l r : Exists P l -> Exists P (l ++ r).
Proof. rewrite Exists_app; auto. Qed.
Lemma exists_app_r {A} (P : A -> Prop) l r : Exists P r -> Exists P (l ++ r).
Proof. rewrite Exists_app; auto. Qed.

(** Columns reached by the loop over i in odd and in even rows *)
Lemma col_odd ido i : 1 <= i <= ido ->
  i = 1 \/ (exists q, 1 <= q /\ 2 * q + 1 <= ido /\ (i = 2 * q + 1 \/ i = 2 * q + 1 - 1)) \/ (i = ido /\ ido mod 2 = 0).
Proof.
  intros H. pose proof (Nat.div_mod_eq i 2). pose proof (Nat.mod_upper_bound i 2 ltac:(lia)).
  pose proof (Nat.div_mod_eq ido 2). pose proof (Nat.mod_upper_bound ido 2 ltac:(lia)).
  destruct (Nat.eq_dec i 1); auto.
  destruct (Nat.eq_dec (i mod 2) 0).
  - destruct (Nat.eq_dec i ido); [right; right; subst; auto | right; left; exists (i / 2); lia].
  - right; left; exists (i / 2); lia.
Qed.
Lemma col_even ido i : 1 <= i <= ido ->
  i = ido \/ (exists q, 1 <= q /\ 2 * q + 1 <= ido /\ (i = ido + 2 - (2 * q + 1) \/ i = ido + 2 - (2 * q + 1) - 1))
  \/ (i = 1 /\ ido mod 2 = 0 /\ 2 <= ido).
Proof.
  intros H. pose proof (Nat.div_mod_eq (ido - i) 2). pose proof (Nat.mod_upper_bound (ido - i) 2 ltac:(lia)).
  pose proof (Nat.div_mod_eq ido 2). pose proof (Nat.mod_upper_bound ido 2 ltac:(lia)).
  destruct (Nat.eq_dec i ido); auto.
  destruct (Nat.eq_dec ((ido - i) mod 2) 0).
  - right; left; exists ((ido - i) / 2); lia.
  - destruct (Nat.eq_dec i 1); [|right; left; exists ((ido - i) / 2 + 1); lia].
    destruct (Nat.eq_dec (ido mod 2) 0); [right; right; lia | right; left; exists ((ido - i) / 2 + 1); lia].
Qed.

(** ** Runs *)
Lemma foldM_app {A S} (f : S -> A -> option S) l1 l2 s :
  foldM f (l1 ++ l2) s = bind (foldM f l1 s) (foldM f l2).
Proof. revert s. induction l1; simpl; intros; auto. destruct (f s a); simpl; auto. Qed.
Lemma run_app p q s : run (p ++ q) s = bind (run p s) (run q).
Proof. apply foldM_app. Qed.

Lemma nth_upd0_eq (a : list R) p v d : p < length a -> nth p (upd0 a p v) d = v.
Proof. intros. apply nth_error_nth. apply nth_error_upd0_eq; auto. Qed.
Lemma nth_upd0_neq (a : list R) p q v d : p <> q -> nth q (upd0 a p v) d = nth q a d.
Proof.
  intros. assert (H0 : nth_error (upd0 a p v) q = nth_error a q) by (apply nth_error_upd0_neq; auto).
  destruct (nth_error a q) eqn:E.
  - rewrite (nth_error_nth _ _ d E). apply nth_error_nth; congruence.
  - rewrite !nth_overflow; auto; [apply nth_error_None; auto|]. rewrite upd0_length. apply nth_error_None; auto.
Qed.
Lemma wrx_at (a : list R) p v : p < length a -> wrx a (p + 1) v = Some (upd0 a p v).
Proof.
  intros H. unfold wrx, wr. replace (p + 1) with (S p) by lia.
  destruct (S p <=? length a) eqn:E; [reflexivity|apply Nat.leb_gt in E; lia].
Qed.

(** What a pass that writes only ch does, when the values written depend only on cc. *)
Section Runs.
Variable d : R.
Lemma run_ch (F : nat -> R) p A B :
  (forall x, In x p -> a_ch x = true /\ a_ix x < length B /\ (forall b, a_val x A b = F (a_ix x))) ->
  exists B', run p (A, B) = Some (A, B') /\ length B' = length B /\
    (forall i, Exists (fun x => a_ix x = i) p -> nth i B' d = F i) /\
    (forall i, ~ Exists (fun x => a_ix x = i) p -> nth i B' d = nth i B d).
Proof.
  revert B. induction p as [|x p IH]; intros B H.
  - exists B. split; [reflexivity|]. split; auto. split; intros i E; auto. inversion E.
  - destruct (H x (or_introl eq_refl)) as (H1 & H2 & H3).
    destruct (IH (upd0 B (a_ix x) (F (a_ix x)))) as (B' & R1 & R2 & R3 & R4).
    { intros y Hy. rewrite upd0_length. apply H; right; auto. }
    exists B'. unfold run in *. cbn [foldM]. unfold exec at 1. cbn [fst snd]. rewrite H1, H3.
    rewrite wrx_at by auto. cbn. split; [exact R1|]. rewrite upd0_length in R2. split; auto.
    split; intros i E.
    + destruct (Exists_dec (fun y => a_ix y = i) p (fun y => Nat.eq_dec (a_ix y) i)) as [Y|N]; auto.
      rewrite R4 by auto. apply Exists_cons in E. destruct E as [E|E]; [|contradiction]. subst i.
      apply nth_upd0_eq; auto.
    + rewrite R4 by (intros Y; apply E; right; auto). apply nth_upd0_neq. intros Y. apply E. left; auto.
Qed.
Lemma run_cc (F : nat -> R) p A B :
  (forall x, In x p -> a_ch x = false /\ a_ix x < length A /\ (forall a, a_val x a B = F (a_ix x))) ->
  exists A', run p (A, B) = Some (A', B) /\ length A' = length A /\
    (forall i, Exists (fun x => a_ix x = i) p -> nth i A' d = F i) /\
    (forall i, ~ Exists (fun x => a_ix x = i) p -> nth i A' d = nth i A d).
Proof.
  revert A. induction p as [|x p IH]; intros A H.
  - exists A. split; [reflexivity|]. split; auto. split; intros i E; auto. inversion E.
  - destruct (H x (or_introl eq_refl)) as (H1 & H2 & H3).
    destruct (IH (upd0 A (a_ix x) (F (a_ix x)))) as (A' & R1 & R2 & R3 & R4).
    { intros y Hy. rewrite upd0_length. apply H; right; auto. }
    exists A'. unfold run in *. cbn [foldM]. unfold exec at 1. cbn [fst snd]. rewrite H1, H3.
    rewrite wrx_at by auto. cbn. split; [exact R1|]. rewrite upd0_length in R2. split; auto.
    split; intros i E.
    + destruct (Exists_dec (fun y => a_ix y = i) p (fun y => Nat.eq_dec (a_ix y) i)) as [Y|N]; auto.
      rewrite R4 by auto. apply Exists_cons in E. destruct E as [E|E]; [|contradiction]. subst i.
      apply nth_upd0_eq; auto.
    + rewrite R4 by (intros Y; apply E; right; auto). apply nth_upd0_neq. intros Y. apply E. left; auto.
Qed.
(** Every position written at most once: the value may also depend on the
    element about to be overwritten. *)
Lemma run_once (F : nat -> R -> R) p A B :
  NoDup (map a_ix p) ->
  (forall x, In x p -> a_ch x = true /\ a_ix x < length B /\
     (forall b, a_val x A b = F (a_ix x) (nth (a_ix x) b d))) ->
  exists B', run p (A, B) = Some (A, B') /\ length B' = length B /\
    (forall i, Exists (fun x => a_ix x = i) p -> nth i B' d = F i (nth i B d)) /\
    (forall i, ~ Exists (fun x => a_ix x = i) p -> nth i B' d = nth i B d).
Proof.
  revert B. induction p as [|x p IH]; intros B ND H.
  - exists B. split; [reflexivity|]. split; auto. split; intros i E; auto. inversion E.
  - destruct (H x (or_introl eq_refl)) as (H1 & H2 & H3). cbn in ND. inversion ND as [|? ? N1 N2]; subst.
    destruct (IH (upd0 B (a_ix x) (F (a_ix x) (nth (a_ix x) B d)))) as (B' & R1 & R2 & R3 & R4); auto.
    { intros y Hy. rewrite upd0_length. apply H; right; auto. }
    assert (NE : ~ Exists (fun y => a_ix y = a_ix x) p).
    { intros Y. apply Exists_exists in Y. destruct Y as (y & Y1 & Y2). apply N1. rewrite <- Y2. apply in_map; auto. }
    exists B'. unfold run in *. cbn [foldM]. unfold exec at 1. cbn [fst snd]. rewrite H1, H3.
    rewrite wrx_at by auto. cbn. split; [exact R1|]. rewrite upd0_length in R2. split; auto.
    split; intros i E.
    + apply Exists_cons in E. destruct E as [E|E].
      * subst i. rewrite R4 by auto. apply nth_upd0_eq; auto.
      * rewrite R3 by auto. f_equal. apply nth_upd0_neq. intros Y. subst i. contradiction.
    + rewrite R4 by (intros Y; apply E; right; auto). apply nth_upd0_neq. intros Y. apply E. left; auto.
Qed.
Lemma run_once_cc (F : nat -> R -> R) p A B :
  NoDup (map a_ix p) ->
  (forall x, In x p -> a_ch x = false /\ a_ix x < length A /\
     (forall a, a_val x a B = F (a_ix x) (nth (a_ix x) a d))) ->
  exists A', run p (A, B) = Some (A', B) /\ length A' = length A /\
    (forall i, Exists (fun x => a_ix x = i) p -> nth i A' d = F i (nth i A d)) /\
    (forall i, ~ Exists (fun x => a_ix x = i) p -> nth i A' d = nth i A d).
Proof.
  revert A. induction p as [|x p IH]; intros A ND H.
  - exists A. split; [reflexivity|]. split; auto. split; intros i E; auto. inversion E.
  - destruct (H x (or_introl eq_refl)) as (H1 & H2 & H3). cbn in ND. inversion ND as [|? ? N1 N2]; subst.
    destruct (IH (upd0 A (a_ix x) (F (a_ix x) (nth (a_ix x) A d)))) as (A' & R1 & R2 & R3 & R4); auto.
    { intros y Hy. rewrite upd0_length. apply H; right; auto. }
    assert (NE : ~ Exists (fun y => a_ix y = a_ix x) p).
    { intros Y. apply Exists_exists in Y. destruct Y as (y & Y1 & Y2). apply N1. rewrite <- Y2. apply in_map; auto. }
    exists A'. unfold run in *. cbn [foldM]. unfold exec at 1. cbn [fst snd]. rewrite H1, H3.
    rewrite wrx_at by auto. cbn. split; [exact R1|]. rewrite upd0_length in R2. split; auto.
    split; intros i E.
    + apply Exists_cons in E. destruct E as [E|E].
      * subst i. rewrite R4 by auto. apply nth_upd0_eq; auto.
      * rewrite R3 by auto. f_equal. apply nth_upd0_neq. intros Y. subst i. contradiction.
    + rewrite R4 by (intros Y; apply E; right; auto). apply nth_upd0_neq. intros Y. apply E. left; auto.
Qed.
End Runs.

Lemma NoDup_flat_map {A B} (f : A -> list B) l :
  NoDup l -> (forall x, In x l -> NoDup (f x)) ->
  (forall x y z, In x l -> In y l -> In z (f x) -> In z (f y) -> x = y) -> NoDup (flat_map f l).
Proof.
  induction l as [|a l IH]; intros H1 H2 H3; cbn; [constructor|]. inversion H1; subst.
  assert (D : forall z, In z (f a) -> ~ In z (flat_map f l)).
  { intros z Z1 Z2. apply in_flat_map in Z2. destruct Z2 as (y & Y1 & Y2).
    assert (a = y) by (apply (H3 a y z); cbn; auto). subst; contradiction. }
  assert (N1 : NoDup (f a)) by (apply H2; left; auto).
  assert (N2 : NoDup (flat_map f l)).
  { apply IH; auto; [intros; apply H2; right; auto|]. intros x y z X Y. apply H3; right; auto. }
  clear H1 H2 H3 H4 H5 IH. induction (f a); cbn; auto. inversion N1; subst. constructor.
  - rewrite in_app_iff. intros [X|X]; auto. apply (D a0); cbn; auto.
  - apply IHl0; auto. intros z Z. apply D; cbn; auto.
Qed.
