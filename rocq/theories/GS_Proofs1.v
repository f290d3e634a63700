(** Arrays of two subscripts and counted loops. *)
From Coq Require Import Reals List Arith Lia Bool Lra.
From Verif Require Import Base Buffer VH_Model RS_Spec RS_Dft GS_Spec GS_Model.
Import ListNotations.
Local Open Scope nat_scope.

Lemma fold_seq {St} (f : St -> nat -> option St) (I : nat -> St -> Prop) n : forall a s,
  (forall q s, q < n -> I q s -> exists s', f s (a + q) = Some s' /\ I (S q) s') -> I 0 s ->
  exists s', foldM f (seq a n) s = Some s' /\ I n s'.
Proof.
  intros a s H H0. assert (G : forall k, k <= n -> exists s', foldM f (seq a k) s = Some s' /\ I k s').
  { induction k; intros K; [exists s; auto|]. destruct IHk as (s1 & E1 & I1); [lia|]. destruct (H k s1 ltac:(lia) I1) as (s2 & E2 & I2).
    exists s2. split; auto. rewrite seq_S. clear -E1 E2. revert s E1. induction (seq a k) as [|x xs IH]; intros s E1; cbn in *.
    - injection E1 as ->. rewrite E2. auto.
    - destruct (f s x); cbn in *; [|discriminate]. auto. }
  apply G; lia.
Qed.
Lemma fold_map {A B St} (f : St -> B -> option St) (h : A -> B) l : forall s, foldM f (map h l) s = foldM (fun s x => f s (h x)) l s.
Proof. induction l; intros s; cbn; auto. destruct (f s (h a)); cbn; auto. Qed.
(** do np1 = lo, hi, 2 *)
Lemma fold_by2 {St} (f : St -> nat -> option St) (I : nat -> St -> Prop) lo hi s :
  (forall q s, q < (hi + 2 - lo) / 2 -> I q s -> exists s', f s (lo + 2 * q) = Some s' /\ I (S q) s') -> I 0 s ->
  exists s', foldM f (by2 lo hi) s = Some s' /\ I ((hi + 2 - lo) / 2) s'.
Proof.
  intros H H0. unfold by2. rewrite fold_map. apply fold_seq; auto.
Qed.
Lemma by2_range lo hi q : q < (hi + 2 - lo) / 2 -> lo + 2 * q <= hi.
Proof. intros H. pose proof (Nat.div_mod (hi + 2 - lo) 2 ltac:(lia)). pose proof (Nat.mod_upper_bound (hi + 2 - lo) 2). lia. Qed.

Ltac plia := repeat match goal with |- context [?x * ?y] => generalize (x * y); intro end; lia.
(** [a] is an array (n1, n2) with elements F *)
Definition view (n1 n2 : nat) (a : list R) (F : nat -> nat -> R) : Prop :=
  length a = n1 * n2 /\ forall i j, 1 <= i <= n1 -> 1 <= j <= n2 -> val2 n1 a i j = F i j.
Lemma view_self n1 n2 a : length a = n1 * n2 -> view n1 n2 a (val2 n1 a).
Proof. split; auto. Qed.
Lemma view_ext n1 n2 a F G : view n1 n2 a F -> (forall i j, 1 <= i <= n1 -> 1 <= j <= n2 -> F i j = G i j) -> view n1 n2 a G.
Proof. intros [L H] E. split; auto. intros. rewrite H; auto. Qed.

Lemma inside_true i n : 1 <= i <= n -> inside i n = true.
Proof. intros. unfold inside. destruct (Nat.leb_spec 1 i), (Nat.leb_spec i n); auto; lia. Qed.
Lemma pos_bound n1 n2 i j : 1 <= i <= n1 -> 1 <= j <= n2 -> 1 <= pos n1 i j <= n1 * n2.
Proof.
  intros Hi Hj. unfold pos. split; [apply Nat.le_trans with i; [lia|apply Nat.le_add_l]|]. apply Nat.le_trans with ((n2 - 1) * n1 + n1); [apply Nat.add_le_mono; [apply Nat.mul_le_mono_r; lia|lia]|].
  destruct n2 as [|k]; [lia|]. replace (S k - 1) with k by lia. rewrite Nat.mul_comm. lia.
Qed.
Lemma pos_inj n1 i j i' j' : 1 <= i <= n1 -> 1 <= i' <= n1 -> 1 <= j -> 1 <= j' -> pos n1 i j = pos n1 i' j' -> i = i' /\ j = j'.
Proof.
  unfold pos. intros Hi Hi' Hj Hj' E. assert (A : (i - 1) + (j - 1) * n1 = (i' - 1) + (j' - 1) * n1) by (revert E; plia).
  assert (B : ((i - 1) + (j - 1) * n1) / n1 = ((i' - 1) + (j' - 1) * n1) / n1) by (rewrite A; auto).
  rewrite !Nat.div_add, !Nat.div_small in B by lia. assert (j = j') by lia. subst. split; lia.
Qed.
Lemma rd_nth0 (a : list R) p : 1 <= p <= length a -> rd a p = Some (nth (p - 1) a 0%R).
Proof. intros. destruct p; [lia|]. cbn. rewrite Nat.sub_0_r. rewrite (nth_error_nth' a 0%R) by lia. auto. Qed.

Lemma rd2_view n1 n2 a F i j : view n1 n2 a F -> 1 <= i <= n1 -> 1 <= j <= n2 -> rd2 n1 n2 a i j = Some (F i j).
Proof.
  intros [L H] Hi Hj. unfold rd2. rewrite !inside_true by auto. cbn [andb]. pose proof (pos_bound n1 n2 i j Hi Hj).
  rewrite rd_nth0 by lia. rewrite <- H by auto. unfold val2, pos. do 2 f_equal. plia.
Qed.
Lemma nth_upd0 (a : list R) p v q : p < length a -> nth q (upd0 a p v) 0%R = if q =? p then v else nth q a 0%R.
Proof.
  revert p q. induction a as [|x xs IH]; intros p q H; cbn in H; [lia|]. destruct p, q; cbn; auto.
  rewrite IH by lia. auto.
Qed.
Lemma wr2_view n1 n2 a F i j v : view n1 n2 a F -> 1 <= i <= n1 -> 1 <= j <= n2 ->
  exists a', wr2 n1 n2 a i j v = Some a' /\ view n1 n2 a' (fun i' j' => if andb (i' =? i) (j' =? j) then v else F i' j').
Proof.
  intros [L H] Hi Hj. unfold wr2. rewrite !inside_true by auto. cbn [andb]. pose proof (pos_bound n1 n2 i j Hi Hj).
  unfold wrx. destruct (Nat.leb_spec 1 (pos n1 i j)), (Nat.leb_spec (pos n1 i j) (length a)); try lia. cbn [andb].
  eexists. split; [reflexivity|]. split; [rewrite wr_length; auto|]. intros i' j' Hi' Hj'.
  unfold val2. destruct (pos n1 i j) as [|p] eqn:E; [lia|]. unfold wr. rewrite nth_upd0 by lia.
  pose proof (pos_bound n1 n2 i' j' Hi' Hj').
  replace ((j' - 1) * n1 + (i' - 1)) with (pos n1 i' j' - 1) by (unfold pos; plia).
  destruct (Nat.eqb_spec (pos n1 i' j' - 1) p) as [D|D].
  - destruct (pos_inj n1 i' j' i j Hi' Hi) as [-> ->]; try lia. rewrite !Nat.eqb_refl. auto.
  - destruct (Nat.eqb_spec i' i) as [->|]; cbn [andb].
    + destruct (Nat.eqb_spec j' j) as [->|]; [lia|]. rewrite <- H by auto. unfold val2, pos. f_equal. plia.
    + rewrite <- H by auto. unfold val2, pos. f_equal. plia.
Qed.
