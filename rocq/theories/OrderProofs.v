(** Facts about [sorted_copy], [kth_smallest] and [median]. *)
From Verif Require Import Base Buffer Loops OrderSpec.
Set Implicit Arguments.

Lemma insert_perm x l : Permutation (insert x l) (x :: l).
Proof. induction l as [|y t IH]; simpl; auto. destruct (x <=? y); auto.
  eapply perm_trans; [apply perm_skip, IH|]. apply perm_swap. Qed.
Lemma sorted_copy_perm l : Permutation (sorted_copy l) l.
Proof. induction l; simpl; auto. eapply perm_trans; [apply insert_perm|]. auto. Qed.
Lemma insert_ascending x l : ascending l -> ascending (insert x l).
Proof.
  unfold ascending. induction 1 as [|y t St IH F]; simpl. { constructor; constructor. }
  destruct (Qcleb_spec x y) as [L|L].
  - constructor. constructor; auto. constructor; auto. eapply Forall_impl; [|exact F]. intros; eapply Qcle_trans; eauto.
  - constructor; auto. apply Qcnot_le_lt, Qclt_le_weak in L.
    apply (Permutation_Forall (Permutation_sym (insert_perm x t))). constructor; auto.
Qed.
Lemma sorted_copy_ascending l : ascending (sorted_copy l).
Proof. induction l; simpl. constructor. apply insert_ascending; auto. Qed.
Lemma sorted_copy_length l : length (sorted_copy l) = length l.
Proof. apply Permutation_length, sorted_copy_perm. Qed.

Lemma ascending_perm_eq l l' : ascending l -> ascending l' -> Permutation l l' -> l = l'.
Proof.
  unfold ascending. revert l'; induction l as [|x t IH]; intros l' S S' P.
  - apply Permutation_nil in P. auto.
  - destruct l' as [|y t']. { symmetry in P. apply Permutation_nil in P. discriminate. }
    inversion S; inversion S'; subst.
    assert (x = y).
    { assert (In x (y :: t')) by (eapply Permutation_in; eauto; simpl; auto).
      assert (In y (x :: t)) by (eapply Permutation_in; [symmetry|]; eauto; simpl; auto).
      simpl in *. destruct H as [->|H]; auto. destruct H0 as [->|H0]; auto.
      apply Qcle_antisym. eapply Forall_forall in H2; eauto. eapply Forall_forall in H6; eauto. }
    subst. f_equal. apply IH; auto. eapply Permutation_cons_inv; eauto.
Qed.
Lemma sorted_copy_unique l l' : ascending l' -> Permutation l' l -> l' = sorted_copy l.
Proof. intros. apply ascending_perm_eq; auto using sorted_copy_ascending.
  eapply perm_trans; eauto. symmetry. apply sorted_copy_perm. Qed.
Lemma sorted_copy_perm_eq l l' : Permutation l l' -> sorted_copy l = sorted_copy l'.
Proof. intros. apply sorted_copy_unique; auto using sorted_copy_ascending.
  eapply perm_trans; [apply sorted_copy_perm|]. auto. Qed.
Lemma median_perm l l' : Permutation l l' -> median l = median l'.
Proof. intros P. unfold median. rewrite (sorted_copy_perm_eq P), (Permutation_length P). auto. Qed.

Lemma ascending_app l l' : ascending l -> ascending l' ->
  (forall x y, In x l -> In y l' -> x <= y) -> ascending (l ++ l').
Proof.
  unfold ascending. induction 1 as [|x t St IH F]; simpl; auto. intros S' H. constructor.
  - apply IH; auto.
  - apply Forall_forall. intros z Hz. apply in_app_or in Hz. destruct Hz.
    + eapply Forall_forall in F; eauto.
    + apply H; auto.
Qed.

Lemma ascending_rd l : (forall i k x y, (i < k)%nat -> rd l i = Some x -> rd l k = Some y -> x <= y) <-> ascending l.
Proof.
  unfold ascending. split.
  - induction l as [|a t IH]; intros H; constructor.
    + apply IH. intros i k x y L Hx Hy. destruct i as [|i], k as [|k]; try discriminate.
      apply (H (S (S i)) (S (S k))); auto. lia.
    + apply Forall_forall. intros z Hz. apply In_rd in Hz. destruct Hz as (k & B & R).
      destruct k; [lia|]. apply (H 1%nat (S (S k))); auto. lia.
  - induction 1 as [|a t St IH F]; intros i k x y L Hx Hy; destruct i as [|[|i]], k as [|[|k]]; try discriminate; try lia.
    + simpl in Hx. injection Hx as <-. simpl in Hy. eapply Forall_forall in F; eauto. eapply nth_error_In; eauto.
    + apply (IH (S i) (S k)); auto. lia.
Qed.

(** splitting a list at a 1-based position *)
Lemma rd_split (A : Type) (l : list A) k v : rd l k = Some v ->
  l = firstn (k - 1) l ++ v :: skipn k l.
Proof.
  destruct k; simpl; [discriminate|]. rewrite Nat.sub_0_r. revert k; induction l; intros [|k] H; simpl in *; try discriminate.
  - congruence. - f_equal. auto.
Qed.
Lemma in_firstn_rd (A : Type) (l : list A) n x : In x (firstn n l) -> exists i, (1 <= i <= n)%nat /\ rd l i = Some x.
Proof.
  intros H. apply In_rd in H. destruct H as (i & B & R). rewrite firstn_length in B. exists i. split; [lia|].
  rewrite <- (firstn_skipn n l), rd_app1; auto. rewrite firstn_length; lia. Qed.
Lemma in_skipn_rd (A : Type) (l : list A) n x : In x (skipn n l) -> exists i, (n < i <= length l)%nat /\ rd l i = Some x.
Proof.
  intros H. apply In_rd in H. destruct H as (i & B & R). rewrite skipn_length in B. exists (n + i)%nat. split; [lia|].
  rewrite <- (firstn_skipn n l), rd_app2; rewrite firstn_length. 2:lia.
  replace (n + i - Nat.min n (length l))%nat with i by lia. auto. Qed.

(** A buffer that is partitioned around position k carries the k-th smallest
    value there, and the maximum of the cells before k is the (k-1)-th. *)
Lemma partitioned_sorted_copy r k v : rd r k = Some v ->
  (forall i x, (i < k)%nat -> rd r i = Some x -> x <= v) ->
  (forall i x, (k < i)%nat -> rd r i = Some x -> v <= x) ->
  sorted_copy r = sorted_copy (firstn (k-1) r) ++ v :: sorted_copy (skipn k r).
Proof.
  intros Rk HL HR. symmetry. apply sorted_copy_unique.
  - apply ascending_app; auto using sorted_copy_ascending.
    + constructor. apply sorted_copy_ascending. apply Forall_forall. intros x Hx.
      apply (Permutation_in _ (sorted_copy_perm _)) in Hx. apply in_skipn_rd in Hx. destruct Hx as (i & B & R). apply (HR i); auto; lia.
    + intros x y Hx Hy. apply (Permutation_in _ (sorted_copy_perm _)) in Hx. apply in_firstn_rd in Hx.
      destruct Hx as (i & B & R). pose proof (rd_Some_bounds _ _ Rk).
      assert (x <= v) by (apply (HL i); auto; lia).
      destruct Hy as [<-|Hy]; auto. apply Qcle_trans with v; auto.
      apply (Permutation_in _ (sorted_copy_perm _)) in Hy. apply in_skipn_rd in Hy. destruct Hy as (i' & B' & R'). apply (HR i'); auto; lia.
  - rewrite (rd_split _ _ Rk) at 3. apply Permutation_app. apply sorted_copy_perm.
    constructor. apply sorted_copy_perm.
Qed.

Lemma partitioned_kth r k v : rd r k = Some v ->
  (forall i x, (i < k)%nat -> rd r i = Some x -> x <= v) ->
  (forall i x, (k < i)%nat -> rd r i = Some x -> v <= x) ->
  nth (k - 1) (sorted_copy r) 0 = v.
Proof.
  intros Rk HL HR. rewrite (@partitioned_sorted_copy r k v Rk HL HR). pose proof (rd_Some_bounds _ _ Rk).
  rewrite app_nth2; rewrite sorted_copy_length, firstn_length. 2:lia.
  replace (k - 1 - Nat.min (k - 1) (length r))%nat with 0%nat by lia. auto.
Qed.

(** last of an ascending list is its maximum *)
Lemma ascending_last_max l m : ascending l -> In m l -> (forall x, In x l -> x <= m) -> nth (length l - 1) l 0 = m.
Proof.
  intros S I M. apply Qcle_antisym.
  - apply M. apply nth_In. destruct l; [destruct I|simpl; lia].
  - unfold ascending in S. induction S as [|x t St IH F]; [destruct I|].
    destruct t as [|y t].
    + destruct I as [->|[]]. apply Qcle_refl.
    + assert (E : nth (length (x :: y :: t) - 1) (x :: y :: t) 0 = nth (length (y :: t) - 1) (y :: t) 0).
      { simpl. rewrite Nat.sub_0_r. reflexivity. }
      rewrite E. clear E.
      destruct I as [->|I].
      * rewrite Forall_forall in F. apply F. apply nth_In. simpl; lia.
      * apply IH; auto. intros z Hz. apply M. simpl; auto.
Qed.
Lemma partitioned_prev_max r k v m : rd r k = Some v -> (1 < k)%nat ->
  (forall i x, (i < k)%nat -> rd r i = Some x -> x <= v) ->
  (forall i x, (k < i)%nat -> rd r i = Some x -> v <= x) ->
  In m (firstn (k-1) r) -> (forall x, In x (firstn (k-1) r) -> x <= m) ->
  nth (k - 2) (sorted_copy r) 0 = m.
Proof.
  intros Rk Hk HL HR Im Mm. rewrite (@partitioned_sorted_copy r k v Rk HL HR). pose proof (rd_Some_bounds _ _ Rk).
  assert (Hlen : length (sorted_copy (firstn (k - 1) r)) = (k - 1)%nat). { rewrite sorted_copy_length, firstn_length. lia. }
  rewrite app_nth1 by lia. replace (k - 2)%nat with (length (sorted_copy (firstn (k-1) r)) - 1)%nat by lia.
  apply ascending_last_max. apply sorted_copy_ascending.
  - apply (Permutation_in _ (Permutation_sym (sorted_copy_perm _))). auto.
  - intros x Hx. apply Mm. apply (Permutation_in _ (sorted_copy_perm _)). auto.
Qed.

(** counting form *)
Lemma count_perm P l l' : Permutation l l' -> count P l = count P l'.
Proof. unfold count. induction 1; simpl; auto; try congruence.
  - destruct (P x); simpl; congruence. - destruct (P x), (P y); simpl; auto. Qed.
Lemma count_app P l l' : count P (l ++ l') = (count P l + count P l')%nat.
Proof. unfold count. rewrite filter_app, app_length. auto. Qed.
Lemma count_all P l : (forall x, In x l -> P x = true) -> count P l = length l.
Proof. unfold count. induction l; simpl; auto. intros H. rewrite H by auto. simpl. rewrite IHl; auto. Qed.
Lemma count_none P l : (forall x, In x l -> P x = false) -> count P l = 0%nat.
Proof. unfold count. induction l; simpl; auto. intros H. rewrite H by auto. auto. Qed.
Lemma count_le_length P l : (count P l <= length l)%nat.
Proof. unfold count. induction l; simpl; auto. destruct (P a); simpl; lia. Qed.

Lemma partitioned_kth_smallest r k v : rd r k = Some v ->
  (forall i x, (i < k)%nat -> rd r i = Some x -> x <= v) ->
  (forall i x, (k < i)%nat -> rd r i = Some x -> v <= x) ->
  kth_smallest r k v.
Proof.
  intros Rk HL HR. pose proof (rd_Some_bounds _ _ Rk). split. { eapply rd_In; eauto. }
  assert (FL : forall x, In x (firstn (k-1) r) -> x <= v).
  { intros x Hx. apply in_firstn_rd in Hx. destruct Hx as (i & B & R). apply (HL i); auto; lia. }
  assert (FR : forall x, In x (skipn k r) -> v <= x).
  { intros x Hx. apply in_skipn_rd in Hx. destruct Hx as (i & B & R). apply (HR i); auto; lia. }
  assert (L1 : length (firstn (k-1) r) = (k-1)%nat) by (rewrite firstn_length; lia).
  split; rewrite (rd_split _ _ Rk); rewrite count_app;
    change (v :: skipn k r) with ([v] ++ skipn k r); rewrite count_app.
  - rewrite (count_none _ (skipn k r)). 2:{ intros x Hx. apply FR in Hx. destruct (Qcltb_spec x v); auto. exfalso; qclra. }
    rewrite (count_none _ [v]). 2:{ intros x [<-|[]]. destruct (Qcltb_spec v v); auto. exfalso; qclra. }
    pose proof (count_le_length (fun x => x <? v) (firstn (k-1) r)). lia.
  - rewrite (count_all _ (firstn (k-1) r)). 2:{ intros x Hx. apply FL in Hx. destruct (Qcleb_spec x v); auto; contradiction. }
    rewrite (count_all _ [v]). 2:{ intros x [<-|[]]. destruct (Qcleb_spec v v); auto. exfalso; qclra. }
    simpl length. lia.
Qed.
