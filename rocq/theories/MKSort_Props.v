(** Properties C03 (in-place sort) and C04 (quickselect). *)
From Verif Require Import Base Buffer Loops OrderSpec OrderProofs MKSort_Model MKSort_Proofs.
Set Implicit Arguments.
Local Open Scope nat_scope.

Lemma sort_real_ok l : exists r, sort_real_inplace l = Some r /\ ascending r /\ Permutation r l.
Proof.
  destruct (sort_inplace_spec (fun x : Qc => x) 32 l) as (r & E & P & S). exists r. split; auto. split; auto.
  apply ascending_rd. intros i k x y L Hx Hy. apply (S i k x y); auto; try lia.
  apply rd_Some_bounds in Hx; lia. apply rd_Some_bounds in Hy; lia.
Qed.
Lemma sort_real_eq l : sort_real_inplace l = Some (sorted_copy l).
Proof. destruct (sort_real_ok l) as (r & E & A & P). rewrite E. f_equal. apply sorted_copy_unique; auto. Qed.

(** C03: for every buffer the sort terminates without a read outside the
    window being partitioned, and returns an ascending permutation. *)
Theorem C03_sort_real_inplace : forall l,
  exists r, sort_real_inplace l = Some r /\ ascending r /\ Permutation r l.
Proof. exact sort_real_ok. Qed.

(** C03 (index version): the sorted index buffer is a permutation of 1..n along
    which the values ascend; no index leaves 1..n. *)
Lemma sort_indices_ok values : exists idx,
  sort_indices_by_values values (length values) = Some idx /\
  Permutation idx (seq 1 (length values)) /\
  ascending (map (get values) idx) /\
  (forall i, In i idx -> exists v, rd values i = Some v).
Proof.
  unfold sort_indices_by_values.
  set (key := fun i => match rd values i with Some v => v | None => 0%Qc end).
  destruct (sort_inplace_spec key 16 (seq 1 (length values))) as (r & E & P & S).
  assert (B : forall i, In i r -> 1 <= i <= length values).
  { intros i Hi. apply (Permutation_in _ P) in Hi. apply in_seq in Hi. lia. }
  exists r. split; auto. split; auto. split.
  - apply ascending_rd. intros i k x y L Hx Hy. rewrite rd_map in Hx, Hy.
    destruct (rd r i) as [p|] eqn:Ei; [|discriminate]. destruct (rd r k) as [q|] eqn:Ek; [|discriminate].
    simpl in Hx, Hy. injection Hx as <-. injection Hy as <-.
    assert (K : forall i, 1 <= i <= length values -> get values i = key i).
    { intros j Hj. unfold key. rewrite rd_get by auto. auto. }
    rewrite !K by (apply B; eapply rd_In; eauto).
    pose proof (rd_Some_bounds _ _ Ei). pose proof (rd_Some_bounds _ _ Ek).
    apply (S i k p q); auto; lia.
  - intros i Hi. apply rd_Some; auto.
Qed.
Theorem C03_sort_indices_by_values : forall values, exists idx,
  sort_indices_by_values values (length values) = Some idx /\
  Permutation idx (seq 1 (length values)) /\
  ascending (map (get values) idx) /\
  (forall i, In i idx -> exists v, rd values i = Some v).
Proof. exact sort_indices_ok. Qed.

(** C03: the recursive sort of a window leaves every cell outside it alone. *)
Theorem C03_quicksort_window : forall (a : list Qc) left right,
  1 <= left -> right <= length a ->
  exists r, quicksort (fun x => x) (S (length a)) 32 a left right = Some r /\
    Permutation r a /\ (forall k, k < left \/ right < k -> rd r k = rd a k).
Proof.
  intros a left right H1 H2.
  destruct (@quicksort_spec Qc (fun x => x) 32 (S (length a)) a left right) as (r & E & L & P & O); auto; [lia|].
  exists r. auto.
Qed.

(** C04 *)
Lemma select_ok l k : 1 <= k <= length l ->
  exists r v, select_kth_real l k = Some r /\ Permutation r l /\ rd r k = Some v /\
    kth_smallest l k v /\
    (forall i x, i < k -> rd r i = Some x -> (x <= v)%Qc) /\
    (forall i x, k < i -> rd r i = Some x -> (v <= x)%Qc) /\
    nth (k - 1) (sorted_copy l) 0%Qc = v.
Proof.
  intros Hk. destruct (select_kth_keyed_spec (fun x : Qc => x) 16 l Hk) as (r & E & P & K).
  destruct (rd_Some r (i:=k)) as [v Ev]. { rewrite (Permutation_length P); auto. }
  destruct (K v Ev) as [K1 K2]. exists r, v. split; auto. split; auto. split; auto. split.
  - destruct (@partitioned_kth_smallest r k v Ev K1 K2) as [I [C1 C2]]. split. eapply Permutation_in; eauto.
    rewrite (count_perm _ P) in C1. rewrite (count_perm _ P) in C2. auto.
  - split; auto. split; auto. rewrite <- (sorted_copy_perm_eq P). apply partitioned_kth; auto.
Qed.
Theorem C04_select_kth_real : forall l k, 1 <= k <= length l ->
  exists r v, select_kth_real l k = Some r /\ Permutation r l /\ rd r k = Some v /\
    kth_smallest l k v /\
    (forall i x, i < k -> rd r i = Some x -> (x <= v)%Qc) /\
    (forall i x, k < i -> rd r i = Some x -> (v <= x)%Qc) /\
    nth (k - 1) (sorted_copy l) 0%Qc = v.
Proof. exact select_ok. Qed.

(** The partition pivot is the middle one of its three samples. *)
Theorem C03_median_of_three : forall a b c, kth_smallest [a; b; c] 2 (median_of_three a b c).
Proof.
  intros a b c. split; [destruct (median_of_three_in a b c) as [E|[E|E]]; rewrite E; simpl; auto|].
  unfold median_of_three, count. cbn [filter].
  destruct (Qclt_le_dec a b) as [H1|H1]; destruct (Qclt_le_dec b c) as [H2|H2]; destruct (Qclt_le_dec a c) as [H3|H3];
  repeat (match goal with |- context [Qcltb ?x ?y] => destruct (Qcltb_spec x y) end; try (exfalso; qclra));
  repeat (match goal with |- context [Qcleb ?x ?y] => destruct (Qcleb_spec x y) end; try (exfalso; qclra));
  cbn [length]; lia.
Qed.

(** The order statistic is unique, so [kth_smallest] pins the result. *)
Theorem C04_kth_smallest_unique : forall l k v w,
  kth_smallest l k v -> kth_smallest l k w -> v = w.
Proof.
  assert (Hmono : forall l v w, (v < w)%Qc -> count (fun x => (x <=? v)%Qc) l <= count (fun x => (x <? w)%Qc) l).
  { intros l v w L. unfold count. induction l as [|x l IH]; simpl; auto.
    destruct (Qcleb_spec x v), (Qcltb_spec x w); simpl; try lia. exfalso; qclra. }
  intros l k v w [_ [V1 V2]] [_ [W1 W2]].
  destruct (Qclt_le_dec v w) as [L|L]. { apply (Hmono l) in L. lia. }
  destruct (Qclt_le_dec w v) as [L'|L']. { apply (Hmono l) in L'. lia. }
  apply Qcle_antisym; auto.
Qed.

(** Concrete non-trivial instances: 40 distinct-ish values with ties, above the
    thresholds 32 and 16, so that the partition loop really runs. *)
Definition demo40 : list Qc := map (fun i => qz (Z.of_nat ((i * 17) mod 23))) (seq 1 40).
Example C03_demo : option_map (map this) (sort_real_inplace demo40) = Some (map this (sorted_copy demo40)) /\ length demo40 = 40.
Proof. vm_compute. auto. Qed.
Example C03_index_demo : exists idx, sort_indices_by_values demo40 40 = Some idx /\ nth 0 idx 0 = 23 /\ nth 39 idx 0 <> 0.
Proof. eexists. split. vm_compute. reflexivity. vm_compute. split; congruence. Qed.
Example C03_window_demo : 1 <= 3 /\ 38 <= length demo40.
Proof. vm_compute. lia. Qed.
Example C03_median_demo : this (median_of_three (qz 9) (qz 2) (qz 5)) = 5%Q.
Proof. vm_compute. reflexivity. Qed.
Example C04_demo : 1 <= 20 <= length demo40 /\
  option_map (fun r => this (get r 20)) (select_kth_real demo40 20) = Some (this (nth 19 (sorted_copy demo40) 0%Qc)).
Proof. vm_compute. split; auto; lia. Qed.
Example C04_unique_demo : kth_smallest [qz 3; qz 1; qz 3; qz 2] 3 (qz 3).
Proof. split; [simpl; auto | vm_compute; lia]. Qed.

Print Assumptions C03_sort_real_inplace.
Print Assumptions C03_sort_indices_by_values.
Print Assumptions C03_quicksort_window.
Print Assumptions C03_median_of_three.
Print Assumptions C04_select_kth_real.
Print Assumptions C04_kth_smallest_unique.
