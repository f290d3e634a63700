(** 1-based work buffers: reads, writes, swaps on lists, with the few facts the
    array algorithms need.  Nothing here models repository code. *)
From Verif Require Import Base.
Set Implicit Arguments.
Local Open Scope nat_scope.

Section Buf.
Variable A : Type.
Implicit Types (a b : list A) (i j k : nat).

(** Fortran [a(i)]: 1-based; [None] is an out-of-bounds read. *)
Definition rd a i : option A :=
  match i with O => None | S p => nth_error a p end.

(** the same read, but also failing outside the window [lo..hi] *)
Definition rdw a (lo hi i : nat) : option A :=
  if (lo <=? i) && (i <=? hi) then rd a i else None.
Lemma rdw_in a lo hi i : lo <= i <= hi -> rdw a lo hi i = rd a i.
Proof. intros H. unfold rdw. destruct (Nat.leb_spec lo i), (Nat.leb_spec i hi); auto; lia. Qed.

Fixpoint upd0 a (p : nat) (v : A) : list A :=
  match a, p with
  | [], _ => []
  | _ :: t, O => v :: t
  | h :: t, S q => h :: upd0 t q v
  end.
(** Fortran [a(i) = v]; a write outside the buffer has no effect here (the
    models only use it after a successful read at the same index, or prove the
    index in range). *)
Definition wr a i (v : A) : list A :=
  match i with O => a | S p => upd0 a p v end.

Lemma upd0_length a p v : length (upd0 a p v) = length a.
Proof. revert p; induction a; destruct p; simpl; auto. Qed.
Lemma wr_length a i v : length (wr a i v) = length a.
Proof. destruct i; simpl; auto using upd0_length. Qed.

Lemma nth_error_upd0_eq a p v : p < length a -> nth_error (upd0 a p v) p = Some v.
Proof. revert p; induction a; intros p H; simpl in *. lia. destruct p; simpl; auto. apply IHa; lia. Qed.
Lemma nth_error_upd0_neq a p q v : p <> q -> nth_error (upd0 a p v) q = nth_error a q.
Proof. revert p q; induction a; intros p q H; simpl; auto.
  destruct p, q; simpl; auto; try congruence. Qed.

Lemma rd_wr_eq a i v : 1 <= i <= length a -> rd (wr a i v) i = Some v.
Proof. intros H. destruct i; [lia|]. simpl. apply nth_error_upd0_eq. lia. Qed.
Lemma rd_wr_neq a i j v : i <> j -> rd (wr a i v) j = rd a j.
Proof. intros H. destruct i, j; simpl; auto. apply nth_error_upd0_neq. congruence. Qed.

Lemma rd_Some_bounds a i v : rd a i = Some v -> 1 <= i <= length a.
Proof. destruct i; simpl; [discriminate|]. intros H.
  assert (nth_error a i <> None) by congruence. apply nth_error_Some in H0. lia. Qed.
Lemma rd_Some a i : 1 <= i <= length a -> exists v, rd a i = Some v.
Proof. intros H. destruct i; [lia|]. simpl. destruct (nth_error a i) eqn:E; eauto.
  apply nth_error_None in E. lia. Qed.
Lemma rd_None a i : i = 0 \/ length a < i -> rd a i = None.
Proof. intros H. destruct i; simpl; auto. apply nth_error_None. lia. Qed.

Lemma rd_ext a b : length a = length b -> (forall i, 1 <= i <= length a -> rd a i = rd b i) -> a = b.
Proof.
  revert b; induction a as [|x a IH]; destruct b as [|y b]; simpl; intros L H; auto; try discriminate.
  f_equal. { specialize (H 1 ltac:(lia)). simpl in H. congruence. }
  apply IH; [lia|]. intros i Hi. specialize (H (S i) ltac:(lia)). simpl in H. destruct i; [lia|exact H].
Qed.

Lemma upd0_app_l a b p v : p < length a -> upd0 (a ++ b) p v = upd0 a p v ++ b.
Proof. revert p; induction a; intros p H; simpl in *; [lia|]. destruct p; simpl; auto. f_equal. apply IHa. lia. Qed.
Lemma upd0_app_r a b p v : length a <= p -> upd0 (a ++ b) p v = a ++ upd0 b (p - length a) v.
Proof. revert p; induction a; intros p H; simpl in *. f_equal; lia. destruct p; [lia|]. simpl. f_equal. apply IHa. lia. Qed.

Lemma upd0_same a p v : nth_error a p = Some v -> upd0 a p v = a.
Proof. revert p; induction a; intros p H; destruct p; simpl in *; try discriminate; auto.
  - congruence. - f_equal; auto. Qed.
Lemma wr_same a i v : rd a i = Some v -> wr a i v = a.
Proof. destruct i; simpl; [discriminate|]. apply upd0_same. Qed.

(** Exchange of two cells. *)
Definition swap a i j : list A :=
  match rd a i, rd a j with
  | Some x, Some y => wr (wr a i y) j x
  | _, _ => a
  end.
Lemma swap_length a i j : length (swap a i j) = length a.
Proof. unfold swap. destruct (rd a i), (rd a j); auto. rewrite !wr_length. auto. Qed.
Lemma rd_swap_l a i j : 1 <= i <= length a -> 1 <= j <= length a -> rd (swap a i j) i = rd a j.
Proof. intros Hi Hj. unfold swap. destruct (rd_Some a Hi) as [x Ex], (rd_Some a Hj) as [y Ey].
  rewrite Ex, Ey. destruct (Nat.eq_dec i j).
  - subst. rewrite rd_wr_eq by (rewrite wr_length; lia). congruence.
  - rewrite rd_wr_neq by lia. rewrite rd_wr_eq by lia. auto. Qed.
Lemma rd_swap_r a i j : 1 <= i <= length a -> 1 <= j <= length a -> rd (swap a i j) j = rd a i.
Proof. intros Hi Hj. unfold swap. destruct (rd_Some a Hi) as [x Ex], (rd_Some a Hj) as [y Ey].
  rewrite Ex, Ey. rewrite rd_wr_eq by (rewrite wr_length; lia). auto. Qed.
Lemma rd_swap_o a i j k : k <> i -> k <> j -> rd (swap a i j) k = rd a k.
Proof. intros Hi Hj. unfold swap. destruct (rd a i), (rd a j); auto. rewrite !rd_wr_neq by lia. auto. Qed.

Lemma upd0_perm_cons a p x : p < length a -> forall v, nth_error a p = Some v ->
  Permutation (v :: upd0 a p x) (x :: a).
Proof.
  revert p; induction a as [|h t IH]; intros p Hp v E; simpl in *; [lia|].
  destruct p; simpl in *.
  - injection E as ->. apply perm_swap.
  - specialize (IH p ltac:(lia) v E).
    eapply perm_trans; [apply perm_swap|]. eapply perm_trans; [apply perm_skip, IH|]. apply perm_swap.
Qed.
Lemma wr_perm a i v x : rd a i = Some v -> Permutation (v :: wr a i x) (x :: a).
Proof. intros E. pose proof (rd_Some_bounds _ _ E). destruct i; [lia|]. simpl in *. apply upd0_perm_cons; auto. lia. Qed.
Lemma swap_perm a i j : Permutation (swap a i j) a.
Proof.
  unfold swap. destruct (rd a i) as [x|] eqn:Ei, (rd a j) as [y|] eqn:Ej; auto.
  destruct (Nat.eq_dec i j).
  - subst. replace y with x by congruence. rewrite (wr_same a j Ei). rewrite (wr_same a j Ei). auto.
  - assert (E2 : rd (wr a i y) j = Some y) by (rewrite rd_wr_neq; auto).
    pose proof (wr_perm _ _ x E2) as P. pose proof (wr_perm _ _ y Ei) as P2.
    apply Permutation_cons_inv with (a := y). eapply perm_trans; [exact P|]. exact P2.
Qed.
End Buf.

Lemma rd_map (A B : Type) (f : A -> B) a i : rd (map f a) i = option_map f (rd a i).
Proof. destruct i; simpl; auto. revert i; induction a; destruct i; simpl; auto. Qed.
Lemma rd_app1 (A : Type) (a b : list A) i : i <= length a -> rd (a ++ b) i = rd a i.
Proof. destruct i; simpl; auto. intros. apply nth_error_app1. lia. Qed.
Lemma rd_app2 (A : Type) (a b : list A) i : length a < i -> rd (a ++ b) i = rd b (i - length a).
Proof. intros H. destruct i; [lia|].
  replace (S i - length a) with (S (i - length a)) by lia. simpl. apply nth_error_app2. lia. Qed.
Lemma rd_In (A : Type) (a : list A) i v : rd a i = Some v -> In v a.
Proof. destruct i; simpl; [discriminate|]. apply nth_error_In. Qed.
Lemma In_rd (A : Type) (a : list A) v : In v a -> exists i, 1 <= i <= length a /\ rd a i = Some v.
Proof. intros H. apply In_nth_error in H. destruct H as [n Hn]. exists (S n). split; auto.
  assert (nth_error a n <> None) by congruence. apply nth_error_Some in H. lia. Qed.
Lemma skipn_skipn' (A : Type) (l : list A) : forall x y, skipn x (skipn y l) = skipn (x + y) l.
Proof. induction l; intros x y. { rewrite !skipn_nil. auto. }
  destruct y; simpl. { rewrite Nat.add_0_r. auto. } rewrite IHl. replace (x + S y) with (S (x + y)) by lia. auto. Qed.
