(** Counted loops, finite sums and index pairs: generic facts.
    Nothing here models repository code. *)
From Verif Require Import Base Buffer.
Set Implicit Arguments.
Local Open Scope nat_scope.

(** Fortran [do i = lo, hi; st = f i st; end do]. *)
Definition do_loop {S : Type} (lo hi : nat) (f : nat -> S -> S) (st : S) : S :=
  fold_left (fun s i => f i s) (seq lo (hi + 1 - lo)) st.

(** Finite read with default, for loops whose index range is known. *)
Definition get (a : list Qc) (i : nat) : Qc := nth (i - 1) a 0%Qc.

Lemma get_rd a i v : rd a i = Some v -> get a i = v.
Proof. unfold get. destruct i; simpl; [discriminate|]. rewrite Nat.sub_0_r. intros H. apply nth_error_nth. auto. Qed.
Lemma rd_get a i : 1 <= i <= length a -> rd a i = Some (get a i).
Proof. intros H. destruct (rd_Some a H) as [v E]. rewrite E. f_equal. symmetry. apply get_rd; auto. Qed.

Lemma fold_left_flat_map (A B S : Type) (f : S -> B -> S) (g : A -> list B) l s :
  fold_left f (flat_map g l) s = fold_left (fun s x => fold_left f (g x) s) l s.
Proof. revert s; induction l; simpl; auto. intros. rewrite fold_left_app. auto. Qed.
Lemma fold_left_map (A B S : Type) (f : S -> B -> S) (g : A -> B) l s :
  fold_left f (map g l) s = fold_left (fun s x => f s (g x)) l s.
Proof. revert s; induction l; simpl; auto. Qed.
Lemma fold_left_ext_in (A S : Type) (f g : S -> A -> S) l s :
  (forall s x, In x l -> f s x = g s x) -> fold_left f l s = fold_left g l s.
Proof. revert s; induction l; simpl; auto. intros s H. rewrite H by auto. apply IHl. auto. Qed.

(** Sums *)
Definition zsum (l : list Z) : Z := fold_right Z.add 0%Z l.
Definition qsum (l : list Qc) : Qc := fold_right Qcplus 0%Qc l.

Lemma zsum_app l l' : zsum (l ++ l') = (zsum l + zsum l')%Z.
Proof. induction l; simpl; lia. Qed.
Lemma qsum_app l l' : qsum (l ++ l') = (qsum l + qsum l')%Qc.
Proof. induction l; simpl; [ring|]. rewrite IHl. ring. Qed.
Lemma zsum_perm l l' : Permutation l l' -> zsum l = zsum l'.
Proof. induction 1; simpl; lia. Qed.
Lemma qsum_perm l l' : Permutation l l' -> qsum l = qsum l'.
Proof. induction 1; simpl; auto; try congruence. ring. Qed.
Lemma fold_left_zsum (A : Type) (f : A -> Z) l s :
  fold_left (fun s x => (s + f x)%Z) l s = (s + zsum (map f l))%Z.
Proof. revert s; induction l; simpl; intros; [lia|]. rewrite IHl. lia. Qed.
Lemma fold_left_qsum (A : Type) (f : A -> Qc) l s :
  fold_left (fun s x => (s + f x)%Qc) l s = (s + qsum (map f l))%Qc.
Proof. revert s; induction l; simpl; intros; [ring|]. rewrite IHl. ring. Qed.
Lemma zsum_map_add (A : Type) (f g : A -> Z) l : zsum (map (fun x => (f x + g x)%Z) l) = (zsum (map f l) + zsum (map g l))%Z.
Proof. induction l; simpl; lia. Qed.
Lemma qsum_map_add (A : Type) (f g : A -> Qc) l : qsum (map (fun x => (f x + g x)%Qc) l) = (qsum (map f l) + qsum (map g l))%Qc.
Proof. induction l; simpl; [ring|]. rewrite IHl. ring. Qed.
Lemma qsum_map_sub (A : Type) (f g : A -> Qc) l : qsum (map (fun x => (f x - g x)%Qc) l) = (qsum (map f l) - qsum (map g l))%Qc.
Proof. induction l; simpl; [ring|]. rewrite IHl. ring. Qed.
Lemma qsum_map_scale (A : Type) (c : Qc) (f : A -> Qc) l : qsum (map (fun x => (c * f x)%Qc) l) = (c * qsum (map f l))%Qc.
Proof. induction l; simpl; [ring|]. rewrite IHl. ring. Qed.
Lemma zsum_map_opp (A : Type) (f : A -> Z) l : zsum (map (fun x => (- f x)%Z) l) = (- zsum (map f l))%Z.
Proof. induction l; simpl; lia. Qed.
Lemma qsum_const (A : Type) (c : Qc) (l : list A) : qsum (map (fun _ => c) l) = (qz (Z.of_nat (length l)) * c)%Qc.
Proof. induction l; cbn [map qsum fold_right length]; [change (Z.of_nat 0) with 0%Z; rewrite qz_0; ring|].
  fold (qsum (map (fun _ : A => c) l)). rewrite IHl.
  rewrite Nat2Z.inj_succ. unfold Z.succ. rewrite qz_add, qz_1. ring. Qed.
Lemma qsum_nonneg l : (forall x, In x l -> (0 <= x)%Qc) -> (0 <= qsum l)%Qc.
Proof. induction l; simpl; intros H. apply Qcle_refl.
  assert (0 <= a)%Qc by auto. assert (0 <= qsum l)%Qc by auto. qclra. Qed.
Lemma qsum_qz (A : Type) (f : A -> Z) l : qsum (map (fun x => qz (f x)) l) = qz (zsum (map f l)).
Proof. induction l; simpl. rewrite qz_0; auto. rewrite IHl, qz_add. auto. Qed.
Lemma map_ext_in' (A B : Type) (f g : A -> B) l : (forall x, In x l -> f x = g x) -> map f l = map g l.
Proof. apply map_ext_in. Qed.
Lemma qsum_ext (A : Type) (f g : A -> Qc) l : (forall x, In x l -> f x = g x) -> qsum (map f l) = qsum (map g l).
Proof. intros. f_equal. apply map_ext_in; auto. Qed.
Lemma qsum_le (A : Type) (f g : A -> Qc) l : (forall x, In x l -> (f x <= g x)%Qc) -> (qsum (map f l) <= qsum (map g l))%Qc.
Proof. induction l; simpl; intros H. apply Qcle_refl.
  assert (f a <= g a)%Qc by auto. assert (qsum (map f l) <= qsum (map g l))%Qc by auto. qclra. Qed.

(** All ordered index pairs (i,j), 1 <= i < j <= n. *)
Definition row_pairs (n : nat) : list (nat * nat) :=
  flat_map (fun i => map (fun j => (i, j)) (seq (i + 1) (n - i))) (seq 1 (n - 1)).
Definition lag_pairs (n : nat) : list (nat * nat) :=
  flat_map (fun lag => map (fun i => (i, i + lag)) (seq 1 (n - lag))) (seq 1 (n - 1)).

Lemma in_row_pairs n i j : In (i, j) (row_pairs n) <-> 1 <= i < j /\ j <= n.
Proof. unfold row_pairs. rewrite in_flat_map. split.
  - intros (x & Hx & Hp). apply in_seq in Hx. apply in_map_iff in Hp. destruct Hp as (y & E & Hy).
    apply in_seq in Hy. injection E as <- <-. lia.
  - intros H. exists i. split. apply in_seq; lia. apply in_map_iff. exists j. split; auto. apply in_seq; lia. Qed.
Lemma in_lag_pairs n i j : In (i, j) (lag_pairs n) <-> 1 <= i < j /\ j <= n.
Proof. unfold lag_pairs. rewrite in_flat_map. split.
  - intros (x & Hx & Hp). apply in_seq in Hx. apply in_map_iff in Hp. destruct Hp as (y & E & Hy).
    apply in_seq in Hy. injection E as <- <-. lia.
  - intros H. exists (j - i). split. apply in_seq; lia. apply in_map_iff. exists i. split; [f_equal; lia|]. apply in_seq; lia. Qed.

Lemma NoDup_flat_map (A B : Type) (f : A -> list B) l :
  NoDup l -> (forall x, In x l -> NoDup (f x)) ->
  (forall x y b, In x l -> In y l -> In b (f x) -> In b (f y) -> x = y) -> NoDup (flat_map f l).
Proof.
  induction l as [|a l IH]; intros N F D; simpl. constructor.
  inversion N; subst.
  assert (G : forall b, In b (f a) -> ~ In b (flat_map f l)).
  { intros b Hb Hc. apply in_flat_map in Hc. destruct Hc as (y & Hy & Hby).
    assert (a = y) by (apply (D a y b); simpl; auto). subst. auto. }
  assert (N2 : NoDup (flat_map f l)). { apply IH; auto. intros; apply F; simpl; auto. intros x y b Hx Hy; apply D; simpl; auto. }
  specialize (F a (or_introl eq_refl)). clear -F N2 G.
  induction (f a) as [|b m IHm]; simpl; auto. inversion F; subst. constructor.
  - intro H. apply in_app_or in H. destruct H; auto. apply (G b); simpl; auto.
  - apply IHm; auto. intros c Hc. apply G; simpl; auto.
Qed.
Lemma NoDup_map_inj (A B : Type) (f : A -> B) l :
  (forall x y, In x l -> In y l -> f x = f y -> x = y) -> NoDup l -> NoDup (map f l).
Proof. induction l; simpl; intros I N; constructor; inversion N; subst.
  - intro H. apply in_map_iff in H. destruct H as (y & E & Hy). assert (y = a) by auto. subst; auto.
  - apply IHl; auto. Qed.

Lemma NoDup_row_pairs n : NoDup (row_pairs n).
Proof. apply NoDup_flat_map. apply seq_NoDup.
  - intros x _. apply NoDup_map_inj. intros; congruence. apply seq_NoDup.
  - intros x y [u v] _ _ H1 H2. apply in_map_iff in H1, H2. destruct H1 as (? & E1 & _), H2 as (? & E2 & _). congruence. Qed.
Lemma NoDup_lag_pairs n : NoDup (lag_pairs n).
Proof. apply NoDup_flat_map. apply seq_NoDup.
  - intros x _. apply NoDup_map_inj. intros; congruence. apply seq_NoDup.
  - intros x y [u v] _ _ H1 H2. apply in_map_iff in H1, H2. destruct H1 as (? & E1 & _), H2 as (? & E2 & _).
    injection E1 as <- <-. injection E2 as -> E2. lia. Qed.
Lemma lag_row_perm n : Permutation (lag_pairs n) (row_pairs n).
Proof. apply NoDup_Permutation; auto using NoDup_row_pairs, NoDup_lag_pairs.
  intros [i j]. rewrite in_lag_pairs, in_row_pairs. reflexivity. Qed.
Lemma two_len_lag_aux n : forall k, k <= n - 1 ->
  2 * length (flat_map (fun lag => map (fun i => (i, i + lag)) (seq 1 (n - lag))) (seq 1 k)) = k * (2 * n - k - 1).
Proof. induction k; intros H; [reflexivity|]. rewrite seq_S, flat_map_app, app_length, Nat.mul_add_distr_l, IHk by lia.
  simpl flat_map. rewrite app_nil_r, map_length, seq_length.
  replace (2 * n - k - 1) with ((2 * n - 2 * k - 2) + (k + 1)) by lia.
  replace (2 * n - S k - 1) with ((2 * n - 2 * k - 2) + k) by lia.
  replace (n - (1 + k)) with (n - k - 1) by lia. nia. Qed.
Lemma two_len_lag n : 2 * length (lag_pairs n) = n * (n - 1).
Proof. unfold lag_pairs. rewrite two_len_lag_aux by lia. destruct n; [reflexivity|].
  replace (2 * S n - (S n - 1) - 1) with (S n) by lia. lia. Qed.
Lemma len_lag n : length (lag_pairs n) = n * (n - 1) / 2.
Proof. pose proof (two_len_lag n). apply (Nat.div_unique _ 2 _ 0); lia. Qed.

Lemma rd_seq m i : 1 <= i <= m -> rd (seq 1 m) i = Some i.
Proof. intros H. destruct i; [lia|]. simpl. rewrite nth_error_nth' with (d := 0) by (rewrite seq_length; lia).
  rewrite seq_nth by lia. auto. Qed.
Lemma get_map_seq (f : nat -> Qc) m i : 1 <= i <= m -> get (map f (seq 1 m)) i = f i.
Proof. intros H. apply get_rd. rewrite rd_map, rd_seq by auto. auto. Qed.
Lemma get_map (f : Qc -> Qc) l i : 1 <= i <= length l -> get (map f l) i = f (get l i).
Proof. intros H. apply get_rd. rewrite rd_map, rd_get by auto. auto. Qed.
Lemma map_get_seq l : map (get l) (seq 1 (length l)) = l.
Proof. apply rd_ext. rewrite map_length, seq_length; auto. rewrite map_length, seq_length. intros i Hi.
  rewrite rd_map, rd_seq, rd_get by auto. auto. Qed.
