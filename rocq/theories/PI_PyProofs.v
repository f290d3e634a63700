From Coq Require Import Reals List Arith Lia ZArith Bool Permutation Lra String.
From Verif Require SH_Proofs.
From Verif Require Import Base Buffer VH_Model VH_Proofs PI_Model PI_Model2 PI_Spec PI_Proofs1 PI_Proofs2 PI_Proofs3 PI_Proofs4 PI_Props2 PI_Py PI_PySpec.
Import ListNotations.
Local Open Scope nat_scope.

(** * Positions *)
Lemma mirror_at m n t k z : t < m -> k < n -> mirror m n (t + m * (k + n * z)) = t + m * (n - 1 - k + n * z).
Proof.
  intros Ht Hk. unfold mirror.
  assert (D : (t + m * (k + n * z)) / m = k + n * z).
  { rewrite Nat.mul_comm, Nat.div_add by lia. rewrite Nat.div_small by lia. lia. }
  assert (M : (t + m * (k + n * z)) mod m = t) by (rewrite Nat.mul_comm, Nat.mod_add by lia; apply Nat.mod_small; lia).
  rewrite D, M. rewrite (Nat.mul_comm n z), Nat.mod_add, Nat.div_add by lia. rewrite Nat.mod_small, Nat.div_small by lia. lia.
Qed.
Lemma split2 n q i : i < n * q -> exists k z, k < n /\ z < q /\ i = k + n * z.
Proof.
  intros H. assert (n <> 0) by (intros ->; lia). exists (i mod n), (i / n). split; [apply Nat.mod_upper_bound; auto|].
  split; [apply Nat.div_lt_upper_bound; auto|]. rewrite Nat.add_comm. apply Nat.div_mod; auto.
Qed.
Lemma flip_length {A} m n (X : list A) d : List.length (flip_list m n X d) = List.length X.
Proof. unfold flip_list. rewrite map_length, seq_length. auto. Qed.
Lemma flip_nth {A} m n (X : list A) d i : i < List.length X -> nth_error (flip_list m n X d) i = Some (nth (mirror m n i) X d).
Proof.
  intros H. unfold flip_list. rewrite nth_error_map, (nth_error_nth' _ 0) by (rewrite seq_length; auto). rewrite seq_nth by auto. reflexivity.
Qed.
Lemma box m n q t k z : t < m -> k < n -> z < q -> t + m * (k + n * z) < m * n * q.
Proof.
  intros. assert (k + n * z < n * q) by (assert (n * z + n <= n * q) by nia; lia).
  assert (m * (k + n * z) + m <= m * (n * q)) by nia. rewrite <- Nat.mul_assoc. lia.
Qed.
(** a list whose elements are those of X mirrored along the axis is the flip *)
Lemma flip_unique {A} m n q (X Y : list A) d : List.length X = m * n * q -> List.length Y = m * n * q ->
  (forall t k z, t < m -> k < n -> z < q -> nth_error Y (t + m * (k + n * z)) = nth_error X (t + m * (n - 1 - k + n * z))) ->
  Y = flip_list m n X d.
Proof.
  intros LX LY H. apply SH_Proofs.nth_error_ext_all. intros i. destruct (Nat.lt_ge_cases i (m * n * q)) as [I|I].
  - rewrite flip_nth by lia. rewrite <- Nat.mul_assoc in I. destruct (split2 m (n * q) i I) as (t & w & Ht & Hw & ->).
    destruct (split2 n q w Hw) as (k & z & Hk & Hz & ->). rewrite mirror_at by auto. rewrite H by auto.
    apply nth_error_nth'. rewrite LX. apply box; lia.
  - rewrite !(proj2 (nth_error_None _ _)); auto; rewrite ?flip_length; lia.
Qed.
Lemma flip_flip {A} m n q (X : list A) d : List.length X = m * n * q -> flip_list m n (flip_list m n X d) d = X.
Proof.
  intros L. symmetry. apply flip_unique with (q := q); rewrite ?flip_length; auto. intros t k z Ht Hk Hz.
  rewrite flip_nth by (rewrite L; apply box; lia). rewrite mirror_at by lia.
  replace (n - 1 - (n - 1 - k)) with k by lia. apply nth_error_nth'. rewrite L. apply box; auto.
Qed.
Lemma flip_at {A} m n q (X : list A) d t k z : List.length X = m * n * q -> t < m -> k < n -> z < q ->
  nth_error (flip_list m n X d) (t + m * (k + n * z)) = nth_error X (t + m * (n - 1 - k + n * z)).
Proof.
  intros L Ht Hk Hz. rewrite flip_nth by (rewrite L; apply box; lia). rewrite mirror_at by lia. symmetry. apply nth_error_nth'. rewrite L. apply box; lia.
Qed.
Lemma flip_map {A B} (f : A -> B) m n q X d e : List.length X = m * n * q -> map f (flip_list m n X d) = flip_list m n (map f X) e.
Proof.
  intros L. apply flip_unique with (q := q); rewrite ?map_length, ?flip_length; auto. intros t k z Ht Hk Hz.
  rewrite !nth_error_map. f_equal. apply flip_at with (q := q); auto.
Qed.
Lemma flip_In {A} m n q (X : list A) d x : List.length X = m * n * q -> In x (flip_list m n X d) -> In x X.
Proof.
  intros L I. apply In_nth_error in I. destruct I as [i I]. assert (B : i < m * n * q).
  { rewrite <- L. rewrite <- (flip_length m n X d). apply nth_error_Some. congruence. }
  rewrite <- Nat.mul_assoc in B. destruct (split2 m (n * q) i B) as (t & w & Ht & Hw & ->). destruct (split2 n q w Hw) as (k & z & Hk & Hz & ->).
  rewrite (flip_at m n q) in I by auto. eapply nth_error_In; eauto.
Qed.

(** * The pressure axis *)
(** elements per level step, and points beyond it *)
Definition below (s : list nat) : nat := match s with [t; _; _; _] => t | _ => 1 end.
Definition levels_of (s : list nat) : nat := match s with n :: nil => n | [n; _; _] => n | [_; n; _; _] => n | _ => 0 end.
Definition above (s : list nat) : nat := match s with [_; a; b] => a * b | [_; _; a; b] => a * b | _ => 1 end.
Definition good_dim (s : list nat) : Prop := List.length s = 1 \/ List.length s = 3 \/ List.length s = 4.
Lemma size_axis s : good_dim s -> size s = below s * levels_of s * above s.
Proof.
  unfold good_dim, size. destruct s as [|a [|b [|c [|d [|e s]]]]]; cbn; intros H; try lia.
Qed.
Lemma np_flip_axis {A} (d : A) (X : nd A) (T : nd A) : good_dim (sh T) -> sh X = sh T ->
  np_flip d X (pressure_axis T) = Ret (mknd (sh X) (flip_list (below (sh X)) (levels_of (sh X)) (dat X) d)).
Proof.
  intros G E. unfold np_flip, pressure_axis. rewrite E. unfold good_dim in G.
  destruct (sh T) as [|a [|b [|c [|e [|f s]]]]]; cbn in G; try lia; cbn; rewrite ?Nat.mul_1_r; auto.
Qed.
Lemma reversed_flip {A} (d : A) (X Y : nd A) : good_dim (sh X) -> levels_reversed X Y ->
  Y = mknd (sh X) (flip_list (below (sh X)) (levels_of (sh X)) (dat X) d).
Proof.
  intros G (WX & WY & S & H). destruct Y as [sY dY]. cbn [sh dat] in *. subst sY. f_equal.
  unfold wf in *. cbn [sh dat] in *. rewrite size_axis in WX, WY by auto.
  apply flip_unique with (q := above (sh X)); auto. intros t k z Ht Hk Hz. unfold elt in H. cbn [sh dat] in H.
  unfold good_dim in G. destruct (sh X) as [|a [|b [|c [|e [|f s]]]]]; cbn in G; try lia; cbn [below levels_of above] in *.
  - assert (t = 0) by lia. assert (z = 0) by lia. subst. specialize (H k Hk). cbn [offset] in H.
    replace (0 + 1 * (k + a * 0)) with (k + a * 0) by lia. replace (0 + 1 * (a - 1 - k + a * 0)) with (a - 1 - k + a * 0) by lia. auto.
  - assert (t = 0) by lia. subst t. destruct (split2 b c z) as (i & j & Hi & Hj & ->); auto. specialize (H k i j Hk Hi Hj). cbn [offset] in H.
    replace (0 + 1 * (k + a * (i + b * j))) with (k + a * (i + b * (j + c * 0))) by lia.
    replace (0 + 1 * (a - 1 - k + a * (i + b * j))) with (a - 1 - k + a * (i + b * (j + c * 0))) by lia. auto.
  - destruct (split2 c e z) as (i & j & Hi & Hj & ->); auto. specialize (H t k i j Ht Hk Hi Hj). cbn [offset] in H.
    replace (t + a * (k + b * (i + c * j))) with (t + a * (k + b * (i + c * (j + e * 0)))) by lia.
    replace (t + a * (b - 1 - k + b * (i + c * j))) with (t + a * (b - 1 - k + b * (i + c * (j + e * 0)))) by lia. auto.
Qed.

(** * Reversal *)
Definition flipped {A} (d : A) (X : nd A) : nd A := mknd (sh X) (flip_list (below (sh X)) (levels_of (sh X)) (dat X) d).
Lemma cleaned_flipped (X : nd (option R)) : good_dim (sh X) -> wf X -> cleaned (flipped None X) = flipped 0%R (cleaned X).
Proof.
  intros G W. unfold cleaned, flipped. cbn [sh dat]. f_equal. apply flip_map with (q := above (sh X)). rewrite W. apply size_axis. auto.
Qed.
Lemma flipped_flipped {A} (d : A) X : good_dim (sh X) -> wf X -> flipped d (flipped d X) = X.
Proof.
  intros G W. destruct X as [s l]. unfold flipped. cbn [sh dat] in *. f_equal. apply flip_flip with (q := above s). unfold wf in W. cbn in W. rewrite W. apply size_axis. auto.
Qed.
Lemma ordering_flipped (P : list R) (T r : nd R) : good_dim (sh T) -> sh r = sh T ->
  ensure_pressure_ordering P T r = if upside_down P then Ret (rev P, flipped 0%R T, flipped 0%R r) else Ret (P, T, r).
Proof.
  intros G S. unfold ensure_pressure_ordering. destruct (upside_down P); [|auto]. rewrite !np_flip_axis by auto. reflexivity.
Qed.
Definition ends (P : list R) (a b : R) : Prop := nth_error P 0 = Some a /\ nth_error P (List.length P - 1) = Some b.
Lemma ends_rev P a b : ends P a b -> ends (rev P) b a.
Proof.
  intros [A B]. unfold ends. rewrite rev_length. assert (L : 0 < List.length P) by (destruct P; [discriminate|cbn; lia]).
  assert (N : forall k, k < List.length P -> nth_error (rev P) k = nth_error P (List.length P - S k)).
  { intros k K. rewrite (nth_error_nth' (rev P) 0%R) by (rewrite rev_length; auto). rewrite rev_nth by auto. symmetry. apply nth_error_nth'. lia. }
  rewrite !N by lia. split; [exact B|]. replace (List.length P - S (List.length P - 1)) with 0 by lia. auto.
Qed.
Lemma upside_ends P a b : ends P a b -> a <> b -> upside_down P = rlt a b.
Proof.
  intros [A B] N. unfold upside_down. rewrite A, B. destruct P as [|x [|y P]]; [discriminate| |reflexivity]. cbn in A, B. congruence.
Qed.
Lemma ordering_reversed P T r a b : good_dim (sh T) -> wf T -> wf r -> sh r = sh T -> ends P a b -> a <> b ->
  ensure_pressure_ordering (rev P) (flipped 0%R T) (flipped 0%R r) = ensure_pressure_ordering P T r.
Proof.
  intros G WT Wr S E N. rewrite !ordering_flipped by auto. rewrite (upside_ends _ _ _ E N), (upside_ends _ _ _ (ends_rev _ _ _ E)) by auto.
  rewrite rev_involutive, !flipped_flipped by (auto; rewrite S; auto).
  destruct (rlt_spec a b), (rlt_spec b a); auto; lra.
Qed.
Lemma missing_flipped X : good_dim (sh X) -> wf X -> has_missing (dat (flipped None X)) = has_missing (dat X).
Proof.
  intros G W. unfold flipped, has_missing. cbn [dat]. unfold wf in W. rewrite size_axis in W by auto.
  apply eq_iff_eq_true. rewrite !existsb_exists. split; intros (x & I & M); exists x; split; auto.
  - eapply flip_In; eauto.
  - apply (flip_In (below (sh X)) (levels_of (sh X)) (above (sh X))) with (d := None); [rewrite flip_length; auto|].
    rewrite (flip_flip _ _ (above (sh X))); auto.
Qed.
Lemma existsb_rev {A} (f : A -> bool) l : existsb f (rev l) = existsb f l.
Proof. apply eq_iff_eq_true. rewrite !existsb_exists. split; intros (x & I & M); exists x; split; auto; [apply in_rev; auto|apply in_rev in I; auto]. Qed.
