(** N-dimensional arrays with numpy semantics for the operations that the
    wrappers use: transpose, rollaxis, reshape (C order), flip.  The definitions
    follow numpy's documented behaviour (numpy itself is not modelled). *)
From Verif Require Import Base Loops.
Local Close Scope Qc_scope.
Local Open Scope nat_scope.

Record nda (T : Type) := mk_nda { nd_shape : list nat; nd_elt : list nat -> T }.
Arguments mk_nda {T}. Arguments nd_shape {T}. Arguments nd_elt {T}.
Definition ndim {T} (a : nda T) : nat := length (nd_shape a).

(** Valid multi-indices and equality of arrays. *)
Definition valid (ix sh : list nat) : Prop := Forall2 lt ix sh.
Definition nd_eq {T} (a b : nda T) : Prop :=
  nd_shape a = nd_shape b /\ forall ix, valid ix (nd_shape a) -> nd_elt a ix = nd_elt b ix.

(** list.index / str.find (position of the first occurrence) *)
Fixpoint pos (d : nat) (l : list nat) : nat :=
  match l with [] => 0 | x :: l => if x =? d then 0 else S (pos d l) end.
(** list.remove on a list without duplicates *)
Definition rem (d : nat) (l : list nat) : list nat := filter (fun x => negb (x =? d)) l.
Definition nthn (l : list nat) (d : nat) : nat := nth d l 0.

(** np.transpose(a, axes): result axis k is axis axes[k] of a. *)
Definition transpose {T} (axes : list nat) (a : nda T) : nda T :=
  mk_nda (map (nthn (nd_shape a)) axes)
         (fun ix => nd_elt a (map (fun d => nthn ix (pos d axes)) (seq 0 (length axes)))).
(** np.rollaxis(a, axis) (start = 0). *)
Definition rollaxis {T} (a : nda T) (axis : nat) : nda T :=
  if axis =? 0 then a else transpose (axis :: rem axis (seq 0 (ndim a))) a.

(** Row-major numbering of multi-indices. *)
Definition prodn (sh : list nat) : nat := fold_right Nat.mul 1 sh.
Fixpoint ravel (sh ix : list nat) : nat :=
  match sh, ix with
  | s :: sh', i :: ix' => i * prodn sh' + ravel sh' ix'
  | _, _ => 0
  end.
Fixpoint unravel (sh : list nat) (k : nat) : list nat :=
  match sh with
  | [] => []
  | s :: sh' => k / prodn sh' :: unravel sh' (k mod prodn sh')
  end.
(** a.reshape(sh) *)
Definition reshape {T} (sh : list nat) (a : nda T) : nda T :=
  mk_nda sh (fun ix => nd_elt a (unravel (nd_shape a) (ravel sh ix))).
(** np.flip(a, axis) *)
Definition set_nth (k v : nat) (l : list nat) : list nat := firstn k l ++ v :: skipn (S k) l.
Definition flip {T} (axis : nat) (a : nda T) : nda T :=
  mk_nda (nd_shape a)
         (fun ix => nd_elt a (set_nth axis (nthn (nd_shape a) axis - 1 - nthn ix axis) ix)).

(** ** Positions and permutations *)
Lemma pos_lt d l : In d l -> pos d l < length l.
Proof. induction l as [|x l IH]; simpl; [intros []|]. intros H. destruct (Nat.eqb_spec x d); [lia|]. destruct H; [congruence|]. specialize (IH H). lia. Qed.
Lemma nth_pos d l : In d l -> nthn l (pos d l) = d.
Proof. induction l as [|x l IH]; simpl; [intros []|]. intros H. unfold nthn in *. destruct (Nat.eqb_spec x d); [auto|]. destruct H; [congruence|]. auto. Qed.
Lemma pos_nth l k : NoDup l -> k < length l -> pos (nthn l k) l = k.
Proof.
  revert k. induction l as [|x l IH]; simpl; [lia|]. intros k H Hk. inversion H; subst. unfold nthn in *. destruct k; simpl.
  - rewrite Nat.eqb_refl. reflexivity.
  - destruct (Nat.eqb_spec x (nth k l 0)) as [E|E].
    + exfalso. apply H2. rewrite E. apply nth_In. lia.
    + f_equal. apply IH; auto. lia.
Qed.
Lemma pos_inj l a b : In a l -> In b l -> pos a l = pos b l -> a = b.
Proof. intros Ha Hb E. rewrite <- (nth_pos a l Ha), <- (nth_pos b l Hb), E. reflexivity. Qed.
Lemma pos_seq n d k : k <= d < k + n -> pos d (seq k n) = d - k.
Proof.
  revert k. induction n; intros k H; [lia|]. simpl. destruct (Nat.eqb_spec k d); [lia|].
  rewrite IHn by lia. lia.
Qed.
Lemma pos_map_inj (f : nat -> nat) l d : (forall a b, In a (d :: l) -> In b (d :: l) -> f a = f b -> a = b) -> pos (f d) (map f l) = pos d l.
Proof.
  induction l as [|x l IH]; simpl; intros H; auto.
  destruct (Nat.eqb_spec x d) as [->|N].
  - rewrite Nat.eqb_refl. reflexivity.
  - destruct (Nat.eqb_spec (f x) (f d)) as [E|E].
    + exfalso. apply N. apply H; auto.
    + f_equal. apply IH. intros a b [Ha|Ha] [Hb|Hb]; apply H; simpl; auto.
Qed.
Lemma rem_notin d l : ~ In d l -> rem d l = l.
Proof. induction l as [|x l IH]; simpl; auto. intros H. destruct (Nat.eqb_spec x d); simpl; [subst; tauto|]. f_equal. apply IH. tauto. Qed.
Lemma in_rem d x l : In x (rem d l) <-> In x l /\ x <> d.
Proof. unfold rem. rewrite filter_In. destruct (Nat.eqb_spec x d); simpl; intuition (congruence || discriminate). Qed.
Lemma NoDup_rem d l : NoDup l -> NoDup (rem d l).
Proof. apply NoDup_filter. Qed.
Lemma rem_length d l : NoDup l -> In d l -> length (rem d l) = length l - 1.
Proof.
  induction l as [|x l IH]; simpl; [intros _ []|]. intros H I. inversion H; subst.
  destruct (Nat.eqb_spec x d) as [->|N]; simpl.
  - fold (rem d l). rewrite rem_notin by auto. lia.
  - fold (rem d l). destruct I; [congruence|]. rewrite IH by auto. destruct l; [simpl in *; tauto|simpl; lia].
Qed.
Lemma rem_comm a b l : rem a (rem b l) = rem b (rem a l).
Proof. unfold rem. induction l as [|x l IH]; simpl; auto. destruct (Nat.eqb_spec x b), (Nat.eqb_spec x a); simpl; auto;
  try (destruct (Nat.eqb_spec x b); simpl; [|congruence]; auto); try (destruct (Nat.eqb_spec x a); simpl; [|congruence]; auto); try (f_equal; auto); try congruence;
  destruct (Nat.eqb_spec x b), (Nat.eqb_spec x a); simpl; try congruence; f_equal; auto. Qed.
Lemma map_rem_inj (f : nat -> nat) d l :
  (forall a b, In a (d :: l) -> In b (d :: l) -> f a = f b -> a = b) -> map f (rem d l) = rem (f d) (map f l).
Proof.
  induction l as [|x l IH]; simpl; auto. intros H.
  assert (IHl : map f (rem d l) = rem (f d) (map f l)).
  { apply IH. intros a b [Ha|Ha] [Hb|Hb]; apply H; simpl; auto. }
  destruct (Nat.eqb_spec x d) as [->|N]; cbn [negb].
  - rewrite Nat.eqb_refl. exact IHl.
  - destruct (Nat.eqb_spec (f x) (f d)) as [E|E]; cbn [negb map].
    + exfalso. apply N, H; auto.
    + f_equal. exact IHl.
Qed.
(** Position after moving d to the front. *)
Lemma pos_roll e d l : In d l -> In e l -> e <> d -> NoDup l ->
  pos e (d :: rem d l) = if pos e l <? pos d l then pos e l + 1 else pos e l.
Proof.
  intros Hd He N ND. cbn [pos]. destruct (Nat.eqb_spec d e) as [->|_]; [congruence|].
  assert (G : forall l, NoDup l -> In e l -> pos e (rem d l) = if pos d l <? pos e l then pos e l - 1 else pos e l).
  { clear - N. induction l as [|x l IH]; intros ND; [intros []|]. inversion ND; subst. cbn [rem filter pos].
    intros I. destruct (Nat.eqb_spec x d) as [->|Nd]; cbn [negb].
    - destruct (Nat.eqb_spec d e) as [->|_]; [congruence|]. fold (rem d l). rewrite rem_notin by auto.
      destruct (Nat.ltb_spec 0 (S (pos e l))); lia.
    - cbn [pos]. fold (rem d l). destruct (Nat.eqb_spec x e) as [->|Ne].
      + destruct (Nat.ltb_spec (S (pos d l)) 0); lia.
      + destruct I as [->|I]; [congruence|]. rewrite (IH H2 I).
        destruct (Nat.ltb_spec (pos d l) (pos e l)), (Nat.ltb_spec (S (pos d l)) (S (pos e l))); lia. }
  rewrite (G l ND He).
  assert (pos d l <> pos e l) by (intros E; apply N; symmetry; apply (pos_inj l); auto).
  destruct (Nat.ltb_spec (pos d l) (pos e l)), (Nat.ltb_spec (pos e l) (pos d l)); lia.
Qed.

Definition is_perm (l : list nat) (n : nat) : Prop := NoDup l /\ length l = n /\ forall d, In d l <-> d < n.
Lemma is_perm_seq n : is_perm (seq 0 n) n.
Proof. split; [apply seq_NoDup|]. split; [apply seq_length|]. intros d. rewrite in_seq. lia. Qed.
Lemma is_perm_roll d l n : is_perm l n -> d < n -> is_perm (d :: rem d l) n.
Proof.
  intros (H1 & H2 & H3) Hd. assert (In d l) by (apply H3; auto). split; [|split].
  - constructor; [rewrite in_rem; tauto|apply NoDup_rem; auto].
  - simpl. rewrite rem_length by auto. destruct l; simpl in *; [tauto|lia].
  - intros e. simpl. rewrite in_rem, H3. destruct (Nat.eq_dec e d); [subst; intuition|]. intuition congruence.
Qed.
Lemma is_perm_nth l n k : is_perm l n -> k < n -> nthn l k < n.
Proof. intros (H1 & H2 & H3) Hk. apply H3. unfold nthn. apply nth_In. lia. Qed.
Lemma is_perm_comp p q n : is_perm p n -> is_perm q n -> is_perm (map (nthn q) p) n.
Proof.
  intros (P1 & P2 & P3) (Q1 & Q2 & Q3). split; [|split].
  - apply NoDup_map_inj; auto. intros a b Ha Hb E. apply P3 in Ha, Hb. unfold nthn in E.
    apply (proj1 (NoDup_nth q 0) Q1); lia.
  - rewrite map_length. auto.
  - intros d. rewrite in_map_iff. split.
    + intros (x & <- & Hx). apply P3 in Hx. apply Q3. apply nth_In. lia.
    + intros Hd. exists (pos d q). assert (In d q) by (apply Q3; auto). split; [apply nth_pos; auto|].
      apply P3. rewrite <- Q2. apply pos_lt; auto.
Qed.

(** ** Transposes compose *)
Lemma nthn_map_seq (f : nat -> nat) n k : k < n -> nthn (map f (seq 0 n)) k = f k.
Proof.
  intros H. unfold nthn. rewrite nth_indep with (d' := f 0) by (rewrite map_length, seq_length; auto).
  rewrite map_nth, seq_nth by auto. reflexivity.
Qed.
Lemma transpose_transpose T (a : nda T) p q :
  is_perm p (ndim a) -> is_perm q (ndim a) ->
  nd_shape (transpose p (transpose q a)) = nd_shape (transpose (map (nthn q) p) a) /\
  forall ix, nd_elt (transpose p (transpose q a)) ix = nd_elt (transpose (map (nthn q) p) a) ix.
Proof.
  intros Hp Hq. destruct (Hp) as (P1 & P2 & P3). destruct (Hq) as (Q1 & Q2 & Q3). split.
  - cbn [transpose nd_shape]. rewrite map_map. apply map_ext_in. intros d Hd. apply P3 in Hd.
    unfold nthn at 1. rewrite nth_indep with (d' := nthn (nd_shape a) 0) by (rewrite map_length; lia).
    rewrite map_nth. reflexivity.
  - intros ix. cbn [transpose nd_elt]. f_equal. rewrite map_length, P2, Q2. apply map_ext_in.
    intros d Hd. apply in_seq in Hd.
    assert (Id : In d q) by (apply Q3; lia).
    assert (Lp : pos d q < ndim a) by (rewrite <- Q2; apply pos_lt; auto).
    rewrite nthn_map_seq by auto. f_equal.
    rewrite <- (nth_pos d q Id) at 2. symmetry. apply pos_map_inj.
    intros x y Hx Hy E. simpl in Hx, Hy.
    assert (Lx : x < ndim a) by (destruct Hx as [<-|Hx]; [auto|apply P3; auto]).
    assert (Ly : y < ndim a) by (destruct Hy as [<-|Hy]; [auto|apply P3; auto]).
    unfold nthn in E. apply (proj1 (NoDup_nth q 0) Q1); lia.
Qed.
Lemma valid_length ix sh : valid ix sh -> length ix = length sh.
Proof. induction 1; simpl; auto. Qed.
Lemma map_nth_seq_id l : map (fun d => nthn l d) (seq 0 (length l)) = l.
Proof.
  induction l as [|x l IH]; simpl; auto. f_equal. rewrite <- seq_shift, map_map. exact IH.
Qed.
Lemma transpose_id T (a : nda T) :
  nd_shape (transpose (seq 0 (ndim a)) a) = nd_shape a /\
  forall ix, length ix = ndim a -> nd_elt (transpose (seq 0 (ndim a)) a) ix = nd_elt a ix.
Proof.
  split.
  - cbn [transpose nd_shape]. unfold ndim. apply map_nth_seq_id.
  - intros ix H. cbn [transpose nd_elt]. f_equal. rewrite seq_length.
    transitivity (map (nthn ix) (seq 0 (length ix))); [|apply map_nth_seq_id].
    rewrite H. apply map_ext_in. intros d Hd. apply in_seq in Hd. rewrite pos_seq by lia. f_equal. lia.
Qed.
Lemma nd_eq_refl T (a : nda T) : nd_eq a a.
Proof. split; auto. Qed.
Lemma nd_eq_trans T (a b c : nda T) : nd_eq a b -> nd_eq b c -> nd_eq a c.
Proof. intros [E1 H1] [E2 H2]. split; [congruence|]. intros ix V. rewrite H1 by auto. apply H2. rewrite <- E1. auto. Qed.

(** Arrays seen as a transposed original, up to index lists of the right length. *)
Definition is_view {T} (lab : list nat) (x a : nda T) : Prop :=
  nd_shape a = nd_shape (transpose lab x) /\
  forall ix, length ix = ndim x -> nd_elt a ix = nd_elt (transpose lab x) ix.
Lemma view_start T (x : nda T) : is_view (seq 0 (ndim x)) x x.
Proof. destruct (transpose_id T x) as [H1 H2]. split; [auto|]. intros ix H. symmetry. auto. Qed.
Lemma view_end T (x a : nda T) : is_view (seq 0 (ndim x)) x a -> nd_eq a x.
Proof.
  intros [H1 H2]. destruct (transpose_id T x) as [E1 E2]. split; [congruence|].
  intros ix V. assert (L : length ix = ndim x) by (apply valid_length in V; rewrite V, H1, E1; reflexivity).
  rewrite H2, E2 by auto. reflexivity.
Qed.
Lemma view_ndim T (lab : list nat) (x a : nda T) : is_perm lab (ndim x) -> is_view lab x a -> ndim a = ndim x.
Proof. intros (_ & L & _) [H _]. unfold ndim at 1. rewrite H. cbn [transpose nd_shape]. rewrite map_length. auto. Qed.
Lemma view_transpose T (lab p : list nat) (x a : nda T) :
  is_perm lab (ndim x) -> is_perm p (ndim x) -> is_view lab x a -> is_view (map (nthn lab) p) x (transpose p a).
Proof.
  intros Hl Hp [H1 H2]. destruct (transpose_transpose T x p lab Hp Hl) as [E1 E2].
  destruct (Hl) as (L1 & L2 & L3). destruct (Hp) as (P1 & P2 & P3). split.
  - rewrite <- E1. cbn [transpose nd_shape]. rewrite H1. reflexivity.
  - intros ix L. rewrite <- E2. cbn [transpose nd_elt]. rewrite H2 by (rewrite map_length, seq_length; auto). reflexivity.
Qed.
Lemma view_rollaxis T (lab : list nat) (x a : nda T) d :
  is_perm lab (ndim x) -> is_view lab x a -> In d lab -> is_view (d :: rem d lab) x (rollaxis a (pos d lab)).
Proof.
  intros Hl Hv Hd. destruct (Hl) as (L1 & L2 & L3).
  assert (N : ndim a = ndim x) by (apply (view_ndim _ lab); auto).
  unfold rollaxis. destruct (Nat.eqb_spec (pos d lab) 0) as [Z|Z].
  - assert (E : d :: rem d lab = lab).
    { destruct lab as [|e lab]; [destruct Hd|]. simpl in Z. destruct (Nat.eqb_spec e d) as [->|]; [|discriminate].
      simpl. rewrite Nat.eqb_refl. simpl. f_equal. inversion L1; subst. apply rem_notin; auto. }
    rewrite E. exact Hv.
  - rewrite N.
    assert (P : is_perm (pos d lab :: rem (pos d lab) (seq 0 (ndim x))) (ndim x)).
    { apply is_perm_roll; [apply is_perm_seq|]. rewrite <- L2. apply pos_lt; auto. }
    assert (E : d :: rem d lab = map (nthn lab) (pos d lab :: rem (pos d lab) (seq 0 (ndim x)))).
    { cbn [map]. rewrite nth_pos by auto. f_equal.
      rewrite map_rem_inj.
      - rewrite nth_pos by auto. f_equal. rewrite <- L2. symmetry. apply map_nth_seq_id.
      - intros u v Hu Hv' E. simpl in Hu, Hv'. rewrite in_seq in *. pose proof (pos_lt d lab Hd).
        unfold nthn in E. apply (proj1 (NoDup_nth lab 0) L1); lia. }
    rewrite E. apply view_transpose; auto.
Qed.

(** ** Row-major numbering *)
Lemma ravel_lt sh ix : valid ix sh -> ravel sh ix < prodn sh.
Proof.
  induction 1 as [|i s ix sh Hi V IH]; simpl; [lia|]. fold (prodn sh).
  assert (i * prodn sh + prodn sh <= s * prodn sh) by (rewrite <- Nat.mul_succ_l; apply Nat.mul_le_mono_r; lia). lia.
Qed.
Lemma unravel_ravel sh ix : valid ix sh -> unravel sh (ravel sh ix) = ix.
Proof.
  induction 1 as [|i s ix sh Hi V IH]; simpl; auto. pose proof (ravel_lt sh ix V) as L.
  rewrite Nat.div_add_l by lia. rewrite Nat.div_small by auto. rewrite Nat.add_0_r. f_equal.
  rewrite Nat.add_comm, Nat.mod_add by lia. rewrite Nat.mod_small by auto. exact IH.
Qed.
Lemma valid_unravel sh k : k < prodn sh -> valid (unravel sh k) sh.
Proof.
  revert k. induction sh as [|s sh IH]; intros k H; simpl in *; constructor.
  - apply Nat.div_lt_upper_bound; [intros E; fold (prodn sh) in H; rewrite E in H; lia|]. fold (prodn sh) in H. lia.
  - apply IH. apply Nat.mod_upper_bound. intros E. fold (prodn sh) in H. rewrite E in H. lia.
Qed.
Lemma ravel_unravel sh k : k < prodn sh -> ravel sh (unravel sh k) = k.
Proof.
  revert k. induction sh as [|s sh IH]; intros k H; simpl in *; [lia|]. fold (prodn sh) in *.
  assert (prodn sh <> 0) by (intros E; rewrite E in H; lia).
  rewrite IH by (apply Nat.mod_upper_bound; auto). rewrite Nat.mul_comm. symmetry. apply Nat.div_mod. auto.
Qed.
Lemma reshape_reshape T sh (a : nda T) :
  prodn sh = prodn (nd_shape a) -> nd_eq (reshape (nd_shape a) (reshape sh a)) a.
Proof.
  intros H. split; [reflexivity|]. cbn [reshape nd_elt nd_shape]. intros ix V.
  rewrite ravel_unravel by (rewrite H; apply ravel_lt; auto). rewrite unravel_ravel by auto. reflexivity.
Qed.
