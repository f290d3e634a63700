From Verif Require Import Base Buffer Loops VH_Model VH_Proofs VH_Proofs4 LM_Model TG_Model RC_Model RC_Spec.
Local Open Scope nat_scope.

(** * lists and searches *)
Lemma in_rng lo hi i : In i (rng lo hi) <-> lo <= i <= hi.
Proof. unfold rng. rewrite in_seq. lia. Qed.
Lemma at2_in (A : Type) n1 n2 (a : nat -> nat -> A) ix iy : 1 <= ix <= n1 -> 1 <= iy <= n2 -> at2 n1 n2 a ix iy = Some (a ix iy).
Proof. intros H1 H2. unfold at2. rewrite !(proj2 (Nat.leb_le _ _)) by lia. auto. Qed.
Lemma at3_in (A : Type) n1 n2 n3 (a : nat -> nat -> nat -> A) ix iy ng : 1 <= ix <= n1 -> 1 <= iy <= n2 -> 1 <= ng <= n3 ->
  at3 n1 n2 n3 a ix iy ng = Some (a ix iy ng).
Proof. intros H1 H2 H3. unfold at3. rewrite !(proj2 (Nat.leb_le _ _)) by lia. auto. Qed.
Lemma mapM_rd (A B : Type) (f : A -> option B) l r i b : mapM f l = Some r -> rd r i = Some b -> exists a, rd l i = Some a /\ f a = Some b.
Proof.
  intros H R. destruct i; [discriminate|]. cbn [rd] in *. eapply mapM_nth_inv; eauto.
Qed.
Lemma mapM_seq_rd (B : Type) (f : nat -> option B) n r i : mapM f (seq 1 n) = Some r -> 1 <= i <= n -> exists b, rd r i = Some b /\ f i = Some b.
Proof.
  intros H I. pose proof (mapM_length _ _ _ _ _ H) as L. rewrite seq_length in L.
  destruct (rd_Some r (i := i)) as [b E]; [lia|]. exists b. split; auto.
  destruct (mapM_rd _ _ _ _ _ _ _ H E) as (a & A & F). rewrite rd_seq in A by lia. inversion A; subst. auto.
Qed.
Lemma mapM_total (A B : Type) (f : A -> option B) (R : B -> Prop) l : (forall x, In x l -> exists y, f x = Some y /\ R y) ->
  exists r, mapM f l = Some r /\ length r = length l /\ Forall R r.
Proof.
  induction l as [|x l IH]; intros H; cbn [mapM bind].
  - exists []. auto.
  - destruct (H x (or_introl eq_refl)) as (y & E & Ry). destruct IH as (r & E' & L & F). { intros z Z. apply H. right. auto. }
    rewrite E. cbn [bind]. rewrite E'. cbn [bind]. exists (y :: r). repeat split; auto. cbn. lia.
Qed.
Lemma mapM_seq_total (B : Type) (f : nat -> option B) n (R : nat -> B -> Prop) : (forall i, 1 <= i <= n -> exists y, f i = Some y /\ R i y) ->
  exists r, mapM f (seq 1 n) = Some r /\ length r = n /\ forall i b, rd r i = Some b -> R i b.
Proof.
  intros H. destruct (mapM_some _ _ f (seq 1 n)) as [r E].
  { intros x X. apply in_seq in X. destruct (H x) as (y & Y & _); [lia|]. eauto. }
  exists r. split; auto. pose proof (mapM_length _ _ _ _ _ E) as L. rewrite seq_length in L. split; auto.
  intros i b Hb. pose proof (rd_Some_bounds _ _ Hb). destruct (mapM_seq_rd _ _ _ _ i E) as (b' & B1 & B2); [lia|].
  destruct (H i) as (y & Y & Ry); [lia|]. congruence.
Qed.

Lemma first_in_find test p l : (forall i, In i l -> test i = Some (p i)) -> first_in test l = Some (find p l).
Proof.
  induction l as [|i l IH]; intros H; cbn [first_in find]; auto.
  rewrite (H i) by (left; auto). cbn [bind]. destruct (p i); auto. apply IH. intros j J. apply H. right. auto.
Qed.
(** the pair search as a pure function *)
Fixpoint find2 (p : nat -> nat -> bool) (ixs iys : list nat) : option (nat * nat) :=
  match iys with
  | [] => None
  | iy :: r => match find (fun ix => p ix iy) ixs with Some ix => Some (ix, iy) | None => find2 p ixs r end
  end.
Lemma first_in2_find test p ixs iys : (forall ix iy, In ix ixs -> In iy iys -> test ix iy = Some (p ix iy)) ->
  first_in2 test ixs iys = Some (find2 p ixs iys).
Proof.
  induction iys as [|iy r IH]; intros H; cbn [first_in2 find2]; auto.
  rewrite (first_in_find (fun ix => test ix iy) (fun ix => p ix iy)) by (intros; apply H; auto; left; auto).
  cbn [bind]. destruct (find _ ixs); auto. apply IH. intros. apply H; auto. right; auto.
Qed.
Lemma find_seq_first p : forall n lo i, find p (seq lo n) = Some i -> p i = true /\ lo <= i < lo + n /\ forall j, lo <= j < i -> p j = false.
Proof.
  induction n as [|n IH]; intros lo i; cbn [seq find]; [discriminate|]. destruct (p lo) eqn:E.
  - intros H. inversion H; subst. repeat split; auto; try lia.
  - intros H. apply IH in H as (A & B & C). repeat split; auto; try lia. intros j J.
    destruct (Nat.eq_dec j lo) as [->|]; auto. apply C. lia.
Qed.
Lemma find_none_in (p : nat -> bool) l : find p l = None -> forall i, In i l -> p i = false.
Proof. intros H i I. apply (find_none p l H i I). Qed.
Lemma find2_none p ixs iys : find2 p ixs iys = None -> forall ix iy, In ix ixs -> In iy iys -> p ix iy = false.
Proof.
  induction iys as [|a r IH]; cbn [find2]; intros H ix iy X Y; [destruct Y|].
  destruct (find _ ixs) eqn:E; [discriminate|]. destruct Y as [->|Y]; auto. apply (find_none_in _ _ E ix X).
Qed.
Lemma find2_first p lox hix : forall n loy ix iy, find2 p (rng lox hix) (seq loy n) = Some (ix, iy) ->
  lox <= ix <= hix /\ loy <= iy < loy + n /\ p ix iy = true /\
  forall jx jy, lox <= jx <= hix -> loy <= jy < loy + n -> p jx jy = true -> iy < jy \/ (iy = jy /\ ix <= jx).
Proof.
  induction n as [|n IH]; intros loy ix iy; cbn [seq find2]; [discriminate|].
  destruct (find (fun ix0 => p ix0 loy) (rng lox hix)) as [jx|] eqn:E.
  - intros H. inversion H; subst. unfold rng in E. apply find_seq_first in E as (A & B & C).
    repeat split; auto; try lia. intros kx ky K1 K2 K. destruct (Nat.eq_dec ky iy) as [->|]; [right|left; lia].
    split; auto. destruct (Nat.le_gt_cases ix kx); auto. rewrite C in K by lia. discriminate.
  - intros H. apply IH in H as (A & B & C & D). repeat split; auto; try lia.
    intros kx ky K1 K2 K. destruct (Nat.eq_dec ky loy) as [->|]; [|apply D; auto; lia].
    pose proof (find_none_in _ _ E kx) as X. cbn in X. rewrite X in K by (apply in_rng; auto). discriminate.
Qed.
(** the scan of the whole grid is the first pair *)
Lemma find2_full p (P : nat -> nat -> Prop) nx ny : (forall ix iy, 1 <= ix <= nx -> 1 <= iy <= ny -> p ix iy = true <-> P ix iy) ->
  first_pair P nx ny (find2 p (rng 1 nx) (rng 1 ny)).
Proof.
  intros H. destruct (find2 p (rng 1 nx) (rng 1 ny)) as [[ix iy]|] eqn:E; cbn [first_pair].
  - unfold rng at 2 in E. apply find2_first in E as (A & B & C & D). repeat split; try lia.
    + apply H; auto; lia.
    + intros jx jy J1 J2 J. apply D; auto; try lia. apply H; auto.
  - intros jx jy J1 J2 J. apply H in J; auto. rewrite (find2_none _ _ _ E jx jy) in J; [discriminate| |]; apply in_rng; auto.
Qed.
Lemma find2_some p lx hx ly hy h : find2 p (rng lx hx) (rng ly hy) = Some h -> lx <= fst h <= hx /\ ly <= snd h <= hy /\ p (fst h) (snd h) = true.
Proof. destruct h as [ix iy]. intros H. unfold rng at 2 in H. apply find2_first in H as (A & B & C & _). cbn. repeat split; auto; lia. Qed.
Lemma first_pair_unique P nx ny h h' : first_pair P nx ny h -> first_pair P nx ny h' -> h = h'.
Proof.
  destruct h as [[a b]|], h' as [[c d]|]; cbn; auto.
  - intros (A & B & C & D) (A' & B' & C' & D'). pose proof (D _ _ A' B' C'). pose proof (D' _ _ A B C). f_equal. f_equal; lia.
  - intros (A & B & C & D) H. exfalso. apply (H a b); auto.
  - intros H (A & B & C & D). exfalso. apply (H c d); auto.
Qed.
Lemma first_pair_ext P Q nx ny h : (forall ix iy, 1 <= ix <= nx -> 1 <= iy <= ny -> P ix iy <-> Q ix iy) -> first_pair P nx ny h -> first_pair Q nx ny h.
Proof.
  intros E. destruct h as [[a b]|]; cbn.
  - intros (A & B & C & D). repeat split; try lia. { apply E; auto. } intros jx jy J1 J2 J. apply D; auto. apply E; auto.
  - intros H jx jy J1 J2 J. apply (H jx jy); auto. apply E; auto.
Qed.
(** a window search on a product test finds the first pair when, on each axis,
    every success has a success at or before it inside the window *)
Lemma find2_window p px py nx ny lx hx ly hy :
  (forall ix iy, 1 <= ix <= nx -> 1 <= iy <= ny -> p ix iy = px ix && py iy) ->
  1 <= lx -> hx <= nx -> 1 <= ly -> hy <= ny ->
  (forall i, 1 <= i <= nx -> px i = true -> exists j, lx <= j <= hx /\ j <= i /\ px j = true) ->
  (forall i, 1 <= i <= ny -> py i = true -> exists j, ly <= j <= hy /\ j <= i /\ py j = true) ->
  first_pair (fun ix iy => p ix iy = true) nx ny (find2 p (rng lx hx) (rng ly hy)).
Proof.
  intros Hp L1 H1 L2 H2 WX WY. destruct (find2 p (rng lx hx) (rng ly hy)) as [[ix iy]|] eqn:E; cbn [first_pair].
  - unfold rng at 2 in E. apply find2_first in E as (A & B & C & D). repeat split; try lia; auto.
    intros jx jy J1 J2 J. rewrite Hp in J by auto. apply andb_prop in J as [JX JY].
    destruct (WX jx J1 JX) as (kx & K1 & K2 & K3). destruct (WY jy J2 JY) as (ky & K4 & K5 & K6).
    assert (K : p kx ky = true) by (rewrite Hp by lia; rewrite K3, K6; auto).
    apply D in K; lia.
  - intros jx jy J1 J2 J. rewrite Hp in J by auto. apply andb_prop in J as [JX JY].
    destruct (WX jx J1 JX) as (kx & K1 & K2 & K3). destruct (WY jy J2 JY) as (ky & K4 & K5 & K6).
    assert (K : p kx ky = true) by (rewrite Hp by lia; rewrite K3, K6; auto).
    rewrite (find2_none _ _ _ E kx ky) in K; [discriminate| |]; apply in_rng; auto.
Qed.

(** * brackets *)
Lemma increasing_ascending x : is_strictly_increasing x = true <-> ascending x.
Proof.
  split.
  - induction x as [|a x IH]; intros H i j u v L Hu Hv. { destruct i; cbn in Hu; [discriminate|]. destruct i; discriminate. }
    assert (A : is_strictly_increasing x = true /\ forall b, rd x 1 = Some b -> (a < b)%Qc).
    { destruct x as [|b x]; [split; auto; intros ? X; discriminate|]. cbn [is_strictly_increasing] in H.
      destruct (Qcleb_spec b a) as [C|C]; [discriminate|]. split; auto. cbn. intros c X. inversion X; subst. qclra. }
    destruct A as [A B]. specialize (IH A). destruct i as [|i]; [discriminate|]. destruct j as [|j]; [discriminate|].
    cbn [rd] in *. destruct j as [|j]; [lia|]. cbn [nth_error] in Hv. destruct i as [|i].
    + cbn in Hu. inversion Hu; subst. destruct (rd_Some x (i := 1)) as [b Eb].
      { assert (nth_error x j <> None) by congruence. apply nth_error_Some in H0. lia. }
      pose proof (B b Eb). destruct j as [|j]; [cbn in Eb, Hv; assert (b = v) by congruence; subst; auto|].
      assert ((b < v)%Qc) by (apply (IH 1 (S (S j)) b v); auto; lia). qclra.
    + cbn [nth_error] in Hu. apply (IH (S i) (S j) u v); auto; lia.
  - induction x as [|a x IH]; intros H; auto. destruct x as [|b x]; auto. cbn [is_strictly_increasing].
    destruct (Qcleb_spec b a) as [C|C].
    + exfalso. assert ((a < b)%Qc) by (apply (H 1 2 a b); auto). qclra.
    + apply IH. intros i j u v L Hu Hv. destruct i as [|i]; [discriminate|]. destruct j as [|j]; [discriminate|].
      apply (H (S (S i)) (S (S j)) u v); auto; lia.
Qed.
Lemma asc_le x i j a b : ascending x -> i <= j -> rd x i = Some a -> rd x j = Some b -> (a <= b)%Qc.
Proof. intros A L Ha Hb. destruct (Nat.eq_dec i j) as [->|N]. { assert (a = b) by congruence. subst. qclra. } pose proof (A i j a b ltac:(lia) Ha Hb). qclra. Qed.

Lemma bracket_loop_ok x v : forall fuel lo hi a b, 1 <= lo -> lo < hi -> hi - lo <= fuel -> hi <= length x -> rd x lo = Some a -> rd x hi = Some b -> (a <= v)%Qc -> (v < b)%Qc ->
  exists i a' b', bracket_loop fuel x v lo hi = Some i /\ lo <= i < hi /\ rd x i = Some a' /\ rd x (i + 1) = Some b' /\ (a' <= v)%Qc /\ (v < b')%Qc.
Proof.
  induction fuel as [|fuel IH]; intros lo hi a b L1 L2 L3 L4 Ha Hb Va Vb; [lia|]. cbn [bracket_loop].
  destruct (Nat.ltb_spec 1 (hi - lo)) as [C|C].
  - assert (M : lo < (lo + hi) / 2 < hi). { split. apply Nat.div_le_lower_bound; lia. apply Nat.div_lt_upper_bound; lia. }
    destruct (rd_Some x (i := (lo + hi) / 2)) as [c Ec]; [lia|]. rewrite Ec. cbn [bind]. destruct (Qcleb_spec c v) as [D|D].
    + destruct (IH ((lo + hi) / 2) hi c b) as (i & a' & b' & E & I & R); auto; try lia. exists i, a', b'. repeat split; try apply R; auto; lia.
    + destruct (IH lo ((lo + hi) / 2) a c) as (i & a' & b' & E & I & R); auto; try lia. { qclra. } exists i, a', b'. repeat split; try apply R; auto; lia.
  - exists lo, a, b. replace (lo + 1) with hi by lia. repeat split; auto; lia.
Qed.
(** without any order, the bracket is a valid index *)
Lemma bracket_loop_range x v : forall fuel lo hi, 1 <= lo -> lo < hi -> hi - lo <= fuel -> hi <= length x ->
  exists i, bracket_loop fuel x v lo hi = Some i /\ lo <= i < hi.
Proof.
  induction fuel as [|fuel IH]; intros lo hi L1 L2 L3 L4; [lia|]. cbn [bracket_loop].
  destruct (Nat.ltb_spec 1 (hi - lo)) as [C|C]; [|exists lo; split; auto; lia].
  assert (M : lo < (lo + hi) / 2 < hi). { split. apply Nat.div_le_lower_bound; lia. apply Nat.div_lt_upper_bound; lia. }
  destruct (rd_Some x (i := (lo + hi) / 2)) as [c Ec]; [lia|]. rewrite Ec. cbn [bind]. destruct (Qcleb c v).
  - destruct (IH ((lo + hi) / 2) hi) as (i & E & I); try lia. exists i. split; auto; lia.
  - destruct (IH lo ((lo + hi) / 2)) as (i & E & I); try lia. exists i. split; auto; lia.
Qed.
Lemma lower_bracket_range x v : 2 <= length x -> exists i, lower_bracket_increasing x v = Some i /\ 1 <= i < length x.
Proof.
  intros L. unfold lower_bracket_increasing. destruct (Nat.leb_spec (length x) 1); [lia|].
  destruct (rd_Some x (i := 1)) as [a Ea]; [lia|]. rewrite Ea. cbn [bind]. destruct (Qcleb v a). { exists 1. split; auto; lia. }
  destruct (rd_Some x (i := length x)) as [b Eb]; [lia|]. rewrite Eb. cbn [bind]. destruct (Qcleb b v). { exists (length x - 1). split; auto; lia. }
  destruct (bracket_loop_range x v (length x) 1 (length x)) as (i & E & I); try lia. exists i. auto.
Qed.
(** what a bracket index is on an increasing axis: everything strictly before it is
    below the value, everything after its successor is above *)
Definition bracket (x : list Qc) (v : Qc) (i : nat) : Prop :=
  1 <= i < length x /\
  (forall j c, j <= i -> 2 <= i -> rd x j = Some c -> (c <= v)%Qc) /\
  (forall j c, i < j -> j < length x -> rd x j = Some c -> (v < c)%Qc).
Lemma bracket_of x v i a b : ascending x -> rd x i = Some a -> rd x (i + 1) = Some b -> (a <= v)%Qc -> (v < b)%Qc -> bracket x v i.
Proof.
  intros A Ha Hb Va Vb. pose proof (rd_Some_bounds _ _ Ha). pose proof (rd_Some_bounds _ _ Hb). split; [lia|]. split.
  - intros j c J _ Hc. assert ((c <= a)%Qc) by (apply (asc_le x j i); auto). qclra.
  - intros j c J _ Hc. assert ((b <= c)%Qc) by (apply (asc_le x (i + 1) j); auto; lia). qclra.
Qed.
Lemma bracket_first x v a : ascending x -> 2 <= length x -> rd x 1 = Some a -> (v <= a)%Qc -> bracket x v 1.
Proof.
  intros A L Ha V. split; [lia|]. split; [intros; lia|]. intros j c J _ Hc. assert ((a < c)%Qc) by (apply (A 1 j); auto). qclra.
Qed.
Lemma bracket_last x v b : ascending x -> 2 <= length x -> rd x (length x) = Some b -> (b <= v)%Qc -> bracket x v (length x - 1).
Proof.
  intros A L Hb V. split; [lia|]. split; [|intros; lia]. intros j c J _ Hc. assert ((c <= b)%Qc) by (apply (asc_le x j (length x)); auto; lia). qclra.
Qed.
Lemma bracket_unique x v i j : ascending x -> bracket x v i -> bracket x v j -> i = j.
Proof.
  intros A.
  assert (S : forall i j, i < j -> bracket x v i -> bracket x v j -> False).
  { intros i0 j0 L (I & I1 & I2) (J & J1 & J2). destruct (rd_Some x (i := j0)) as [c Ec]; [lia|].
    assert ((c <= v)%Qc) by (apply (J1 j0 c); auto; lia). assert ((v < c)%Qc) by (apply (I2 j0 c); auto; lia). qclra. }
  intros Bi Bj. destruct (Nat.lt_trichotomy i j) as [C|[C|C]]; auto; exfalso; eauto.
Qed.
Lemma lower_bracket_ok x v : ascending x -> 2 <= length x -> exists i, lower_bracket_increasing x v = Some i /\ bracket x v i.
Proof.
  intros A L. unfold lower_bracket_increasing. destruct (Nat.leb_spec (length x) 1); [lia|].
  destruct (rd_Some x (i := 1)) as [a Ea]; [lia|]. rewrite Ea. cbn [bind]. destruct (Qcleb_spec v a). { exists 1. split; auto. eapply bracket_first; eauto. }
  destruct (rd_Some x (i := length x)) as [b Eb]; [lia|]. rewrite Eb. cbn [bind]. destruct (Qcleb_spec b v). { exists (length x - 1). split; auto. eapply bracket_last; eauto. }
  destruct (bracket_loop_ok x v (length x) 1 (length x) a b) as (i & a' & b' & E & I & E1 & E2 & V1 & V2); auto; try lia; try qclra.
  exists i. split; auto. eapply bracket_of; eauto.
Qed.
Lemma earliest_ok x v k : ascending x -> k < length x -> 2 <= length x -> exists i, earliest_stride_candidate x v k = Some (stride_index (length x) k i) /\ bracket x v i.
Proof.
  intros A K L. unfold earliest_stride_candidate. destruct (Nat.leb_spec (length x) k); [lia|].
  destruct (lower_bracket_ok x v A L) as (i & E & B). rewrite E. cbn [bind]. eauto.
Qed.
Lemma earliest_range x v k : 2 <= length x -> exists g, earliest_stride_candidate x v k = Some g /\ 1 <= g.
Proof.
  intros L. unfold earliest_stride_candidate. destruct (Nat.leb_spec (length x) k). { exists 1. auto. }
  destruct (lower_bracket_range x v L) as (i & E & B). rewrite E. cbn [bind]. eexists. split; auto. unfold stride_index. lia.
Qed.

(** the batch cursor walk *)
Lemma advance_ok x v : ascending x -> forall fuel c, 1 <= c -> c < length x -> length x - c <= fuel -> (forall a, rd x c = Some a -> (a <= v)%Qc) -> (forall b, rd x (length x) = Some b -> (v < b)%Qc) ->
  exists c', advance fuel x v c = Some c' /\ c <= c' < length x /\ bracket x v c'.
Proof.
  intros A. induction fuel as [|fuel IH]; intros c C1 C2 C3 V1 V2; [lia|]. cbn [advance].
  destruct (rd_Some x (i := c + 1)) as [d Ed]; [lia|]. rewrite Ed. cbn [bind]. destruct (Qcleb_spec d v) as [D|D].
  - destruct (Nat.ltb_spec c (length x - 1)) as [E|E]; cbn [andb].
    + destruct (IH (c + 1)) as (c' & X & Y & Z); auto; try lia. { intros a Ea. rewrite Ed in Ea. inversion Ea; subst. auto. } exists c'. split; [auto|split; [lia|auto]].
    + exfalso. replace (c + 1) with (length x) in Ed by lia. pose proof (V2 d Ed). qclra.
  - rewrite andb_false_r. exists c. repeat split; auto; try lia.
    + destruct (rd_Some x (i := c)) as [a Ea]; [lia|]. intros j e J _ Ee. assert ((e <= a)%Qc) by (apply (asc_le x j c); auto). pose proof (V1 a Ea). qclra.
    + intros j e J _ Ee. assert ((d <= e)%Qc) by (apply (asc_le x (c + 1) j); auto; lia). qclra.
Qed.
Lemma stride_walk_ok x k : ascending x -> 2 <= length x -> forall values c, ascending values -> 1 <= c -> c < length x ->
  (forall v a, rd values 1 = Some v -> rd x c = Some a -> 2 <= c -> (a <= v)%Qc) ->
  exists r, stride_walk x k values c = Some r /\ length r = length values /\
    forall i v g, rd values i = Some v -> rd r i = Some g -> exists b, bracket x v b /\ g = stride_index (length x) k b.
Proof.
  intros A L. induction values as [|v values IH]; intros c AV C1 C2 V; cbn [stride_walk].
  - exists []. repeat split; auto. intros [|[|i]] v g H; discriminate.
  - destruct (rd_Some x (i := 1)) as [a Ea]; [lia|]. rewrite Ea. cbn [bind].
    destruct (rd_Some x (i := length x)) as [b Eb]; [lia|]. rewrite Eb. cbn [bind].
    assert (AT : ascending values). { intros i j p q I P Q. destruct i as [|i]; [discriminate|]. destruct j as [|j]; [discriminate|]. apply (AV (S (S i)) (S (S j)) p q); auto; lia. }
    assert (NX : forall w, rd values 1 = Some w -> (v < w)%Qc). { intros w W. destruct values as [|w' t]; [discriminate|]. cbn in W. inversion W; subst. apply (AV 1 2 v w); auto. }
    assert (FIN : forall bse cur, bracket x v bse -> 1 <= cur -> cur < length x -> (forall e, rd x cur = Some e -> 2 <= cur -> (e <= v)%Qc) ->
      exists r, (let* t := stride_walk x k values cur in Some (stride_index (length x) k bse :: t)) = Some r /\ length r = length (v :: values) /\
        forall i w g, rd (v :: values) i = Some w -> rd r i = Some g -> exists b0, bracket x w b0 /\ g = stride_index (length x) k b0).
    { intros bse cur B K1 K2 K3. destruct (IH cur) as (r & E & Lr & R); auto.
      { intros w e W He K. pose proof (NX w W). pose proof (K3 e He K). qclra. }
      rewrite E. cbn [bind]. eexists. repeat split; [cbn; lia|]. intros i w g Hw Hg. destruct i as [|[|i]]; cbn in Hw, Hg; [discriminate| |].
      - inversion Hw; inversion Hg; subst. eauto.
      - apply (R (S i) w g); auto. }
    destruct (Qcleb_spec v a) as [D|D]; cbn [bind fst snd].
    + apply FIN; auto. eapply bracket_first; eauto.
    + destruct (Qcleb_spec b v) as [D'|D']; cbn [bind fst snd].
      * apply FIN; try lia. { eapply bracket_last; eauto. } intros e He _. assert ((e <= b)%Qc) by (apply (asc_le x (length x - 1) (length x)); auto; lia). qclra.
      * destruct (advance_ok x v A (length x) c) as (c' & E & I & B); auto; try lia.
        { intros e He. destruct (Nat.le_gt_cases 2 c). { apply (V v e); auto. } assert (c = 1) by lia. subst c. rewrite Ea in He. inversion He; subst. qclra. }
        { intros e He. rewrite Eb in He. inversion He; subst. qclra. }
        rewrite E. cbn [bind fst snd]. apply FIN; auto; try lia. intros e He K. destruct B as (_ & B & _). apply (B c' e); auto.
Qed.
