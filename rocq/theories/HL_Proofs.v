(** Lemmas on the named arrays of HL_Model. *)
From Coq Require Import String List Arith Bool QArith Qcanon Permutation Lia.
From Verif Require Import Base VH_Model VH_Spec VH_Proofs HL_Model HL_Spec.
Import ListNotations.
Local Open Scope list_scope.
Local Open Scope nat_scope.

Lemma inb_in x l : inb x l = true <-> In x l.
Proof.
  unfold inb. rewrite existsb_exists. split.
  - intros (y & Hy & E). apply String.eqb_eq in E. congruence.
  - intros H. exists x. split; auto. apply String.eqb_refl.
Qed.
Lemma inb_not x l : inb x l = false <-> ~ In x l.
Proof. rewrite <- inb_in. destruct (inb x l); split; congruence || tauto. Qed.

Lemma nth_pos (env : string -> nat) x o : In x o -> nth (pos x o) (map env o) 0 = env x.
Proof.
  induction o as [|y o IH]; [intros []|]. cbn [pos map]. destruct (String.eqb_spec x y) as [->|N]; [reflexivity|].
  intros [E|H]; [congruence|]. cbn. auto.
Qed.
Lemma transpose_names o a env : (forall x, In x (dims a) -> In x o) -> at_names (transpose o a) env = at_names a env.
Proof.
  intros H. unfold at_names. cbn [transpose dims get]. rewrite map_length, Nat.eqb_refl. f_equal.
  apply map_ext_in. intros x Hx. apply nth_pos; auto.
Qed.

Lemma prod_fold s : prod s = fold_right Nat.mul 1 s.
Proof. induction s; cbn; congruence. Qed.
Lemma cindex_lt s : forall i c, cindex s i = Some c -> c < prod s.
Proof.
  induction s as [|n s IH]; intros [|k i] c; cbn [cindex prod]; try discriminate.
  - intros [= <-]. lia.
  - destruct (Nat.ltb_spec k n); [|discriminate]. destruct (cindex s i) as [c'|] eqn:E; [|discriminate].
    intros [= <-]. apply IH in E. nia.
Qed.

Lemma stack_at n cols k c : k < n -> c < length cols ->
  nth_error (stack n cols) (k * length cols + c) = option_map (fun col => nth k col 0%Qc) (nth_error cols c).
Proof.
  unfold stack. intros Hk Hc.
  assert (G : forall m s, k < m -> nth_error (flat_map (fun k => map (fun c => nth k c 0%Qc) cols) (seq s m)) (k * length cols + c)
    = option_map (fun col => nth (s + k) col 0%Qc) (nth_error cols c)).
  { clear Hk n. induction k as [|k IH]; intros [|m] s Hm; try lia; cbn [seq flat_map].
    - rewrite nth_error_app1 by (rewrite map_length; lia). cbn [Nat.mul Nat.add]. rewrite nth_error_map, Nat.add_0_r. reflexivity.
    - rewrite nth_error_app2 by (rewrite map_length; nia). rewrite map_length.
      replace (S k * length cols + c - length cols) with (k * length cols + c) by nia.
      rewrite IH by lia. do 2 f_equal. replace (S s + k) with (s + S k) by lia. reflexivity. }
  rewrite (G n 0 Hk). reflexivity.
Qed.
Lemma stack_length n cols : length (stack n cols) = n * length cols.
Proof.
  unfold stack. generalize 0. induction n as [|n IH]; intros s; [reflexivity|].
  cbn [seq flat_map]. rewrite app_length, map_length, IH. lia.
Qed.

(** the array before it is renamed and transposed *)
Lemma flat_at lev d s n cols k i c v : length cols = prod s -> k < n -> cindex s i = Some c ->
  nth_error cols c = Some v ->
  get (of_flat (lev :: d) (n :: s) (stack n cols)) (k :: i) = Some (nth k v 0%Qc).
Proof.
  intros L Hk Hi Hv. cbn [of_flat get cindex]. rewrite (proj2 (Nat.ltb_lt k n) Hk), Hi, <- L.
  rewrite stack_at; [|lia|apply nth_error_Some; congruence]. rewrite Hv. reflexivity.
Qed.
Lemma flat_outside lev d s n v k i : n <= k -> get (of_flat (lev :: d) (n :: s) v) (k :: i) = None.
Proof. intros H. cbn [of_flat get cindex]. destruct (Nat.ltb_spec k n); [lia|reflexivity]. Qed.

(** the order of the dimensions *)
Lemma filter_ext_on {A} (f g : A -> bool) l : (forall x, In x l -> f x = g x) -> filter f l = filter g l.
Proof. intros H. apply filter_ext_in. auto. Qed.
Lemma order_of_eq req d : order_of req d = filter (fun x => inb x d) req ++ filter (fun x => negb (inb x req)) d.
Proof.
  unfold order_of. f_equal. apply filter_ext_on. intros x Hx. f_equal.
  apply eq_true_iff_eq. rewrite !inb_in, filter_In, inb_in. tauto.
Qed.
Lemma order_of_in req d x : In x (order_of req d) <-> In x d.
Proof.
  rewrite order_of_eq, in_app_iff, !filter_In, inb_in, negb_true_iff, inb_not.
  split; [tauto|]. intros H. destruct (in_dec string_dec x req); tauto.
Qed.
Lemma order_of_perm req d : NoDup d -> length (order_of req d) = length d -> Permutation (order_of req d) d.
Proof.
  intros N L. symmetry. apply NoDup_Permutation_bis; auto; [lia|]. intros x Hx. apply order_of_in; auto.
Qed.
Lemma nodup_app {A} (l r : list A) : NoDup l -> NoDup r -> (forall x, In x l -> ~ In x r) -> NoDup (l ++ r).
Proof.
  induction l as [|a l IH]; intros Hl Hr D; auto. inversion Hl; subst. cbn. constructor.
  - rewrite in_app_iff. intros [?|?]; [tauto|]. apply (D a); cbn; auto.
  - apply IH; auto. intros x Hx. apply D. cbn; auto.
Qed.
Lemma order_of_nodup req d : NoDup d -> NoDup (filter (fun x => inb x d) req) -> length (order_of req d) = length d.
Proof.
  intros N H. apply Permutation_length, NoDup_Permutation; auto; [|intros; apply order_of_in].
  rewrite order_of_eq. apply nodup_app; auto; [apply NoDup_filter; auto|].
  intros x Hx. apply filter_In in Hx. rewrite filter_In, negb_true_iff, inb_not. tauto.
Qed.
Lemma order_of_dup req d : NoDup d -> length (order_of req d) = length d -> NoDup (filter (fun x => inb x d) req).
Proof.
  intros N L. pose proof (order_of_perm _ _ N L) as P. symmetry in P. apply (Permutation_NoDup P) in N.
  rewrite order_of_eq in N. clear - N. induction (filter (fun x => inb x d) req) as [|y l IH]; [constructor|].
  cbn in N. inversion N; subst. constructor; auto. rewrite in_app_iff in *. tauto.
Qed.

Definition target_of (lev : string) (lev_dim : option string) : string := match lev_dim with None => lev | Some t => t end.
Definition dims_of (d : list string) (o : option (list string)) : list string :=
  match o with None => d | Some r => order_of r d end.

Lemma rename_head lev t d : ~ In lev d -> map (fun x => if String.eqb x lev then t else x) (lev :: d) = t :: d.
Proof.
  intros H. cbn. rewrite String.eqb_refl. f_equal. rewrite <- (map_id d) at 2. apply map_ext_in.
  intros x Hx. destruct (String.eqb_spec x lev); congruence.
Qed.
Lemma build_ok lev n d s v ld od r : NoDup d -> build lev n d s v ld od = Done r ->
  exists a, r = XrR a /\ ~ In (target_of lev ld) d /\ dims a = dims_of (target_of lev ld :: d) od /\
  Permutation (dims a) (target_of lev ld :: d) /\
  forall env, at_names a env = get (of_flat (lev :: d) (n :: s) v) (env (target_of lev ld) :: map env d).
Proof.
  intros N. unfold build. destruct (inb lev d) eqn:E; [discriminate|]. apply inb_not in E. unfold finalize.
  fold (target_of lev ld). set (t := target_of lev ld).
  assert (G : forall a0, (if String.eqb t lev then Done (of_flat (lev :: d) (n :: s) v) else rename lev t (of_flat (lev :: d) (n :: s) v)) = Done a0 ->
    ~ In t d /\ dims a0 = t :: d /\ get a0 = get (of_flat (lev :: d) (n :: s) v)).
  { intros a0. destruct (String.eqb_spec t lev) as [->|Ne]; [intros [= <-]; auto|].
    unfold rename. destruct (inb t _) eqn:I; [discriminate|]. apply inb_not in I. cbn [of_flat dims] in I |- *.
    intros [= <-]. cbn [dims get]. split; [cbn in I; tauto|]. split; [apply rename_head; auto|reflexivity]. }
  destruct (if String.eqb t lev then _ else _) as [a0| | | |]; try discriminate.
  destruct (G a0 eq_refl) as (Ht & D0 & G0). clear G.
  destruct od as [req|]; cbn [dims_of].
  - destruct (negb _ || negb _) eqn:C; [discriminate|]. intros [= <-]. rewrite D0 in *.
    apply orb_false_iff in C. destruct C as [C _]. apply negb_false_iff, Nat.eqb_eq in C.
    exists (transpose (order_of req (t :: d)) a0). split; auto. split; auto. split; [reflexivity|]. split.
    + cbn [transpose dims]. apply order_of_perm; auto. constructor; auto.
    + intros env. rewrite transpose_names by (rewrite D0; intros; apply order_of_in; auto).
      unfold at_names. rewrite G0, D0. reflexivity.
  - intros [= <-]. exists a0. rewrite D0. repeat split; auto. intros env. unfold at_names. rewrite G0, D0. reflexivity.
Qed.
Lemma build_done lev n d s v ld od : NoDup d -> ~ In lev d -> ~ In (target_of lev ld) d ->
  match od with None => True | Some req => NoDup (filter (fun x => inb x (target_of lev ld :: d)) req) end ->
  exists r, build lev n d s v ld od = Done r.
Proof.
  intros N E Ht Ho. unfold build. rewrite (proj2 (inb_not lev d) E). unfold finalize. fold (target_of lev ld). set (t := target_of lev ld) in *.
  assert (G : exists a0, (if String.eqb t lev then Done (of_flat (lev :: d) (n :: s) v) else rename lev t (of_flat (lev :: d) (n :: s) v)) = Done a0 /\ dims a0 = t :: d).
  { destruct (String.eqb_spec t lev) as [->|Ne]; [eauto|]. unfold rename.
    rewrite (proj2 (inb_not t _)); [|cbn; intuition congruence]. eexists. split; [reflexivity|]. apply rename_head; auto. }
  destruct G as (a0 & -> & D0). destruct od as [req|]; [|eauto]. rewrite D0.
  rewrite order_of_nodup by (auto; constructor; auto). rewrite Nat.eqb_refl.
  assert (F1 : forallb (fun x => inb x (t :: d)) (order_of req (t :: d)) = true)
    by (apply forallb_forall; intros x Hx; apply inb_in; apply order_of_in in Hx; exact Hx).
  assert (F2 : forallb (fun x => inb x (order_of req (t :: d))) (t :: d) = true)
    by (apply forallb_forall; intros x Hx; apply inb_in, order_of_in; exact Hx).
  rewrite F1, F2. cbn [negb orb andb]. eauto.
Qed.
(** a repeated name is refused *)
Lemma build_refuses lev n d s v ld req : NoDup d -> ~ In lev d -> ~ In (target_of lev ld) d ->
  ~ NoDup (filter (fun x => inb x (target_of lev ld :: d)) req) -> build lev n d s v ld (Some req) = ValueErr.
Proof.
  intros N E Ht Ho. unfold build. rewrite (proj2 (inb_not lev d) E). unfold finalize. fold (target_of lev ld). set (t := target_of lev ld) in *.
  assert (G : exists a0, (if String.eqb t lev then Done (of_flat (lev :: d) (n :: s) v) else rename lev t (of_flat (lev :: d) (n :: s) v)) = Done a0 /\ dims a0 = t :: d).
  { destruct (String.eqb_spec t lev) as [->|Ne]; [eauto|]. unfold rename.
    rewrite (proj2 (inb_not t _)); [|cbn; intuition congruence]. eexists. split; [reflexivity|]. apply rename_head; auto. }
  destruct G as (a0 & -> & D0). rewrite D0.
  destruct (Nat.eqb_spec (length (order_of req (t :: d))) (length (t :: d))) as [L|L]; [|reflexivity].
  exfalso. apply Ho. apply order_of_dup; auto. constructor; auto.
Qed.

(** the values *)
Lemma pressures_at (a b : list Qc) p0 p : forall k x y, nth_error a k = Some x -> nth_error b k = Some y ->
  nth k (map (fun '(a, b) => (p0 * a + b * p)%Qc) (combine a b)) 0%Qc = (x * p0 + y * p)%Qc.
Proof.
  revert b. induction a as [|u a IH]; intros [|w b] [|k] x y; cbn; try discriminate; [|apply IH].
  intros [= ->] [= ->]. ring.
Qed.
Lemma surface_at d s v env p : at_names (of_flat d s v) env = Some p ->
  exists c, cindex s (map env d) = Some c /\ nth_error v c = Some p.
Proof. unfold at_names. cbn. destruct (cindex s (map env d)) as [c|]; [eauto|discriminate]. Qed.
