(** The storage order: bijection, and the loop nest visits it in order. *)
From Coq Require Import Lia Arith ZArith List Bool.
From Verif Require Import Base Buffer VH_Model VH_Proofs SH_Model SH_Spec TG_Proofs.
Import ListNotations.
Local Open Scope nat_scope.

Lemma enum_app (X : Type) k (l1 l2 : list X) :
  enum k (l1 ++ l2) = enum k l1 ++ enum (k + length l1) l2.
Proof.
  unfold enum; rewrite app_length, seq_app.
  revert k; induction l1 as [|x l1 IH]; intro k; cbn [length seq app combine].
  - rewrite Nat.add_0_r; reflexivity.
  - f_equal; replace (k + S (length l1)) with (S k + length l1) by lia; apply IH.
Qed.
Lemma enum_cons (X : Type) k x (l : list X) : enum k (x :: l) = (k, x) :: enum (S k) l.
Proof. reflexivity. Qed.
Lemma enum_length (X : Type) k (l : list X) : length (enum k l) = length l.
Proof. unfold enum; rewrite combine_length, seq_length; lia. Qed.
Lemma enum_map (X Y : Type) (f : X -> Y) (l : list X) : forall k,
  enum k (map f l) = map (fun p => (fst p, f (snd p))) (enum k l).
Proof. induction l as [|x l IH]; intro k; [reflexivity|]; cbn [map]; rewrite !enum_cons, IH; reflexivity. Qed.
Lemma enum_nth (X : Type) (l : list X) : forall k i, nth_error (enum k l) i = option_map (fun x => (k + i, x)) (nth_error l i).
Proof.
  induction l as [|x l IH]; intros k i; [destruct i; reflexivity|].
  rewrite enum_cons; destruct i; cbn [nth_error option_map]; [do 2 f_equal; lia|].
  rewrite IH; destruct (nth_error l i); cbn [option_map]; [do 2 f_equal; lia|reflexivity].
Qed.
Lemma enum_in (X : Type) (l : list X) k i x : In (i, x) (enum k l) <-> k <= i /\ nth_error l (i - k) = Some x.
Proof.
  split.
  - intro H; apply In_nth_error in H; destruct H as [j H]; rewrite enum_nth in H.
    destruct (nth_error l j) eqn:E; [|discriminate]; cbn [option_map] in H.
    injection H as <- <-; split; [lia|]; replace (k + j - k) with j by lia; exact E.
  - intros [H1 H2]; apply (nth_error_In _ (i - k)); rewrite enum_nth, H2; cbn [option_map]; do 2 f_equal; lia.
Qed.
Lemma seq_enum len : forall s k, enum k (seq s len) = map (fun j => (k + j, s + j)) (seq 0 len).
Proof.
  induction len as [|len IH]; intros s k; [reflexivity|].
  cbn [seq]; rewrite enum_cons, IH, <- seq_shift; cbn [map]; rewrite map_map.
  f_equal; [f_equal; lia|apply map_ext; intro; f_equal; lia].
Qed.

(** Rows m, m+1, ..., of the triangle. *)
Definition rows (N s len : nat) : list (nat * nat) :=
  flat_map (fun m => map (fun n => (m, n)) (seq m (N + 1 - m))) (seq s len).
Lemma rows_S N s len : rows N s (S len) = map (fun n => (s, n)) (seq s (N + 1 - s)) ++ rows N (S s) len.
Proof. reflexivity. Qed.
Lemma rows_length2 N : forall len s, s + len = N + 1 -> 2 * length (rows N s len) = len * (len + 1).
Proof.
  induction len as [|len IH]; intros s H; [reflexivity|].
  rewrite rows_S, app_length, map_length, seq_length.
  specialize (IH (S s) ltac:(lia)). replace (N + 1 - s) with (S len) by lia. nia.
Qed.
Lemma tri2 N : 2 * tri N = (N + 1) * (N + 2).
Proof.
  unfold tri. pose proof (rows_length2 N (N + 1) 0 ltac:(lia)) as H.
  replace (N + 1 + 1) with (N + 2) in H by lia. rewrite <- H, (Nat.mul_comm 2 (length _)), Nat.div_mul by lia. lia.
Qed.
Lemma pairs_length N : length (pairs N) = tri N.
Proof. pose proof (rows_length2 N (N + 1) 0 ltac:(lia)) as H. pose proof (tri2 N). change (pairs N) with (rows N 0 (N + 1)). nia. Qed.
Lemma pairs_in N m n : In (m, n) (pairs N) <-> m <= n <= N.
Proof.
  unfold pairs; rewrite in_flat_map; split.
  - intros (x & Hx & H); apply in_map_iff in H; destruct H as (y & E & Hy); injection E as <- <-.
    apply in_seq in Hx; apply in_seq in Hy; lia.
  - intros H; exists m; split; [apply in_seq; lia|]. apply in_map_iff; exists n; split; [reflexivity|apply in_seq; lia].
Qed.
Lemma idx_double N m : m <= N + 1 -> 2 * (m * (2 * N + 3 - m) / 2) = m * (2 * N + 3 - m).
Proof.
  intro H. assert (E : exists q, m * (2 * N + 3 - m) = 2 * q).
  { destruct (Nat.Even_or_Odd m) as [[q Hq]|[q Hq]].
    - exists (q * (2 * N + 3 - m)); rewrite Hq at 1; lia.
    - assert (exists r, 2 * N + 3 - m = 2 * r) as [r Hr] by (exists (N + 1 - q); lia).
      exists (m * r); rewrite Hr; lia. }
  destruct E as [q E]; rewrite E, (Nat.mul_comm 2 q), Nat.div_mul by lia; lia.
Qed.
(** Row [m] starts after [m*(2N+3-m)/2] entries. *)
Lemma rows_before N : forall m, m <= N + 1 -> length (rows N 0 m) = m * (2 * N + 3 - m) / 2.
Proof.
  intros m H. pose proof (idx_double N m H) as D.
  assert (2 * length (rows N 0 m) = m * (2 * N + 3 - m)); [|lia].
  clear D; induction m as [|m IH]; [reflexivity|].
  unfold rows in *; rewrite seq_S, flat_map_app, app_length; cbn [flat_map]; rewrite app_nil_r, map_length, seq_length.
  cbn [Nat.add]; specialize (IH ltac:(lia)).
  replace (2 * N + 3 - S m) with (2 * N + 2 - m) by lia.
  assert (exists d, N = m + d) as [d ->] by (exists (N - m); lia).
  replace (2 * (m + d) + 3 - m) with (m + 2 * d + 3) in IH by lia.
  replace (2 * (m + d) + 2 - m) with (m + 2 * d + 2) by lia.
  replace (m + d + 1 - m) with (d + 1) by lia. lia.
Qed.
Lemma nth_pairs N m n : m <= n <= N -> nth_error (pairs N) (index N m n) = Some (m, n).
Proof.
  intro H. unfold pairs.
  assert (E : seq 0 (N + 1) = seq 0 m ++ m :: seq (S m) (N - m)).
  { replace (N + 1) with (m + S (N - m)) by lia; rewrite seq_app; reflexivity. }
  rewrite E, flat_map_app. fold (rows N 0 m).
  unfold index; rewrite <- (rows_before N m ltac:(lia)), nth_error_app2 by lia.
  replace (length (rows N 0 m) + (n - m) - length (rows N 0 m)) with (n - m) by lia.
  cbn [flat_map].
  rewrite nth_error_app1 by (rewrite map_length, seq_length; lia).
  rewrite nth_error_map, (nth_error_nth' _ 0) by (rewrite seq_length; lia).
  rewrite seq_nth by lia; cbn [option_map]; do 2 f_equal; lia.
Qed.
Lemma index_lt N m n : m <= n <= N -> index N m n < tri N.
Proof. intro H; rewrite <- pairs_length; apply nth_error_Some; rewrite (nth_pairs N m n H); discriminate. Qed.
Lemma pairs_nodup N : NoDup (pairs N).
Proof.
  unfold pairs. assert (G : forall l, NoDup l -> NoDup (flat_map (fun m => map (fun n => (m, n)) (seq m (N + 1 - m))) l)).
  { induction l as [|m l IH]; intro D; [constructor|]; inversion D; subst; cbn [flat_map].
    assert (Hrow : NoDup (map (fun n => (m, n)) (seq m (N + 1 - m)))).
    { apply FinFun.Injective_map_NoDup; [intros a b E; congruence|apply seq_NoDup]. }
    assert (Hdis : forall p, In p (map (fun n => (m, n)) (seq m (N + 1 - m))) ->
              ~ In p (flat_map (fun m => map (fun n => (m, n)) (seq m (N + 1 - m))) l)).
    { intros [a b] Ha Hb; apply in_map_iff in Ha; destruct Ha as (? & E & _); injection E as <- <-.
      apply in_flat_map in Hb; destruct Hb as (y & Hy & Hb); apply in_map_iff in Hb.
      destruct Hb as (? & E & _); injection E as <- _; contradiction. }
    clear D; induction (map (fun n => (m, n)) (seq m (N + 1 - m))) as [|p r IHr]; [apply IH; assumption|].
    inversion Hrow; subst; cbn [app]; constructor.
    - rewrite in_app_iff; intros [?|?]; [contradiction|apply (Hdis p); [left; reflexivity|assumption]].
    - apply IHr; [assumption|]; intros q Hq; apply Hdis; right; exact Hq. }
  apply G, seq_NoDup.
Qed.
Lemma index_unique N m n k : nth_error (pairs N) k = Some (m, n) -> k = index N m n /\ m <= n <= N.
Proof.
  intro H. assert (B : m <= n <= N) by (apply pairs_in, (nth_error_In _ _ H)); split; [|exact B].
  pose proof (pairs_nodup N) as D; rewrite NoDup_nth_error in D; apply D.
  - apply nth_error_Some; rewrite H; discriminate.
  - rewrite H, nth_pairs by exact B; reflexivity.
Qed.

Lemma nth_error_ext_all (X : Type) (a b : list X) : (forall i, nth_error a i = nth_error b i) -> a = b.
Proof.
  revert b; induction a as [|x a IH]; intros [|y b] H; [reflexivity|discriminate (H 0)|discriminate (H 0)|].
  pose proof (H 0) as H0; injection H0 as ->; f_equal; apply IH; intro i; exact (H (S i)).
Qed.

(** ** The loop nest *)
Local Open Scope Z_scope.
Lemma dolist_seq (a b : nat) : dolist (Z.of_nat a) (Z.of_nat b) = map Z.of_nat (seq a (S b - a)).
Proof.
  unfold dolist. replace (Z.to_nat (Z.of_nat b - Z.of_nat a + 1)) with (S b - a)%nat by lia.
  generalize (S b - a)%nat as l; intro l. clear b.
  apply nth_error_ext_all; intro i. rewrite !nth_error_map.
  destruct (Nat.lt_ge_cases i l) as [H|H].
  - rewrite !(nth_error_nth' _ 0%nat), !seq_nth by (rewrite ?seq_length; lia); cbn [option_map]; f_equal; lia.
  - rewrite !(proj2 (nth_error_None _ _)) by (rewrite seq_length; lia); reflexivity.
Qed.

Lemma foldM_map (X Y S : Type) (f : S -> Y -> option S) (g : X -> Y) l : forall s,
  foldM f (map g l) s = foldM (fun s x => f s (g x)) l s.
Proof. induction l as [|x l IH]; intro s; [reflexivity|]; cbn [map foldM]; destruct (f s (g x)); [apply IH|reflexivity]. Qed.
Lemma foldM_ext_in (X S : Type) (f g : S -> X -> option S) l : forall s,
  (forall s x, In x l -> f s x = g s x) -> foldM f l s = foldM g l s.
Proof.
  induction l as [|x l IH]; intros s H; [reflexivity|]; cbn [foldM]; rewrite H by (left; reflexivity).
  destruct (g s x); [|reflexivity]; apply IH; intros; apply H; right; assumption.
Qed.

Section Loop.
Variable S : Type.
Variable body : Z -> Z -> Z -> S -> option S.
Definition visit (s : S) (e : nat * (nat * nat)) : option S :=
  body (Z.of_nat (fst (snd e)) + 1) (Z.of_nat (snd (snd e)) + 1) (Z.of_nat (fst e) + 1) s.

Lemma row_loop N m k s : (m <= N)%nat ->
  foldM (fun s n => body (Z.of_nat m + 1) n (Z.of_nat k + n - (Z.of_nat m + 1) + 1) s)
    (dolist (Z.of_nat m + 1) (Z.of_nat N + 1)) s
  = foldM visit (enum k (map (fun n => (m, n)) (seq m (N + 1 - m)))) s.
Proof.
  intro H. replace (dolist (Z.of_nat m + 1) (Z.of_nat N + 1)) with (dolist (Z.of_nat (m + 1)) (Z.of_nat (N + 1)))
    by (f_equal; lia).
  rewrite dolist_seq, foldM_map, enum_map, seq_enum, foldM_map, foldM_map.
  replace (Datatypes.S (N + 1) - (m + 1))%nat with (N + 1 - m)%nat by lia.
  assert (E : forall l a, seq a l = map (fun j => (a + j)%nat) (seq 0 l)).
  { clear. intros l a; apply nth_error_ext_all; intro i; rewrite nth_error_map.
    destruct (Nat.lt_ge_cases i l).
    - rewrite !(nth_error_nth' _ 0%nat), !seq_nth by (rewrite ?seq_length; lia); reflexivity.
    - rewrite !(proj2 (nth_error_None _ _)) by (rewrite seq_length; lia); reflexivity. }
  rewrite (E _ (m + 1)%nat), foldM_map. apply foldM_ext_in; intros s' j _.
  unfold visit; cbn [fst snd]. f_equal; lia.
Qed.

Lemma rows_loop N : forall len m k s, (m + len = N + 1)%nat ->
  option_map snd (foldM (fun (st : Z * S) m =>
        let nmstrt := fst st in
        let* s := foldM (fun s n => body m n (nmstrt + n - m + 1) s)
                    (dolist m (Z.of_nat N + 1)) (snd st) in
        Some (nmstrt + Z.of_nat N - m + 2, s))
      (map (fun j => Z.of_nat j + 1) (seq m len)) (Z.of_nat k, s))
  = foldM visit (enum k (rows N m len)) s.
Proof.
  induction len as [|len IH]; intros m k s H; [reflexivity|].
  rewrite rows_S, enum_app, foldM_app. cbn [seq map foldM fst snd].
  rewrite row_loop by lia.
  destruct (foldM visit (enum k (map (fun n => (m, n)) (seq m (N + 1 - m)))) s) as [s'|]; [|reflexivity].
  cbn [bind]. rewrite map_length, seq_length.
  rewrite <- IH by lia. do 2 f_equal. f_equal. lia.
Qed.

(** The loop nest performs its body on every (m, n) of the triangle, in storage
    order, the running index being the position in that order. *)
Lemma tri_loop_visits (N : nat) s :
  tri_loop (Z.of_nat N) (fun m => m) body s = foldM visit (enum 0 (pairs N)) s.
Proof.
  unfold tri_loop. change (pairs N) with (rows N 0 (N + 1)). rewrite <- rows_loop by lia.
  do 2 f_equal. change 1 with (Z.of_nat 1). rewrite <- Nat2Z.inj_add, dolist_seq.
  replace (Datatypes.S (N + 1) - 1)%nat with (N + 1)%nat by lia.
  rewrite <- seq_shift, map_map; apply map_ext; intro; lia.
Qed.
Lemma tri_loop_empty n1 s : tri_loop (-1) n1 body s = Some s.
Proof. reflexivity. Qed.
End Loop.
