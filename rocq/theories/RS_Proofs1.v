(** Packing, the triangular order, and the work rows of the synthesis. *)
From Coq Require Import Reals List Arith Lia Lra Bool ZArith.
From Verif Require Import Base Buffer VH_Model VH_Proofs SH_Spec SH_Proofs RS_Model RS_Spec RS_Dft.
Import ListNotations.
Local Open Scope nat_scope.

(** ** Triangular order *)
Lemma offset_index T m n : m <= n <= T -> spectral_offset m T + (n - m) = index T m n.
Proof. intros H. unfold spectral_offset, index. f_equal. f_equal. f_equal. lia. Qed.

(** ** Packing *)
Lemma offsets_from_rd pl : forall t j, 1 <= j <= length pl + 1 -> rd (offsets_from t pl) j = Some (t + row_start pl j).
Proof.
  induction pl as [|p pl IH]; intros t j Hj; destruct j as [|j]; simpl in Hj; try lia.
  - assert (j = 0) by lia. subst. cbn. f_equal. lia.
  - destruct j as [|j]; [cbn; f_equal; lia|].
    change (rd (offsets_from t (p :: pl)) (S (S j))) with (rd (offsets_from (t + p) pl) (S j)).
    rewrite IH by lia. f_equal. unfold row_start. replace (S (S j) - 1) with (S j) by lia. replace (S j - 1) with j by lia. cbn [firstn].
    change (list_sum (p :: firstn j pl)) with (p + list_sum (firstn j pl)). lia.
Qed.
Lemma offsets_rd pl j : 1 <= j <= length pl + 1 -> rd (offsets pl) j = Some (row_start pl j).
Proof. intros H. unfold offsets. rewrite offsets_from_rd by assumption. reflexivity. Qed.
Lemma pl_rd pl j : 1 <= j <= length pl -> rd pl j = Some (row_len pl j).
Proof. intros H. destruct j; [lia|]. cbn. unfold row_len. replace (S j - 1) with j by lia. apply nth_error_nth'. lia. Qed.
Lemma rd_row {A} (l : list A) d j : 1 <= j <= length l -> rd l j = Some (nth (j - 1) l d).
Proof. intros H. destruct j; [lia|]. cbn. rewrite Nat.sub_0_r. apply nth_error_nth'. lia. Qed.

Lemma row_start_1 pl : row_start pl 1 = 0.
Proof. reflexivity. Qed.
Lemma list_sum_firstn_S pl : forall j, j < length pl -> list_sum (firstn (S j) pl) = list_sum (firstn j pl) + nth j pl 0.
Proof.
  induction pl as [|p pl IH]; intros j Hj; cbn [length] in Hj; [lia|].
  destruct j as [|j]; [cbn; lia|]. specialize (IH j ltac:(lia)).
  change (firstn (S (S j)) (p :: pl)) with (p :: firstn (S j) pl). change (firstn (S j) (p :: pl)) with (p :: firstn j pl).
  change (nth (S j) (p :: pl) 0) with (nth j pl 0).
  change (list_sum (p :: firstn (S j) pl)) with (p + list_sum (firstn (S j) pl)).
  change (list_sum (p :: firstn j pl)) with (p + list_sum (firstn j pl)). lia.
Qed.
Lemma row_start_S pl j : 1 <= j <= length pl -> row_start pl (S j) = row_start pl j + row_len pl j.
Proof.
  intros H. unfold row_start, row_len. replace (S j - 1) with (S (j - 1)) by lia. apply list_sum_firstn_S. lia.
Qed.
Lemma row_start_mono pl i j : 1 <= i <= j -> j <= length pl + 1 -> row_start pl i <= row_start pl j.
Proof.
  intros H. induction j; intros Hj; [lia|]. destruct (Nat.eq_dec i (S j)) as [->|]; [lia|].
  rewrite row_start_S by lia. specialize (IHj ltac:(lia) ltac:(lia)). lia.
Qed.
Lemma row_start_last pl : row_start pl (length pl + 1) = list_sum pl.
Proof. unfold row_start. rewrite Nat.add_sub, firstn_all. reflexivity. Qed.
Lemma row_disjoint pl i j : 1 <= i -> i < j -> j <= length pl -> row_start pl i + row_len pl i <= row_start pl j.
Proof. intros Hi Hij Hj. rewrite <- row_start_S by lia. apply row_start_mono; lia. Qed.
Lemma row_end pl j : 1 <= j <= length pl -> row_start pl j + row_len pl j <= list_sum pl.
Proof. intros H. rewrite <- row_start_S, <- row_start_last by lia. apply row_start_mono; lia. Qed.
(** every packed position is in exactly one row *)
Lemma row_find pl q : q < list_sum pl -> exists j, 1 <= j <= length pl /\ row_start pl j <= q < row_start pl j + row_len pl j.
Proof.
  intros H. rewrite <- row_start_last in H.
  assert (G : forall k, k <= length pl -> q < row_start pl (k + 1) -> exists j, 1 <= j <= length pl /\ row_start pl j <= q < row_start pl j + row_len pl j).
  { induction k; intros Hk Hq; [rewrite row_start_1 in Hq; lia|].
    destruct (le_lt_dec (row_start pl (k + 1)) q).
    - exists (k + 1). split; [lia|]. replace (S k + 1) with (S (k + 1)) in Hq by lia. rewrite row_start_S in Hq by lia. lia.
    - apply IHk; lia. }
  apply (G (length pl)); [lia|assumption].
Qed.

(** ** Symmetry *)
Lemma symmetric_iff pl : symmetric_pl pl = true <-> mirrored pl.
Proof.
  unfold symmetric_pl, pair_count, mirrored. rewrite forallb_forall. split.
  - intros H j Hj.
    assert (G : forall j, 1 <= j <= length pl / 2 -> row_len pl j = row_len pl (length pl + 1 - j)).
    { intros i Hi. assert (length pl / 2 <= length pl) by (apply Nat.div_le_upper_bound; lia).
      pose proof (Nat.div_mod (length pl) 2). specialize (H i ltac:(apply in_seq; lia)).
      rewrite !pl_rd in H by lia. apply Nat.eqb_eq in H. rewrite H. f_equal. lia. }
    pose proof (Nat.div_mod (length pl) 2). pose proof (Nat.mod_upper_bound (length pl) 2).
    destruct (le_lt_dec j (length pl / 2)) as [A1|A1]; [apply G; lia|].
    destruct (le_lt_dec (length pl + 1 - j) (length pl / 2)) as [A2|A2].
    + rewrite (G (length pl + 1 - j)) by lia. f_equal. lia.
    + f_equal. lia.
  - intros H j Hj. apply in_seq in Hj. assert (length pl / 2 <= length pl) by (apply Nat.div_le_upper_bound; lia).
    pose proof (Nat.div_mod (length pl) 2). rewrite !pl_rd by lia. apply Nat.eqb_eq. rewrite H by lia. f_equal. lia.
Qed.

(** ** Sequences of writes *)
Definition writes {A} (W : list (nat * A)) (r : list A) : option (list A) := foldM (fun r (iv : nat * A) => wrx r (fst iv) (snd iv)) W r.
Lemma wrx_in {A} (r : list A) q v : 1 <= q <= length r -> wrx r q v = Some (wr r q v).
Proof. intros H. unfold wrx. destruct (Nat.leb_spec 1 q), (Nat.leb_spec q (length r)); try lia. reflexivity. Qed.
Lemma writes_ok {A} (tgt : nat -> A) W : forall r,
  (forall q v, In (q, v) W -> 1 <= q <= length r /\ v = tgt q) ->
  exists r', writes W r = Some r' /\ length r' = length r /\
    (forall q, In q (map fst W) -> rd r' q = Some (tgt q)) /\ (forall q, ~ In q (map fst W) -> rd r' q = rd r q).
Proof.
  induction W as [|[q0 v0] W IH]; intros r H.
  - exists r. repeat split; auto. intros q [].
  - destruct (H q0 v0 (or_introl eq_refl)) as [Hq ->].
    destruct (IH (wr r q0 (tgt q0))) as [r' (E & L & I & O)].
    { intros q v Hin. rewrite wr_length. apply H. right. exact Hin. }
    exists r'. unfold writes in *. cbn [foldM fst snd]. rewrite wrx_in by assumption. cbn [bind].
    rewrite wr_length in L. split; [exact E|]. split; [exact L|]. split.
    + intros q Hin. destruct (in_dec Nat.eq_dec q (map fst W)) as [i|n]; [auto|].
      rewrite O by assumption. destruct Hin as [<-|]; [|contradiction]. cbn [fst]. apply rd_wr_eq. assumption.
    + intros q Hn. cbn [map fst] in Hn. rewrite O by (intros X; apply Hn; right; exact X). apply rd_wr_neq. intros ->. apply Hn. left. reflexivity.
Qed.
Lemma foldM_app' {A St} (f : St -> A -> option St) l1 : forall l2 s, foldM f (l1 ++ l2) s = bind (foldM f l1 s) (foldM f l2).
Proof. induction l1; intros l2 s; cbn; [reflexivity|]. destruct (f s a); cbn; auto. Qed.
Lemma writes_flat {A B} (W : B -> list (nat * A)) l : forall r, foldM (fun r x => writes (W x) r) l r = writes (flat_map W l) r.
Proof.
  induction l; intros r; cbn; [reflexivity|]. unfold writes at 2. rewrite foldM_app'. unfold writes at 1.
  destruct (foldM _ (W a) r); cbn; [apply IHl|reflexivity].
Qed.
Lemma writes_app {A} (W1 W2 : list (nat * A)) r : writes (W1 ++ W2) r = bind (writes W1 r) (writes W2).
Proof. apply foldM_app'. Qed.
Lemma foldM_ext' {A St} (f g : St -> A -> option St) l : (forall s x, f s x = g s x) -> forall s, foldM f l s = foldM g l s.
Proof. intros H. induction l; intros s; cbn; [reflexivity|]. rewrite H. destruct (g s a); cbn; auto. Qed.
Lemma foldM_map' {A B St} (f : St -> B -> option St) (h : A -> B) l : forall s, foldM f (map h l) s = foldM (fun s x => f s (h x)) l s.
Proof. induction l; intros s; cbn; [reflexivity|]. destruct (f s (h a)); cbn; auto. Qed.

(** ** put *)
Lemma put_ok g o vals : o + length vals <= length g ->
  exists g', put g o vals = Some g' /\ length g' = length g /\
    (forall i, i < length vals -> nth (o + i) g' 0%R = nth i vals 0%R) /\
    (forall q, ~ (o <= q < o + length vals) -> nth q g' 0%R = nth q g 0%R).
Proof.
  intros H. set (W := map (fun iv : nat * R => (o + fst iv, snd iv)) (combine (seq 1 (length vals)) vals)).
  assert (K : map fst W = seq (o + 1) (length vals)).
  { unfold W. rewrite map_map. cbn [fst]. rewrite <- (map_map fst (fun i => o + i)). 
    replace (map fst (combine (seq 1 (length vals)) vals)) with (seq 1 (length vals)).
    - clear. generalize 1. induction (length vals); intros s; cbn; [reflexivity|]. rewrite IHn. do 2 f_equal. lia.
    - clear. generalize 1. induction vals as [|v vals IH]; intros s; cbn; [reflexivity|]. f_equal. apply IH. }
  destruct (writes_ok (fun q => nth (q - o - 1) vals 0%R) W g) as [g' (E & L & I & O)].
  { intros q v Hin. unfold W in Hin. apply in_map_iff in Hin. destruct Hin as [[i x] [E Hin]]. cbn in E. injection E as <- <-.
    assert (Hx : 1 <= i <= length vals /\ x = nth (i - 1) vals 0%R).
    { clear - Hin. revert Hin. 
      assert (G : forall s, In (i, x) (combine (seq s (length vals)) vals) -> s <= i < s + length vals /\ x = nth (i - s) vals 0%R).
      { induction vals as [|v vals IH]; intros s; cbn; [tauto|]. intros [E|Hin].
        - injection E as <- <-. split; [lia|]. rewrite Nat.sub_diag. reflexivity.
        - apply IH in Hin. destruct Hin as [Hi ->]. split; [lia|]. replace (i - s) with (S (i - S s)) by lia. reflexivity. }
      intros Hin. apply G in Hin. destruct Hin. split; [lia|assumption]. }
    destruct Hx as [Hi ->]. split; [lia|]. f_equal. lia. }
  exists g'. split; [|split; [exact L|split]].
  - unfold put. unfold writes, W in E. rewrite foldM_map' in E. exact E.
  - intros i Hi. specialize (I (o + i + 1)). rewrite K in I. specialize (I ltac:(apply in_seq; lia)).
    rewrite (rd_row g' 0%R) in I by (rewrite L; lia). injection I as I. replace (o + i + 1 - 1) with (o + i) in I by lia.
    replace (o + i + 1 - o - 1) with i in I by lia. exact I.
  - intros q Hq. destruct (le_lt_dec (length g) q) as [G|G]; [rewrite !nth_overflow by lia; reflexivity|].
    specialize (O (q + 1)). rewrite K in O. specialize (O ltac:(rewrite in_seq; lia)).
    rewrite !(rd_row _ 0%R) in O by lia. injection O as O. replace (q + 1 - 1) with q in O by lia. exact O.
Qed.

(** ** The traversal of the rows *)
Section Drive.
Context {V St : Type}.
Variable store : St -> nat -> V -> option St.
Variable single : nat -> option V.
Variable paired : nat -> option (V * V).
Variable pl : list nat.
Variable val : nat -> V.
Variable Inv : St -> (nat -> Prop) -> Prop.
Hypothesis single_ok : forall j, 1 <= j <= length pl -> single j = Some (val j).
Hypothesis paired_ok : mirrored pl -> forall j, 1 <= j <= length pl / 2 -> paired j = Some (val j, val (length pl + 1 - j)).
Hypothesis store_ok : forall s D j, 1 <= j <= length pl -> Inv s D ->
  exists s', store s (row_start pl j) (val j) = Some s' /\ Inv s' (fun k => k = j \/ D k).
Hypothesis Inv_mono : forall s (D D' : nat -> Prop), (forall k, D' k -> D k) -> Inv s D -> Inv s D'.

Lemma drive_ok out : Inv out (fun _ => False) -> exists s', drive store single paired pl out = Some s' /\ Inv s' (fun k => 1 <= k <= length pl).
Proof.
  intros H0. unfold drive.
  assert (ONE : forall s D j, 1 <= j <= length pl -> Inv s D ->
     exists s', (let* o := rd (offsets pl) j in let* v := single j in store s o v) = Some s' /\ Inv s' (fun k => k = j \/ D k)).
  { intros s D j Hj HI. rewrite offsets_rd by lia. cbn [bind]. rewrite single_ok by lia. cbn [bind]. apply store_ok; assumption. }
  destruct (symmetric_pl pl) eqn:SY.
  - apply symmetric_iff in SY.
    assert (PAIRS : forall n, n <= length pl / 2 -> exists s',
       foldM (fun g j => let* o := rd (offsets pl) j in let* os := rd (offsets pl) (length pl - j + 1) in let* v := paired j in
          let* g1 := store g o (fst v) in store g1 os (snd v)) (seq 1 n) out = Some s' /\ Inv s' (fun k => 1 <= k <= n \/ length pl + 1 - n <= k <= length pl)).
    { assert (length pl / 2 <= length pl) by (apply Nat.div_le_upper_bound; lia). pose proof (Nat.div_mod (length pl) 2).
      induction n; intros Hn.
      - exists out. split; [reflexivity|]. eapply Inv_mono; [|exact H0]. cbn. intros k; lia.
      - destruct IHn as [s [E I]]; [lia|]. rewrite seq_S, foldM_app', E. cbn [bind foldM]. change (1 + n) with (S n).
        rewrite !offsets_rd by lia. cbn [bind]. rewrite paired_ok by (auto; lia). cbn [bind fst snd].
        destruct (store_ok s _ (S n) ltac:(lia) I) as [s1 [E1 I1]]. rewrite E1. cbn [bind].
        replace (length pl - S n + 1) with (length pl + 1 - S n) by lia.
        destruct (store_ok s1 _ (length pl + 1 - S n) ltac:(lia) I1) as [s2 [E2 I2]]. rewrite E2. cbn [bind].
        exists s2. split; [reflexivity|]. eapply Inv_mono; [|exact I2]. cbv beta. intros k Hk. lia. }
    destruct (PAIRS (length pl / 2) (le_n _)) as [s [E I]]. unfold pair_count at 1. rewrite E. cbn [bind]. unfold pair_count, half_nlat.
    pose proof (Nat.div_mod (length pl) 2). pose proof (Nat.mod_upper_bound (length pl) 2).
    destruct (Nat.ltb_spec (length pl / 2) ((length pl + 1) / 2)) as [L|L].
    + assert (M : (length pl + 1) / 2 = length pl / 2 + 1 /\ length pl = 2 * (length pl / 2) + 1).
      { pose proof (Nat.div_mod (length pl + 1) 2). pose proof (Nat.mod_upper_bound (length pl + 1) 2). lia. }
      destruct M as [M1 M2]. destruct (ONE s _ ((length pl + 1) / 2) ltac:(lia) I) as [s' [E' I']].
      exists s'. split; [exact E'|]. eapply Inv_mono; [|exact I']. cbv beta. intros k Hk. lia.
    + exists s. split; [reflexivity|]. eapply Inv_mono; [|exact I]. cbv beta. intros k Hk.
      assert (length pl mod 2 = 0) by (pose proof (Nat.div_mod (length pl + 1) 2); pose proof (Nat.mod_upper_bound (length pl + 1) 2); lia). lia.
  - assert (ROWS : forall n, n <= length pl -> exists s',
       foldM (fun g j => let* o := rd (offsets pl) j in let* v := single j in store g o v) (seq 1 n) out = Some s' /\ Inv s' (fun k => 1 <= k <= n)).
    { induction n; intros Hn.
      - exists out. split; [reflexivity|]. eapply Inv_mono; [|exact H0]. cbn. intros k; lia.
      - destruct IHn as [s [E I]]; [lia|]. rewrite seq_S, foldM_app', E. cbn [bind foldM]. change (1 + n) with (S n).
        destruct (ONE s _ (S n) ltac:(lia) I) as [s' [E' I']]. rewrite E'. cbn [bind]. exists s'. split; [reflexivity|].
        eapply Inv_mono; [|exact I']. cbv beta. intros k Hk. lia. }
    apply (ROWS (length pl) (le_n _)).
Qed.
End Drive.

(** the invariant for one packed grid *)
Definition rows_set (pl : list nat) (f : nat -> nat -> R) (g : list R) (D : nat -> Prop) : Prop :=
  length g = list_sum pl /\ forall j i, D j -> 1 <= j <= length pl -> i < row_len pl j -> point pl g j i = f j i.
Lemma rows_set_mono pl f g (D D' : nat -> Prop) : (forall k, D' k -> D k) -> rows_set pl f g D -> rows_set pl f g D'.
Proof. intros H [L P]. split; auto. Qed.
Lemma rows_set_put pl f g D j vals : 1 <= j <= length pl -> length vals = row_len pl j ->
  (forall i, i < row_len pl j -> nth i vals 0%R = f j i) -> rows_set pl f g D ->
  exists g', put g (row_start pl j) vals = Some g' /\ rows_set pl f g' (fun k => k = j \/ D k).
Proof.
  intros Hj HL HV [L P]. destruct (put_ok g (row_start pl j) vals) as [g' (E & L' & I & O)].
  { rewrite HL, L. apply row_end. assumption. }
  exists g'. split; [exact E|]. split; [congruence|]. intros k i Hk Hkr Hi. unfold point.
  destruct (Nat.eq_dec k j) as [->|Hne].
  - rewrite I by lia. apply HV. assumption.
  - destruct Hk as [->|Hk]; [contradiction|]. rewrite O; [apply P; assumption|].
    rewrite HL. destruct (le_lt_dec k j).
    + pose proof (row_disjoint pl k j ltac:(lia) ltac:(lia) ltac:(lia)). lia.
    + pose proof (row_disjoint pl j k ltac:(lia) ltac:(lia) ltac:(lia)). lia.
Qed.
