From Verif Require Import Base Buffer Loops VH_Model VH_Proofs IS_Proofs IS_Proofs2 LM_Model LM_Spec.
Local Open Scope nat_scope.

Lemma range_ok (P : list Qc -> Prop) (step : list Qc -> nat -> option (list Qc)) (f : nat -> Qc) a n : forall x,
  1 <= a -> a + n <= length x + 1 -> P x ->
  (forall y k, a <= k < a + n -> P y -> length y = length x -> step y k = wrx y k (f k)) ->
  (forall y k, a <= k < a + n -> P y -> P (wr y k (f k))) ->
  exists x', foldM step (seq a n) x = Some x' /\ length x' = length x /\
    (forall k, a <= k < a + n -> rd x' k = Some (f k)) /\ (forall k, ~ (a <= k < a + n) -> rd x' k = rd x k).
Proof.
  revert a. induction n as [|n IH]; intros a x Ha Hn Px Hs Hp.
  - exists x. cbn [seq foldM]. split; auto. split; auto. split; [intros; lia|auto].
  - cbn [seq foldM]. rewrite Hs by (auto; lia). rewrite wrx_ok by lia. cbn [bind].
    destruct (IH (Datatypes.S a) (wr x a (f a))) as [x' [E [L [I O]]]]; try lia.
    + rewrite wr_length. lia.
    + apply Hp; auto. lia.
    + intros y k Hk Py Ly. rewrite wr_length in Ly. apply Hs; auto. lia.
    + intros y k Hk Py. apply Hp; auto. lia.
    + exists x'. split; auto. split; [rewrite L, wr_length; auto|]. split.
      * intros k Hk. destruct (Nat.eq_dec k a) as [->|N]; [|apply I; lia]. rewrite O by lia. apply rd_wr_eq. lia.
      * intros k Hk. rewrite O by lia. apply rd_wr_neq. lia.
Qed.
Lemma set_range_ok x a b v : 1 <= a <= b -> b <= length x -> exists x', set_range x a b v = Some x' /\ length x' = length x /\
  (forall k, a <= k <= b -> rd x' k = Some v) /\ (forall k, ~ (a <= k <= b) -> rd x' k = rd x k).
Proof.
  intros Ha Hb. destruct (range_ok (fun _ => True) (fun x k => wrx x k v) (fun _ => v) a (b + 1 - a) x) as [x' [E [L [I O]]]]; auto; try lia.
  exists x'. split; auto. split; auto. split; [intros; apply I; lia|intros; apply O; lia].
Qed.
Lemma fill_line_ok x nb a b s xb : 1 <= a <= b -> b <= length x -> nb < a -> rd x nb = Some xb ->
  exists x', fill_line x nb a b s = Some x' /\ length x' = length x /\
  (forall k, a <= k <= b -> rd x' k = Some (xb + s * qz (Z.of_nat (k - nb)))%Qc) /\ (forall k, ~ (a <= k <= b) -> rd x' k = rd x k).
Proof.
  intros Ha Hb Hn R. destruct (range_ok (fun y => rd y nb = Some xb) (fun x nn => let* xb := rd x nb in wrx x nn (xb + s * qz (Z.of_nat (nn - nb)))%Qc)
    (fun k => (xb + s * qz (Z.of_nat (k - nb)))%Qc) a (b + 1 - a) x) as [x' [E [L [I O]]]]; auto; try lia.
  - intros y k Hk Py _. rewrite Py. reflexivity.
  - intros y k Hk Py. rewrite rd_wr_neq by lia. auto.
  - exists x'. split; auto. split; auto. split; [intros; apply I; lia|intros; apply O; lia].
Qed.

(** ** The specification in 1-based reads *)
Lemma nth_rd (T : Type) (l : list T) k : nth_error l k = rd l (k + 1). Proof. rewrite Nat.add_1_r. reflexivity. Qed.
Lemma rd_nth (T : Type) (l : list T) k : 1 <= k -> rd l k = nth_error l (k - 1). Proof. destruct k; [lia|]. simpl. rewrite Nat.sub_0_r. auto. Qed.
Definition gap1 (l : list Qc) m a b := 1 <= a <= b /\ b <= length l /\ (forall k, a <= k <= b -> rd l k = Some m) /\ (a = 1 \/ rd l (a - 1) <> Some m) /\ rd l (b + 1) <> Some m.
Lemma gap_of_gap1 l m a b : gap1 l m a b -> gap l m (a - 1) b.
Proof.
  intros [H1 [H2 [H3 [H4 H5]]]]. split; [lia|]. split; [intros k Hk; rewrite nth_rd; apply H3; lia|]. split.
  - destruct H4 as [->|H4]; [auto|]. destruct (Nat.eq_dec a 1) as [->|N]; auto. right. rewrite nth_rd. replace (a - 1 - 1 + 1) with (a - 1) by lia. auto.
  - rewrite nth_rd. auto.
Qed.
Lemma gap_unique l m k a b a' b' : gap l m a b -> a <= k < b -> gap l m a' b' -> a' <= k < b' -> a = a' /\ b = b'.
Proof.
  intros [L [I [S E]]] H [L' [I' [S' E']]] H'. split.
  - destruct (Nat.lt_trichotomy a a') as [C|[C|C]]; auto; exfalso.
    + destruct S' as [->|S']; [lia|]. apply S'. apply I. lia.
    + destruct S as [->|S]; [lia|]. apply S. apply I'. lia.
  - destruct (Nat.lt_trichotomy b b') as [C|[C|C]]; auto; exfalso; [apply E, I'|apply E', I]; lia.
Qed.
Lemma gap_not_valid l m k a b v : gap l m a b -> a <= k < b -> nth_error l k = Some v -> v = m.
Proof. intros [_ [I _]] H E. rewrite I in E by auto. congruence. Qed.
Lemma nth_len (T : Type) (l : list T) v : nth_error l (length l) = Some v -> False.
Proof. intros E. assert (length l < length l) by (apply nth_error_Some; congruence). lia. Qed.
Lemma filled_unique ends limit l m k v v' : filled ends limit l m k v -> filled ends limit l m k v' -> v = v'.
Proof.
  intros F F'.
  destruct F as [v E N|a b u v G H Z U V Lm|a b G H Z Lb Lm|b v G H V|a u G H Z U|G H], F' as [v' E' N'|a' b' u' v' G' H' Z' U' V' Lm'|a' b' G' H' Z' Lb' Lm'|b' v' G' H' V'|a' u' G' H' Z' U'|G' H'];
    try congruence;
    try (exfalso; apply N; eapply gap_not_valid; [| |exact E]; [eassumption|lia]);
    try (exfalso; apply N'; eapply gap_not_valid; [| |exact E']; [eassumption|lia]);
    match goal with G1 : gap _ _ ?a ?b, G2 : gap _ _ ?a' ?b' |- _ => first [constr_eq G1 G2; fail 1| destruct (gap_unique l m k a b a' b' G1 ltac:(lia) G2 ltac:(lia)) as [Ea Eb]] end; subst; try lia; try congruence.
  - destruct (nth_len _ _ _ V).
  - rewrite V in V'. injection V' as ->. auto.
  - destruct (nth_len _ _ _ V).
  - destruct (nth_len _ _ _ V').
  - rewrite U in U'. injection U' as ->. auto.
  - destruct (nth_len _ _ _ V').
Qed.
