From Verif Require Import Base Buffer Loops VH_Model VH_Proofs IS_Proofs IS_Proofs2 LM_Model LM_Spec LM_Proofs.
Local Open Scope nat_scope.

Section L.
Variables (l : list Qc) (m : Qc).
Notation N := (length l).

Lemma gap_exists k : rd l k = Some m -> exists a b, gap1 l m a b /\ a <= k <= b.
Proof.
  intros H. assert (Hb := rd_Some_bounds _ _ H).
  assert (U : exists b, k <= b <= N /\ (forall j, k <= j <= b -> rd l j = Some m) /\ rd l (b + 1) <> Some m).
  { assert (G : forall d b, N - b <= d -> k <= b <= N -> (forall j, k <= j <= b -> rd l j = Some m) -> exists b', k <= b' <= N /\ (forall j, k <= j <= b' -> rd l j = Some m) /\ rd l (b' + 1) <> Some m).
    { induction d as [|d IH]; intros b Hd Hkb Hj.
      - exists b. split; auto. split; auto. rewrite rd_None; [discriminate|lia].
      - destruct (Nat.eq_dec b N) as [->|C]. { exists N. split; auto. split; auto. rewrite rd_None; [discriminate|lia]. }
        destruct (rd_Some l (i := b + 1)) as [v Ev]; [lia|]. destruct (Qc_eq_dec v m) as [->|Nv].
        + destruct (IH (b + 1)) as [b' Hb']; try lia; [|eauto]. intros j Hj'. destruct (Nat.eq_dec j (b + 1)) as [->|]; auto. apply Hj. lia.
        + exists b. split; auto. split; auto. congruence. }
    apply (G N k); try lia. intros j Hj. replace j with k by lia. auto. }
  assert (D : exists a, 1 <= a <= k /\ (forall j, a <= j <= k -> rd l j = Some m) /\ (a = 1 \/ rd l (a - 1) <> Some m)).
  { assert (G : forall d a, a <= d -> 1 <= a <= k -> (forall j, a <= j <= k -> rd l j = Some m) -> exists a', 1 <= a' <= k /\ (forall j, a' <= j <= k -> rd l j = Some m) /\ (a' = 1 \/ rd l (a' - 1) <> Some m)).
    { induction d as [|d IH]; intros a Hd Hka Hj; [lia|].
      destruct (Nat.eq_dec a 1) as [->|C]; [exists 1; auto|].
      destruct (rd_Some l (i := a - 1)) as [v Ev]; [lia|]. destruct (Qc_eq_dec v m) as [->|Nv].
      - destruct (IH (a - 1)) as [a' Ha']; try lia; [|eauto]. intros j Hj'. destruct (Nat.eq_dec j (a - 1)) as [->|]; auto. apply Hj. lia.
      - exists a. split; auto. split; auto. right. congruence. }
    apply (G k k); try lia. intros j Hj. replace j with k by lia. auto. }
  destruct U as [b [U1 [U2 U3]]], D as [a [D1 [D2 D3]]]. exists a, b. split; [|lia]. split; [lia|]. split; [lia|]. split; auto.
  intros j Hj. destruct (Nat.le_gt_cases j k); [apply D2|apply U2]; lia.
Qed.
(** position k (counted from 1) when every position up to it is missing *)
Lemma edge_m limit k : (forall j, 1 <= j <= k -> rd l j = Some m) -> 1 <= k -> filled false limit l m (k - 1) m.
Proof.
  intros H Hk. destruct (gap_exists k) as [a [b [G Hab]]]; [apply H; lia|]. assert (a = 1) as ->.
  { pose proof G as [G1 [_ [_ [G4 _]]]]. destruct G4 as [|G4]; auto. destruct (Nat.eq_dec a 1); auto. exfalso. apply G4. apply H. lia. }
  apply gap_of_gap1 in G as G'. pose proof G as [G1 [G2 _]]. destruct (Nat.eq_dec b N) as [->|C].
  - apply f_none; [exact G'|lia].
  - destruct (rd_Some l (i := b + 1)) as [v Ev]; [lia|]. rewrite <- nth_rd in Ev. exact (f_lead false limit l m (k - 1) b v G' ltac:(lia) Ev).
Qed.

Variables (ends : bool) (limit : Z).
Definition done (x : list Qc) (n : nat) := forall k v, 1 <= k <= n -> rd x k = Some v -> filled ends limit l m (k - 1) v.
Lemma done_valid k v : 1 <= k -> rd l k = Some v -> v <> m -> filled ends limit l m (k - 1) v.
Proof. intros Hk E Hv. apply f_valid; auto. rewrite <- rd_nth; auto. Qed.
Lemma filled_valid k v w : 1 <= k -> rd l k = Some v -> v <> m -> filled ends limit l m (k - 1) w -> w = v.
Proof. intros Hk E Hv F. eapply filled_unique; [exact F|]. apply done_valid; auto. Qed.
Lemma done_line a b k u v : gap1 l m a b -> a <= k <= b -> 1 < a -> rd l (a - 1) = Some u -> rd l (b + 1) = Some v -> (Z.of_nat (b + 1 - a) <= limit)%Z ->
  filled ends limit l m (k - 1) (on_line (a - 2) u b v (k - 1)).
Proof.
  intros G Hk Ha U V Z. apply gap_of_gap1 in G as G'. replace (a - 2) with (a - 1 - 1) by lia. apply f_line; auto; try lia.
  - rewrite <- rd_nth by lia. auto.
  - rewrite nth_rd. auto.
Qed.
Lemma done_long a b k v : gap1 l m a b -> a <= k <= b -> 1 < a -> rd l (b + 1) = Some v -> (limit < Z.of_nat (b + 1 - a))%Z -> filled ends limit l m (k - 1) m.
Proof.
  intros G Hk Ha V Z. apply gap_of_gap1 in G as G'. apply f_long with (a - 1) b; auto; try lia. apply rd_Some_bounds in V. lia.
Qed.
Lemma done_lead b k v : gap1 l m 1 b -> 1 <= k <= b -> rd l (b + 1) = Some v -> filled ends limit l m (k - 1) (if ends && (Z.of_nat b <=? limit)%Z then v else m).
Proof. intros G Hk V. apply gap_of_gap1 in G as G'. apply f_lead; auto; try lia. rewrite nth_rd. auto. Qed.
Lemma done_trail a k u : gap1 l m a N -> a <= k <= N -> 1 < a -> rd l (a - 1) = Some u -> filled ends limit l m (k - 1) (if ends then u else m).
Proof. intros G Hk Ha U. apply gap_of_gap1 in G as G'. apply f_trail with (a - 1); auto; try lia. rewrite <- rd_nth by lia. auto. Qed.
Lemma done_none k : gap1 l m 1 N -> 1 <= k <= N -> filled ends limit l m (k - 1) m.
Proof. intros G Hk. apply gap_of_gap1 in G as G'. apply f_none; auto. lia. Qed.
Lemma all_filled_done x : length x = N -> done x N -> all_filled ends limit l m x.
Proof.
  intros L D. split; auto. intros k v E. rewrite nth_rd in E. assert (B := rd_Some_bounds _ _ E). replace k with (k + 1 - 1) by lia. apply D; auto. lia.
Qed.
End L.

Section General.
Variables (l : list Qc) (m : Qc) (mflag mptcrt : Z).
Notation N := (length l).
Notation ends := (mflag <? 0)%Z.
Notation limit := (Z.abs mptcrt).
Notation done := (done l m ends limit).

Definition inv (n : nat) (st : list Qc * (nat * (nat * bool))) : Prop :=
  let '(x, (ns, (ne, seen))) := st in
  length x = N /\ (forall k, n < k -> rd x k = rd l k) /\ (seen = true <-> exists k, 1 <= k <= n /\ rd l k <> Some m) /\
  ((ns = 0 /\ (n = 0 \/ rd l n <> Some m) /\ done x n) \/
   (1 <= ns <= n /\ ne = n /\ (forall k, ns <= k <= n -> rd l k = Some m /\ rd x k = Some m) /\ (ns = 1 \/ rd l (ns - 1) <> Some m) /\ done x (ns - 1))).
Lemma line_eq a k (u v : Qc) n : 1 < a -> a <= k -> k < n ->
  (u + (v - u) / qz (Z.of_nat (n - (a - 1))) * qz (Z.of_nat (k - (a - 1))))%Qc = on_line (a - 2) u (n - 1) v (k - 1).
Proof.
  intros Ha Hk Hn. unfold on_line. replace (Z.of_nat (k - 1) - Z.of_nat (a - 2))%Z with (Z.of_nat (k - (a - 1))) by lia.
  replace (Z.of_nat (n - 1) - Z.of_nat (a - 2))%Z with (Z.of_nat (n - (a - 1))) by lia.
  assert (D : qz (Z.of_nat (n - (a - 1))) <> 0%Qc). { rewrite <- qz_0. intros E. apply qz_inj in E. lia. }
  set (p := qz (Z.of_nat (n - (a - 1)))) in *. set (q := qz (Z.of_nat (k - (a - 1)))). clearbody p q. field. auto.
Qed.
Lemma step_inv n st : n < N -> inv n st -> exists st', linmsg_step m mflag limit st (n + 1) = Some st' /\ inv (n + 1) st'.
Proof.
  destruct st as [x [ns [ne seen]]]. intros Hn [L [A [S H]]]. unfold linmsg_step.
  destruct (rd_Some l (i := n + 1)) as [xn Exn]; [lia|]. rewrite A, Exn by lia. cbn [bind].
  destruct (Qceqb_spec xn m) as [->|Nm].
  - (* missing *)
    eexists. split; [reflexivity|]. split; auto. split; [intros; apply A; lia|]. split.
    { rewrite S. split; intros [k [K1 K2]]; exists k; split; auto; try lia. destruct (Nat.eq_dec k (n + 1)) as [->|]; [contradiction|lia]. }
    right. destruct H as [[-> [H1 H2]]|[H1 [-> [H2 [H3 H4]]]]].
    + cbn [Nat.eqb]. split; [lia|]. split; auto. split; [intros k Hk; replace k with (n + 1) by lia; rewrite A by lia; auto|]. split.
      * destruct H1 as [->|H1]; auto. right. rewrite Nat.add_sub. auto.
      * rewrite Nat.add_sub. auto.
    + destruct (Nat.eqb_spec ns 0); [lia|]. split; [lia|]. split; auto. split; auto. intros k Hk. destruct (Nat.eq_dec k (n + 1)) as [->|]; [rewrite A by lia; auto|apply H2; lia].
  - assert (SN : true = true <-> exists k, 1 <= k <= n + 1 /\ rd l k <> Some m).
    { split; auto. intros _. exists (n + 1). split; [lia|congruence]. }
    destruct H as [[-> [H1 H2]]|[H1 [-> [H2 [H3 H4]]]]].
    + cbn [Nat.eqb]. eexists. split; [reflexivity|]. split; auto. split; [intros; apply A; lia|]. split; auto. left. split; auto. split; [right; congruence|].
      intros k v Hk Ev. destruct (Nat.eq_dec k (n + 1)) as [->|]; [|apply H2; auto; lia]. rewrite A in Ev by lia. apply done_valid; [lia|auto|congruence].
    + destruct (Nat.eqb_spec ns 0); [lia|].
      assert (G : gap1 l m ns n). { split; [lia|]. split; [lia|]. split; [intros; apply H2; auto|]. split; auto. congruence. }
      assert (FIN : forall x', length x' = N -> (forall k, ~ (ns <= k <= n) -> rd x' k = rd x k) -> (forall k v, ns <= k <= n -> rd x' k = Some v -> filled ends limit l m (k - 1) v) ->
        inv (n + 1) (x', (0, (0, true)))).
      { intros x' L' O I. split; auto. split; [intros k Hk; rewrite O, A by lia; auto|]. split; auto. left. split; auto. split; [right; congruence|].
        intros k v Hk Ev. destruct (Nat.eq_dec k (n + 1)) as [->|]. { rewrite O, A in Ev by lia. apply done_valid; [lia|auto|congruence]. }
        destruct (Nat.le_gt_cases ns k) as [C|C]; [apply I; auto; lia|]. apply H4; [lia|]. rewrite O in Ev by lia. auto. }
      destruct (Z.leb_spec (Z.of_nat n - Z.of_nat ns + 1) limit) as [C|C].
      * destruct (Nat.eqb_spec ns 1) as [->|C1].
        -- destruct ends eqn:EE.
           ++ destruct (set_range_ok x 1 n xn) as [x' [E [L' [I O]]]]; try lia. rewrite E. cbn [bind]. eexists. split; [reflexivity|]. apply FIN; [lia|auto|].
              intros k v Hk Ev. rewrite I in Ev by auto. injection Ev as <-. pose proof (done_lead l m ends limit n k xn G Hk Exn) as X. rewrite EE in X. cbn [andb] in X.
              destruct (Z.leb_spec (Z.of_nat n) limit); [auto|lia].
           ++ destruct (set_range_ok x 1 n m) as [x' [E [L' [I O]]]]; try lia. rewrite E. cbn [bind]. eexists. split; [reflexivity|]. apply FIN; [lia|auto|].
              intros k v Hk Ev. rewrite I in Ev by auto. injection Ev as <-. pose proof (done_lead l m ends limit n k xn G Hk Exn) as X. rewrite EE in X. exact X.
        -- destruct (rd_Some l (i := ns - 1)) as [u Eu]; [lia|]. assert (Nu : u <> m). { intros ->. destruct H3; [lia|contradiction]. }
           destruct (rd_Some x (i := ns - 1)) as [u' Eu']; [lia|]. assert (u' = u) as ->. { eapply filled_valid; [|exact Eu|exact Nu|apply H4; [|exact Eu']]; lia. }
           rewrite Eu'. cbn [bind].
           destruct (fill_line_ok x (ns - 1) ns n ((xn - u) / qz (Z.of_nat (n + 1 - (ns - 1))))%Qc u) as [x' [E [L' [I O]]]]; try lia; auto.
           rewrite E. cbn [bind]. eexists. split; [reflexivity|]. apply FIN; [lia|auto|].
           intros k v Hk Ev. rewrite I in Ev by auto. injection Ev as <-. rewrite line_eq by lia. rewrite Nat.add_sub. apply done_line; auto; lia.
      * cbn [bind]. eexists. split; [reflexivity|]. apply FIN; auto. intros k v Hk Ev. destruct (H2 k Hk) as [_ X]. rewrite X in Ev. injection Ev as <-.
        destruct (Nat.eq_dec ns 1) as [->|C1].
        -- pose proof (done_lead l m ends limit n k xn G Hk Exn) as Y. destruct (Z.leb_spec (Z.of_nat n) limit); [lia|]. rewrite andb_false_r in Y. auto.
        -- eapply done_long; eauto; lia.
Qed.
Lemma loop_inv j : forall n st, n + j = N -> inv n st -> exists st', foldM (linmsg_step m mflag limit) (seq (n + 1) j) st = Some st' /\ inv N st'.
Proof.
  induction j as [|j IH]; intros n st Hn I.
  - exists st. split; auto. replace N with n by lia. auto.
  - cbn [seq foldM]. destruct (step_inv n st) as [st1 [E I1]]; auto; [lia|]. rewrite E. cbn [bind].
    destruct (IH (n + 1) st1) as [st2 [E2 I2]]; auto; [lia|]. exists st2. split; auto. rewrite <- E2. f_equal. f_equal. lia.
Qed.
Lemma dlinmsg_ok : exists out, dlinmsg l m mflag mptcrt = Some out /\ all_filled ends limit l m out.
Proof.
  unfold dlinmsg. destruct (loop_inv N 0 (l, (0, (0, false)))) as [[x [ns [ne seen]]] [E [L [A [S H]]]]]; auto.
  { split; auto. split; auto. split; [split; [discriminate|intros [k [K _]]; lia]|]. left. split; auto. split; auto. intros k v Hk. lia. }
  cbn [Nat.add] in E. rewrite E. cbn [bind].
  destruct H as [[-> [H1 H2]]|[H1 [-> [H2 [H3 H4]]]]].
  - cbn [Nat.eqb negb andb]. exists x. split; auto. apply all_filled_done; auto.
  - destruct (Nat.eqb_spec ns 0); [lia|]. rewrite Nat.eqb_refl. cbn [negb andb].
    assert (G : gap1 l m ns N). { split; [lia|]. split; [lia|]. split; [intros; apply H2; auto|]. split; auto. rewrite rd_None; [discriminate|lia]. }
    destruct seen; cbn [negb].
    + assert (Hs : ns <> 1). { intros ->. destruct (proj1 S eq_refl) as [k [K1 K2]]. apply K2. apply H2. lia. }
      destruct (rd_Some l (i := ns - 1)) as [u Eu]; [lia|]. assert (Nu : u <> m). { intros ->. destruct H3; [lia|contradiction]. }
      destruct (rd_Some x (i := ns - 1)) as [u' Eu']; [lia|]. assert (u' = u) as ->. { eapply filled_valid; [|exact Eu|exact Nu|apply H4; [|exact Eu']]; lia. }
      rewrite Eu'. cbn [bind].
      assert (X : exists x', (if ends then set_range x ns N u else set_range x ns N m) = Some x' /\ length x' = length x /\ (forall k, ns <= k <= N -> rd x' k = Some (if ends then u else m)) /\ (forall k, ~ (ns <= k <= N) -> rd x' k = rd x k)).
      { destruct ends; apply set_range_ok; lia. }
      destruct X as [x' [E' [L' [I O]]]]. exists x'. split; auto. apply all_filled_done; [lia|]. intros k v Hk Ev.
      destruct (Nat.le_gt_cases ns k) as [C|C].
      * rewrite I in Ev by lia. injection Ev as <-. apply (done_trail l m ends limit ns); auto; lia.
      * rewrite O in Ev by lia. apply H4; auto; lia.
    + assert (ns = 1) as ->. { destruct (Nat.eq_dec ns 1); auto. destruct H3 as [|H3]; auto. exfalso. assert (false = true); [|discriminate]. apply S. exists (ns - 1). split; [lia|auto]. }
      exists x. split; auto. apply all_filled_done; auto. intros k v Hk Ev. destruct (H2 k) as [_ X]; [lia|]. rewrite X in Ev. injection Ev as <-. apply done_none; auto.
Qed.
End General.
