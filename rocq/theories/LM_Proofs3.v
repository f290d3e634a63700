From Verif Require Import Base Buffer Loops VH_Model VH_Proofs IS_Proofs IS_Proofs2 LM_Model LM_Spec LM_Proofs LM_Proofs2.
Local Open Scope nat_scope.

Section Short.
Variables (l : list Qc) (m : Qc).
Notation N := (length l).
Notation done := (done l m false 2).

Lemma skip_ok x : length x = N -> forall fuel n, N + 1 - n < fuel -> 1 <= n <= N + 1 ->
  exists n', skip_missing fuel x m n = Some n' /\ n <= n' <= N + 1 /\ (forall k, n <= k < n' -> rd x k = Some m) /\ (n' <= N -> rd x n' <> Some m).
Proof.
  intros L. induction fuel as [|fuel IH]; intros n Hf Hn; [lia|]. cbn [skip_missing]. rewrite L.
  destruct (Nat.ltb_spec N n) as [C|C]. { exists n. split; auto. split; [lia|]. split; intros; lia. }
  destruct (rd_Some x (i := n)) as [v Ev]; [lia|]. rewrite Ev. cbn [bind]. destruct (Qceqb_spec v m) as [->|Nv].
  - destruct (IH (n + 1)) as [n' [E [H1 [H2 H3]]]]; try lia. exists n'. split; auto. split; [lia|]. split; auto.
    intros k Hk. destruct (Nat.eq_dec k n) as [->|]; auto. apply H2. lia.
  - exists n. split; auto. split; [lia|]. split; [intros; lia|]. intros _. congruence.
Qed.
Definition inv2 (x : list Qc) (n : nat) : Prop :=
  length x = N /\ 2 <= n /\ n <= N + 1 /\ (forall k, n <= k -> rd x k = rd l k) /\ done x (n - 1) /\
  (rd l n = Some m -> (forall k, 1 <= k < n -> rd l k = Some m) \/ rd l (n - 1) <> Some m).
Lemma exit_ok x n : 2 < N -> inv2 x n -> N - 1 < n -> all_filled false 2 l m x.
Proof.
  intros HN [L [H2 [Hn [A [D H]]]]] C. apply all_filled_done; auto. intros k v Hk Ev.
  destruct (Nat.le_gt_cases k (n - 1)) as [K|K]; [apply D; auto; lia|]. assert (k = n) as -> by lia. assert (n = N) as -> by lia.
  rewrite A in Ev by lia. destruct (Qc_eq_dec v m) as [->|Nv]; [|apply done_valid; auto; lia].
  destruct (H Ev) as [X|X].
  - apply edge_m; [|lia]. intros j Hj. destruct (Nat.eq_dec j N) as [->|]; auto. apply X. lia.
  - destruct (rd_Some l (i := N - 1)) as [u Eu]; [lia|].
    apply (done_trail l m false 2 N N u); auto; try lia. split; [lia|]. split; [lia|]. split; [intros k Hk'; replace k with N by lia; auto|]. split; [right; auto|].
    rewrite rd_None; [discriminate|lia].
Qed.
Lemma half_sum (u v : Qc) : (dec 5 10 * (u + v))%Qc = (u + (v - u) * (qz 1 / qz 2))%Qc.
Proof. unfold dec. replace (qz 10) with (qz 2 * qz 5)%Qc by (rewrite <- qz_mul; reflexivity). change (qz 1) with 1%Qc. replace (qz 2) with (1 + 1)%Qc by (rewrite <- qz_1, <- qz_add; reflexivity). field. split; intros E; apply (f_equal this) in E; vm_compute in E; discriminate. Qed.
Lemma loop_ok fuel : 2 < N -> forall x n, N + 1 - n < fuel -> inv2 x n -> exists out, short_gaps_loop fuel x m n = Some out /\ all_filled false 2 l m out.
Proof.
  intros HN. induction fuel as [|fuel IH]; intros x n Hf I; [lia|]. cbn [short_gaps_loop]. pose proof I as [L [H2 [Hn [A [D H]]]]]. rewrite L.
  destruct (Nat.leb_spec n (N - 1)) as [C|C]; [|exists x; split; auto; apply exit_ok with n; auto; lia].
  destruct (rd_Some l (i := n)) as [v Ev]; [lia|]. rewrite A, Ev by lia. cbn [bind]. destruct (Qceqb_spec v m) as [->|Nv]; cbn [negb].
  - destruct (skip_ok x L (N + 1) n) as [n' [E [K1 [K2 K3]]]]; try lia. rewrite E. cbn [bind].
    assert (Q : forall k, n <= k < n' -> rd l k = Some m) by (intros k Hk; rewrite <- A by lia; auto).
    assert (n <> n'). { intros <-. apply K3; [lia|]. rewrite A; auto. }
    assert (Q3 : n' <= N -> rd l n' <> Some m) by (intros Z; rewrite <- A by lia; auto).
    (* going on from n' with the run n..n'-1 left as it is *)
    assert (SAME : (forall k, n <= k < n' -> filled false 2 l m (k - 1) m) -> inv2 x n').
    { intros F. split; auto. split; [lia|]. split; [lia|]. split; [intros; apply A; lia|]. split.
      - intros k w Hk Ew. destruct (Nat.le_gt_cases n k) as [Z|Z]; [|apply D; auto; lia]. rewrite K2 in Ew by lia. injection Ew as <-. apply F. lia.
      - intros Z. exfalso. destruct (Nat.le_gt_cases n' N); [apply Q3; auto|]. rewrite rd_None in Z; [discriminate|lia]. }
    assert (GO : inv2 x n' -> exists out, short_gaps_loop fuel x m n' = Some out /\ all_filled false 2 l m out) by (intros X; apply IH; auto; lia).
    destruct (H Ev) as [X|X].
    + (* leading run *)
      assert (F : forall k, n <= k < n' -> filled false 2 l m (k - 1) m).
      { intros k Hk. apply edge_m; [|lia]. intros j Hj. destruct (Nat.le_gt_cases n j); [apply Q; lia|apply X; lia]. }
      destruct ((N <? n') || (2 <? n' - n)) eqn:T; [apply GO, SAME, F|]. apply orb_false_iff in T. destruct T as [T1 T2]. apply Nat.ltb_ge in T1.
      destruct (rd_Some x (i := n')) as [r Er]; [lia|]. rewrite Er.
      destruct (rd_Some x (i := n - 1)) as [u Eu]; [lia|]. rewrite Eu. cbn [bind].
      assert (u = m) as ->. { eapply filled_unique; [apply D; [|exact Eu]; lia|]. apply edge_m; [intros j Hj; apply X; lia|lia]. }
      destruct (Qceqb_spec m m); [|congruence]. cbn [orb]. apply GO, SAME, F.
    + destruct (rd_Some l (i := n - 1)) as [u Eu]; [lia|]. assert (Nu : u <> m) by (intros ->; auto).
      destruct (Nat.ltb_spec N n') as [T|T].
      { cbn [orb]. apply GO, SAME. intros k Hk. assert (n' = N + 1) as -> by lia. apply (done_trail l m false 2 n k u); auto; try lia.
        split; [lia|]. split; [lia|]. split; [intros; apply Q; lia|]. split; [right; congruence|]. rewrite rd_None; [discriminate|lia]. }
      cbn [orb]. assert (G : gap1 l m n (n' - 1)).
      { split; [lia|]. split; [lia|]. split; [intros; apply Q; lia|]. split; [right; congruence|]. replace (n' - 1 + 1) with n' by lia. auto. }
      destruct (rd_Some l (i := n')) as [r Er]; [lia|]. assert (Er1 : rd l (n' - 1 + 1) = Some r) by (replace (n' - 1 + 1) with n' by lia; auto).
      destruct (Nat.ltb_spec 2 (n' - n)) as [T2|T2]. { apply GO, SAME. intros k Hk. eapply done_long; eauto; lia. }
      destruct (rd_Some x (i := n - 1)) as [u' Eu']; [lia|]. assert (u' = u) as ->. { eapply filled_valid; [|exact Eu|exact Nu|apply D; [|exact Eu']]; lia. }
      rewrite Eu'. rewrite (A n') by lia. rewrite Er. cbn [bind]. destruct (Qceqb_spec u m); [contradiction|]. destruct (Qceqb_spec r m) as [->|Nr]; [destruct (Q3 T Er)|]. cbn [orb].
      assert (LINE : forall k w, n <= k < n' -> w = on_line (n - 2) u (n' - 1) r (k - 1) -> filled false 2 l m (k - 1) w).
      { intros k w Hk ->. apply done_line; auto; lia. }
      assert (NEW : forall x', length x' = N -> (forall k, ~ (n <= k < n') -> rd x' k = rd x k) -> (forall k w, n <= k < n' -> rd x' k = Some w -> filled false 2 l m (k - 1) w) -> inv2 x' n').
      { intros x' L' O F. split; auto. split; [lia|]. split; [lia|]. split; [intros; rewrite O, A by lia; auto|]. split.
        - intros k w Hk Ew. destruct (Nat.le_gt_cases n k) as [Z|Z]; [apply F; auto; lia|]. rewrite O in Ew by lia. apply D; auto; lia.
        - intros Z. congruence. }
      destruct (Nat.eqb_spec (n' - n) 1) as [T1|T1].
      * rewrite wrx_ok by lia. cbn [bind]. apply IH; [lia|]. apply NEW; [rewrite wr_length; auto|intros; apply rd_wr_neq; lia|].
        intros k w Hk Ew. assert (k = n) as -> by lia. rewrite rd_wr_eq in Ew by lia. injection Ew as <-. apply LINE; auto.
        unfold on_line. replace (Z.of_nat (n - 1) - Z.of_nat (n - 2))%Z with 1%Z by lia. replace (Z.of_nat (n' - 1) - Z.of_nat (n - 2))%Z with 2%Z by lia. apply half_sum.
      * assert (n' = n + 2) as -> by lia. rewrite wrx_ok by lia. cbn [bind]. rewrite wrx_ok by (rewrite wr_length; lia). cbn [bind].
        apply IH; [lia|]. apply NEW; [rewrite !wr_length; auto|intros; rewrite !rd_wr_neq by lia; auto|].
        assert (D3 : qz 3 <> 0%Qc) by (intros Z; apply (f_equal this) in Z; vm_compute in Z; discriminate).
        intros k w Hk Ew. apply LINE; auto. unfold on_line. replace (Z.of_nat (n + 2 - 1) - Z.of_nat (n - 2))%Z with 3%Z by lia.
        destruct (Nat.eq_dec k n) as [->|C1].
        -- rewrite rd_wr_neq, rd_wr_eq in Ew by lia. injection Ew as <-. replace (Z.of_nat (n - 1) - Z.of_nat (n - 2))%Z with 1%Z by lia. rewrite qz_1. field. auto.
        -- assert (k = n + 1) as -> by lia. rewrite rd_wr_eq in Ew by (rewrite wr_length; lia). injection Ew as <-. replace (Z.of_nat (n + 1 - 1) - Z.of_nat (n - 2))%Z with 2%Z by lia. field. auto.
  - apply IH; [lia|]. split; auto. split; [lia|]. split; [lia|]. split; [intros; apply A; lia|]. split.
    + intros k w Hk Ew. destruct (Nat.eq_dec k n) as [->|]; [|apply D; auto; lia]. rewrite A, Ev in Ew by lia. injection Ew as <-. apply done_valid; auto; lia.
    + intros _. right. rewrite Nat.add_sub. congruence.
Qed.
Lemma short_ok : exists out, dlinmsg_interior_short_gaps l m = Some out /\ all_filled false 2 l m out.
Proof.
  unfold dlinmsg_interior_short_gaps. destruct (Nat.leb_spec N 2) as [C|C].
  - exists l. split; auto. apply all_filled_done; auto. intros k v Hk Ev. destruct (Qc_eq_dec v m) as [->|Nv]; [|apply done_valid; auto; lia].
    destruct (Nat.eq_dec k 1) as [->|]. { apply edge_m; [|lia]. intros j Hj. replace j with 1 by lia. auto. }
    assert (k = 2 /\ N = 2) as [-> HN] by lia. destruct (rd_Some l (i := 1)) as [u Eu]; [lia|]. destruct (Qc_eq_dec u m) as [->|Nu].
    + apply edge_m; [|lia]. intros j Hj. destruct (Nat.eq_dec j 1) as [->|]; auto. replace j with 2 by lia. auto.
    + apply (done_trail l m false 2 2 2 u); auto; try lia. split; [lia|]. split; [lia|]. split; [intros k Hk'; replace k with 2 by lia; auto|]. split; [right; simpl Nat.sub; congruence|].
      rewrite rd_None; [discriminate|lia].
  - apply loop_ok; try lia. split; auto. split; [lia|]. split; [lia|]. split; auto. split.
    + intros k v Hk Ev. assert (k = 1) as -> by lia. destruct (Qc_eq_dec v m) as [->|Nv]; [|apply done_valid; auto; lia]. apply edge_m; [|lia]. intros j Hj. replace j with 1 by lia. auto.
    + intros _. destruct (rd_Some l (i := 1)) as [u Eu]; [lia|]. destruct (Qc_eq_dec u m) as [->|Nu]; [left|right; simpl Nat.sub; congruence]. intros k Hk. replace k with 1 by lia. auto.
Qed.
End Short.
