(** Loop invariants for the sorting and selection kernels. *)
From Verif Require Import Base Buffer MKSort_Model.
Set Implicit Arguments.
Local Open Scope nat_scope.

Section Keyed.
Variable A : Type.
Variable key : A -> Qc.

Definition win_le (a : list A) lo hi (p : Qc) :=
  forall k v, lo <= k <= hi -> rd a k = Some v -> (key v <= p)%Qc.
Definition win_ge (a : list A) lo hi (p : Qc) :=
  forall k v, lo <= k <= hi -> rd a k = Some v -> (p <= key v)%Qc.
Definition win_sorted (a : list A) lo hi :=
  forall i k x y, lo <= i -> i <= k -> k <= hi -> rd a i = Some x -> rd a k = Some y -> (key x <= key y)%Qc.
Definition same_outside (a b : list A) lo hi :=
  forall k, k < lo \/ hi < k -> rd a k = rd b k.
(** every cell of the window of [a] held its value somewhere in the window of [b] *)
Definition from_win (a b : list A) lo hi :=
  forall k v, lo <= k <= hi -> rd a k = Some v -> exists k', lo <= k' <= hi /\ rd b k' = Some v.

(** *** scans *)
Lemma scan_up_spec a p s v lo hi : rd a s = Some v -> (p <= key v)%Qc -> s <= hi ->
  forall fuel i, 1 <= i <= s -> lo <= i -> s - i < fuel ->
  exists i' w, scan_up key fuel lo hi a p i = Some i' /\ i <= i' <= s /\
    win_le a i (i' - 1) p /\ rd a i' = Some w /\ (p <= key w)%Qc.
Proof.
  intros Hs Hp Hhi. induction fuel as [|f IH]; intros i Hi Hlo Hf; [lia|].
  pose proof (rd_Some_bounds _ _ Hs) as Bs.
  destruct (rd_Some a (i:=i) ltac:(lia)) as [w Ew]. cbn [scan_up]. rewrite rdw_in by lia. rewrite Ew.
  destruct (Qcltb_spec (key w) p) as [L|L].
  - assert (i <> s). { intros ->. rewrite Hs in Ew. injection Ew as ->. exact (Qclt_not_le _ _ L Hp). }
    destruct (IH (i+1) ltac:(lia) ltac:(lia) ltac:(lia)) as (i' & w' & E & B & W & R & G).
    exists i', w'. repeat split; auto; try lia.
    intros k x Hk Hx. destruct (Nat.eq_dec k i).
    + subst. rewrite Ew in Hx. injection Hx as <-. apply Qclt_le_weak; auto.
    + apply (W k); auto; lia.
  - exists i, w. repeat split; auto; try lia.
    + intros k x Hk. lia.
    + apply Qcnot_lt_le; auto.
Qed.

Lemma scan_down_spec a p s v lo hi : rd a s = Some v -> (key v <= p)%Qc -> lo <= s ->
  forall fuel j, s <= j <= length a -> j <= hi -> j - s < fuel ->
  exists j' w, scan_down key fuel lo hi a p j = Some j' /\ s <= j' <= j /\
    win_ge a (j' + 1) j p /\ rd a j' = Some w /\ (key w <= p)%Qc.
Proof.
  intros Hs Hp Hlo. induction fuel as [|f IH]; intros j Hj Hhi Hf; [lia|].
  pose proof (rd_Some_bounds _ _ Hs) as Bs.
  destruct (rd_Some a (i:=j) ltac:(lia)) as [w Ew]. cbn [scan_down]. rewrite rdw_in by lia. rewrite Ew.
  destruct (Qcltb_spec p (key w)) as [L|L].
  - assert (j <> s). { intros ->. rewrite Hs in Ew. injection Ew as ->. exact (Qclt_not_le _ _ L Hp). }
    destruct (IH (j-1) ltac:(lia) ltac:(lia) ltac:(lia)) as (j' & w' & E & B & W & R & G).
    exists j', w'. repeat split; auto; try lia.
    intros k x Hk Hx. destruct (Nat.eq_dec k j).
    + subst. rewrite Ew in Hx. injection Hx as <-. apply Qclt_le_weak; auto.
    + apply (W k); auto; lia.
  - exists j, w. repeat split; auto; try lia.
    + intros k x Hk. lia.
    + apply Qcnot_lt_le; auto.
Qed.

Record part_post (a a' : list A) (p : Qc) (left right i j : nat) : Prop := {
  pp_len : length a' = length a;
  pp_perm : Permutation a' a;
  pp_out : same_outside a' a left right;
  pp_from : from_win a' a left right;
  pp_cross : j < i;
  pp_le : win_le a' left (i - 1) p;
  pp_ge : win_ge a' (j + 1) right p }.

Lemma part_loop_spec (p : Qc) left right : 1 <= left ->
  forall fuel a i j, right <= length a -> left <= i -> i <= j -> j <= right -> j - i < fuel ->
  win_le a left (i - 1) p -> win_ge a (j + 1) right p ->
  (exists s v, i <= s <= right /\ rd a s = Some v /\ (p <= key v)%Qc) ->
  (exists s v, left <= s <= j /\ rd a s = Some v /\ (key v <= p)%Qc) ->
  exists a' i' j', part_loop key fuel left right a p i j = Some (a', i', j') /\
    i <= i' <= right + 1 /\ left <= j' + 1 /\ j' <= j /\ part_post a a' p left right i' j' /\
    ((exists s v, i <= s <= j /\ rd a s = Some v /\ key v = p) -> i < i' /\ j' < j).
Proof.
  intros Hl. induction fuel as [|f IH]; intros a i j Hr Hi Hij Hj Hf WL WG S1 S2; [lia|].
  destruct S1 as (s1 & v1 & B1 & R1 & G1). destruct S2 as (s2 & v2 & B2 & R2 & G2).
  destruct (@scan_up_spec a p s1 v1 left right R1 G1 ltac:(lia) (S (length a)) i ltac:(lia) ltac:(lia) ltac:(lia))
    as (i1 & w1 & E1 & C1 & W1 & X1 & Y1).
  destruct (@scan_down_spec a p s2 v2 left right R2 G2 ltac:(lia) (S (length a)) j ltac:(lia) ltac:(lia) ltac:(lia))
    as (j1 & w2 & E2 & C2 & W2 & X2 & Y2).
  cbn [part_loop]. rewrite E1, E2.
  assert (WL1 : win_le a left (i1 - 1) p).
  { intros k x Hk Hx. destruct (Nat.lt_ge_cases k i). apply (WL k); auto; lia. apply (W1 k); auto; lia. }
  assert (WG1 : win_ge a (j1 + 1) right p).
  { intros k x Hk Hx. destruct (Nat.lt_ge_cases j k). apply (WG k); auto; lia. apply (W2 k); auto; lia. }
  assert (Hsent : (exists s v, i <= s <= j /\ rd a s = Some v /\ key v = p) -> i1 <= j1).
  { intros (s & v & B & R & K).
    destruct (@scan_up_spec a p s v left right R ltac:(rewrite K; apply Qcle_refl) ltac:(lia) (S (length a)) i
        ltac:(lia) ltac:(lia) ltac:(pose proof (rd_Some_bounds _ _ R); lia)) as (i1' & ? & E1' & C1' & _).
    destruct (@scan_down_spec a p s v left right R ltac:(rewrite K; apply Qcle_refl) ltac:(lia) (S (length a)) j
        ltac:(lia) ltac:(lia) ltac:(pose proof (rd_Some_bounds _ _ R); lia)) as (j1' & ? & E2' & C2' & _).
    rewrite E1 in E1'. rewrite E2 in E2'. injection E1' as <-. injection E2' as <-. lia. }
  destruct (Nat.leb_spec i1 j1) as [L|L].
  - set (a' := swap a i1 j1).
    assert (Li : length a' = length a) by apply swap_length.
    assert (Pa : Permutation a' a) by apply swap_perm.
    assert (Ri : rd a' i1 = Some w2). { unfold a'. rewrite rd_swap_l by lia. auto. }
    assert (Rj : rd a' j1 = Some w1). { unfold a'. rewrite rd_swap_r by lia. auto. }
    assert (Ro : forall k, k <> i1 -> k <> j1 -> rd a' k = rd a k).
    { intros k K1 K2. unfold a'. apply rd_swap_o; auto. }
    assert (Oa : same_outside a' a left right). { intros k Hk. apply Ro; lia. }
    assert (Fa : from_win a' a left right).
    { intros k x Hk Hx. destruct (Nat.eq_dec k i1). { exists j1. subst k. rewrite Ri in Hx. split; [lia|congruence]. }
      destruct (Nat.eq_dec k j1). { exists i1. subst k. rewrite Rj in Hx. split; [lia|congruence]. }
      exists k. rewrite Ro in Hx by lia. auto. }
    assert (WL2 : win_le a' left i1 p).
    { intros k x Hk Hx. destruct (Nat.eq_dec k i1). { subst k. rewrite Ri in Hx. injection Hx as <-. auto. }
      rewrite Ro in Hx by lia. apply (WL1 k); auto; lia. }
    assert (WG2 : win_ge a' j1 right p).
    { intros k x Hk Hx. destruct (Nat.eq_dec k j1). { subst k. rewrite Rj in Hx. injection Hx as <-. auto. }
      rewrite Ro in Hx by lia. apply (WG1 k); auto; lia. }
    destruct (Nat.ltb_spec (j1 - 1) (i1 + 1)) as [X|X].
    + exists a', (i1 + 1), (j1 - 1). split; [reflexivity|]. split; [lia|]. split; [lia|]. split; [lia|].
      split. 2:{ intros _; lia. }
      constructor; auto; try lia.
      * replace (i1 + 1 - 1) with i1 by lia. auto.
      * replace (j1 - 1 + 1) with j1 by lia. auto.
    + destruct (IH a' (i1 + 1) (j1 - 1)) as (a'' & i' & j' & E & B & B' & B'' & PP & _); try lia.
      * replace (i1 + 1 - 1) with i1 by lia. auto.
      * replace (j1 - 1 + 1) with j1 by lia. auto.
      * exists j1, w1. repeat split; auto; lia.
      * exists i1, w2. repeat split; auto; lia.
      * exists a'', i', j'. split; [exact E|]. split; [lia|]. split; [lia|]. split; [lia|].
        split. 2:{ intros _; lia. }
        destruct PP as [P1 P2 P3 PF P4 P5 P6]. constructor; auto; try congruence.
        -- eapply perm_trans; eauto.
        -- intros k Hk. rewrite P3 by auto. apply Oa; auto.
        -- intros k x Hk Hx. destruct (PF k x Hk Hx) as (k' & B1' & R1'). apply (Fa k'); auto.
  - exists a, i1, j1. split; [reflexivity|]. split; [lia|]. split; [lia|]. split; [lia|].
    split. { constructor; auto; try lia. intros k Hk; auto. intros k x Hk Hx; eauto. }
    intros HS. apply Hsent in HS. lia.
Qed.

(** Partition of a window with an attained pivot strictly shrinks both sides. *)
Lemma part_window a p left right s v : 1 <= left -> left < right -> right <= length a ->
  left <= s <= right -> rd a s = Some v -> key v = p ->
  exists a' i' j', part_loop key (S (length a)) left right a p left right = Some (a', i', j') /\
    left < i' <= right + 1 /\ left <= j' + 1 /\ j' < right /\ part_post a a' p left right i' j'.
Proof.
  intros H1 H2 H3 H4 H5 H6.
  destruct (@part_loop_spec p left right H1 (S (length a)) a left right) as (a' & i' & j' & E & B1 & B2 & B3 & PP & ST); try lia.
  - intros k x Hk; lia.
  - intros k x Hk; lia.
  - exists s, v. repeat split; auto; try lia. rewrite H6; apply Qcle_refl.
  - exists s, v. repeat split; auto; try lia. rewrite H6; apply Qcle_refl.
  - destruct ST as [S1 S2]. { exists s, v. repeat split; auto; lia. }
    exists a', i', j'. repeat split; auto; lia || apply PP.
Qed.

(** *** quicksort *)
Lemma mid_bounds left right : left <= right -> left <= left + (right - left) / 2 <= right.
Proof. intros H. assert ((right - left) / 2 <= right - left). { apply Nat.div_le_upper_bound; lia. } lia. Qed.

Lemma quicksort_spec thr : forall fuel a left right,
  1 <= left -> right <= length a -> right - left < fuel ->
  exists a', quicksort key fuel thr a left right = Some a' /\ length a' = length a /\
    Permutation a' a /\ same_outside a' a left right.
Proof.
  induction fuel as [|f IH]; intros a left right Hl Hr Hf; [lia|].
  cbn [quicksort]. destruct (Nat.leb_spec (right - left) thr) as [T|T].
  { exists a. repeat split; auto. }
  pose proof (@mid_bounds left right ltac:(lia)) as HM.
  set (m := left + (right - left) / 2) in *.
  destruct (rd_Some a (i:=m) ltac:(lia)) as [pv Epv]. rewrite Epv.
  destruct (@part_window a (key pv) left right m pv) as (a1 & i & j & E & Bi & Bj & Bj' & PP); auto; try lia.
  rewrite E. destruct PP as [P1 P2 P3 PF P4 P5 P6].
  assert (Q1 : exists a2, (if left <? j then quicksort key f thr a1 left j else Some a1) = Some a2 /\
            length a2 = length a1 /\ Permutation a2 a1 /\ same_outside a2 a1 left j).
  { destruct (Nat.ltb_spec left j).
    - apply IH; lia.
    - exists a1. repeat split; auto. }
  destruct Q1 as (a2 & E2 & L2 & Pm2 & O2). rewrite E2.
  assert (Q2 : exists a3, (if i <? right then quicksort key f thr a2 i right else Some a2) = Some a3 /\
            length a3 = length a2 /\ Permutation a3 a2 /\ same_outside a3 a2 i right).
  { destruct (Nat.ltb_spec i right).
    - apply IH; lia.
    - exists a2. repeat split; auto. }
  destruct Q2 as (a3 & E3 & L3 & Pm3 & O3). exists a3. split; auto. split; [congruence|]. split.
  - eapply perm_trans; [apply Pm3|]. eapply perm_trans; [apply Pm2|]. auto.
  - intros k Hk. rewrite O3, O2, P3 by lia. auto.
Qed.

(** *** insertion sort *)
Lemma wr_wr_comm_swap (a : list A) j v cur : rd a j = Some v -> 1 <= j -> j + 1 <= length a ->
  wr (wr a (j + 1) v) j cur = swap (wr a (j + 1) cur) j (j + 1).
Proof.
  intros E H1 H2. apply rd_ext.
  - rewrite swap_length, !wr_length. auto.
  - rewrite !wr_length. intros k Hk. destruct (Nat.eq_dec k j).
    + subst. rewrite rd_wr_eq by (rewrite wr_length; lia).
      rewrite rd_swap_l by (rewrite wr_length; lia). rewrite rd_wr_eq by lia. auto.
    + rewrite rd_wr_neq by lia. destruct (Nat.eq_dec k (j + 1)).
      * subst. rewrite rd_wr_eq by lia. rewrite rd_swap_r by (rewrite wr_length; lia).
        rewrite rd_wr_neq by lia. auto.
      * rewrite rd_swap_o by lia. rewrite !rd_wr_neq by lia. auto.
Qed.

Lemma ins_shift_spec (left : nat) (cur : A) : 1 <= left -> forall j a, left <= j + 1 -> j + 1 <= length a ->
  exists r m, ins_shift key a left j cur = Some r /\ length r = length a /\
    Permutation r (wr a (j + 1) cur) /\
    left <= m <= j + 1 /\
    (forall k, k < m -> rd r k = rd a k) /\ rd r m = Some cur /\
    (forall k, m < k <= j + 1 -> rd r k = rd a (k - 1)) /\
    (forall k, j + 1 < k -> rd r k = rd a k) /\
    (forall k v, m <= k <= j -> rd a k = Some v -> (key cur < key v)%Qc) /\
    (forall v, left < m -> rd a (m - 1) = Some v -> (key v <= key cur)%Qc).
Proof.
  intros Hl. induction j as [|j IH]; intros a H1 H2.
  - exists (wr a 1 cur), 1. cbn [ins_shift]. change (0 + 1) with 1 in *. assert (left = 1) by lia. subst.
    split; [reflexivity|]. split; [apply wr_length|]. split; [auto|]. split; [lia|].
    split; [intros k Hk; apply rd_wr_neq; lia|]. split; [apply rd_wr_eq; lia|].
    split; [intros; lia|]. split; [intros k Hk; apply rd_wr_neq; lia|]. split; intros; lia.
  - cbn [ins_shift]. destruct (Nat.leb_spec left (S j)) as [L|L].
    + destruct (rd_Some a (i:=S j) ltac:(lia)) as [v Ev]. rewrite Ev.
      destruct (Qcltb_spec (key cur) (key v)) as [C|C].
      * destruct (IH (wr a (S j + 1) v)) as (r & m & E & Lr & Pm & Bm & R1 & R2 & R3 & R4 & R5 & R6).
        { lia. } { rewrite wr_length. lia. }
        rewrite wr_length in Lr.
        exists r, m. split; [exact E|]. split; [auto|]. split.
        { replace (j + 1) with (S j) in Pm by lia. rewrite wr_wr_comm_swap in Pm by (auto; lia).
          eapply perm_trans; [exact Pm|]. apply swap_perm. }
        split; [lia|]. split. { intros k Hk. rewrite R1 by auto. apply rd_wr_neq; lia. }
        split; [auto|]. split.
        { intros k Hk. destruct (Nat.eq_dec k (S j + 1)).
          - subst. rewrite R4 by lia. rewrite rd_wr_eq by lia.
            replace (S j + 1 - 1) with (S j) by lia. auto.
          - rewrite R3 by lia. apply rd_wr_neq; lia. }
        split. { intros k Hk. rewrite R4 by lia. apply rd_wr_neq; lia. }
        split.
        { intros k w Hk Hw. destruct (Nat.eq_dec k (S j)).
          - subst. rewrite Ev in Hw. injection Hw as <-. auto.
          - apply (R5 k); [lia|]. rewrite rd_wr_neq by lia. auto. }
        { intros w Hm Hw. apply R6; auto. rewrite rd_wr_neq by lia. auto. }
      * exists (wr a (S j + 1) cur), (S j + 1). split; [reflexivity|]. split; [apply wr_length|].
        split; [auto|]. split; [lia|]. split. { intros k Hk. apply rd_wr_neq; lia. }
        split. { apply rd_wr_eq; lia. } split. { intros; lia. }
        split. { intros k Hk. apply rd_wr_neq; lia. } split. { intros; lia. }
        intros w Hm Hw. replace (S j + 1 - 1) with (S j) in Hw by lia. rewrite Ev in Hw. injection Hw as <-.
        apply Qcnot_lt_le; auto.
    + exists (wr a (S j + 1) cur), (S j + 1). split; [reflexivity|]. split; [apply wr_length|].
      split; [auto|]. split; [lia|]. split. { intros k Hk. apply rd_wr_neq; lia. }
      split. { apply rd_wr_eq; lia. } split. { intros; lia. }
      split. { intros k Hk. apply rd_wr_neq; lia. } split. { intros; lia. }
      intros w Hm Hw. lia.
Qed.

Lemma ins_outer_spec left : 1 <= left -> forall cnt a i, left < i -> i + cnt <= length a + 1 ->
  win_sorted a left (i - 1) ->
  exists r, ins_outer key cnt a left i = Some r /\ length r = length a /\ Permutation r a /\
    same_outside r a left (i + cnt - 1) /\ win_sorted r left (i + cnt - 1).
Proof.
  intros Hl. induction cnt as [|c IH]; intros a i Hi Hlen Hs; simpl.
  - exists a. repeat split; auto. replace (i + 0 - 1) with (i - 1) by lia. auto.
  - destruct (rd_Some a (i:=i) ltac:(lia)) as [cur Ecur]. rewrite Ecur.
    destruct (@ins_shift_spec left cur Hl (i - 1) a ltac:(lia) ltac:(lia))
      as (r & m & E & Lr & Pm & Bm & R1 & R2 & R3 & R4 & R5 & R6).
    rewrite E. replace (i - 1 + 1) with i in * by lia.
    rewrite wr_same in Pm by auto.
    destruct (IH r (i + 1)) as (r' & E' & L' & P' & O' & S').
    + lia. + lia.
    + replace (i + 1 - 1) with i by lia.
      intros p q x y Hp Hpq Hq Hx Hy.
      assert (G : forall k z, left <= k <= i -> rd r k = Some z ->
         (k < m /\ rd a k = Some z) \/ (k = m /\ z = cur) \/ (m < k /\ rd a (k - 1) = Some z)).
      { intros k z Hk Hz. destruct (lt_eq_lt_dec k m) as [[?|?]|?].
        - left. rewrite R1 in Hz by auto. auto.
        - subst. right; left. rewrite R2 in Hz. injection Hz as <-. auto.
        - right; right. rewrite R3 in Hz by lia. auto. }
      assert (Hlt : forall k z, left <= k < m -> rd a k = Some z -> (key z <= key cur)%Qc).
      { intros k z Hk Hz. destruct (rd_Some a (i:=m-1) ltac:(lia)) as [u Eu].
        apply Qcle_trans with (key u). 2:{ apply R6; auto; lia. }
        apply (Hs k (m-1)); auto; lia. }
      destruct (G p x ltac:(lia) Hx) as [[? Gx]|[[? ?]|[? Gx]]];
      destruct (G q y ltac:(lia) Hy) as [[? Gy]|[[? ?]|[? Gy]]]; subst; try lia.
      * apply (Hs p q); auto; lia.
      * apply (Hlt p); auto; lia.
      * apply (Hs p (q-1)); auto; lia.
      * apply Qcle_refl.
      * apply Qclt_le_weak. apply (R5 (q-1)); auto; lia.
      * apply (Hs (p-1) (q-1)); auto; lia.
    + exists r'. split; [auto|]. split; [congruence|]. split; [eapply perm_trans; eauto|].
      replace (i + 1 + c - 1) with (i + S c - 1) in * by lia. split; auto.
      intros k Hk. rewrite O' by lia.
      destruct Hk. { apply R1; lia. } { apply R4. lia. }
Qed.

Lemma insertion_sort_spec a left right : 1 <= left -> left <= right -> right <= length a ->
  exists r, insertion_sort key a left right = Some r /\ length r = length a /\ Permutation r a /\
    same_outside r a left right /\ win_sorted r left right.
Proof.
  intros H1 H2 H3. unfold insertion_sort.
  destruct (@ins_outer_spec left H1 (right - left) a (left + 1)) as (r & E & L & P & O & S); try lia.
  - intros i k x y Hi Hk Hk' Hx Hy. assert (i = k) by lia. subst. rewrite Hx in Hy. injection Hy as ->. apply Qcle_refl.
  - replace (left + 1 + (right - left) - 1) with right in * by lia. exists r. auto.
Qed.

Lemma sort_inplace_spec thr a : exists r, sort_inplace key thr a = Some r /\ Permutation r a /\
  win_sorted r 1 (length r).
Proof.
  unfold sort_inplace. destruct (Nat.leb_spec (length a) 1) as [L|L].
  - exists a. repeat split; auto. intros i k x y Hi Hk Hk' Hx Hy.
    assert (i = k) by lia. subst. rewrite Hx in Hy. injection Hy as ->. apply Qcle_refl.
  - destruct (@quicksort_spec thr (S (length a)) a 1 (length a)) as (a' & E & L' & P & _); try lia.
    rewrite E. destruct (@insertion_sort_spec a' 1 (length a)) as (r & E2 & L2 & P2 & _ & S2); try lia.
    exists r. split; auto. split; [eapply perm_trans; eauto|].
    replace (length r) with (length a) by congruence. auto.
Qed.

(** *** quickselect *)
Lemma median_of_three_in a b c : let m := median_of_three a b c in m = a \/ m = b \/ m = c.
Proof. unfold median_of_three. repeat qc_case; auto. Qed.

Definition split_at (a : list A) lo hi :=
  forall i k x y, i < lo <= k \/ i <= hi < k -> rd a i = Some x -> rd a k = Some y -> (key x <= key y)%Qc.

Definition kth_ok (a : list A) k :=
  forall v, rd a k = Some v ->
    (forall i x, i < k -> rd a i = Some x -> (key x <= key v)%Qc) /\
    (forall i x, k < i -> rd a i = Some x -> (key v <= key x)%Qc).


Lemma select_loop_spec thr k : forall fuel a left right,
  1 <= left -> left <= k <= right -> right <= length a -> right - left < fuel ->
  split_at a left right ->
  exists a', Permutation a' a /\ length a' = length a /\
   ((select_loop key fuel thr a left right k = Some (inl a') /\ kth_ok a' k) \/
    (exists lo hi, select_loop key fuel thr a left right k = Some (inr (a', lo, hi)) /\
       1 <= lo /\ lo <= k <= hi /\ hi <= length a' /\ split_at a' lo hi)).
Proof.
  induction fuel as [|f IH]; intros a left right H1 H2 H3 H4 Sp; [lia|].
  cbn [select_loop]. destruct (Nat.ltb_spec thr (right - left)) as [T|T].
  2:{ exists a. repeat split; auto. right. exists left, right. repeat split; auto; lia. }
  pose proof (@mid_bounds left right ltac:(lia)) as HM.
  set (m := left + (right - left) / 2) in *.
  destruct (rd_Some a (i:=left) ltac:(lia)) as [x Ex], (rd_Some a (i:=m) ltac:(lia)) as [y Ey],
    (rd_Some a (i:=right) ltac:(lia)) as [z Ez]. rewrite Ex, Ey, Ez.
  set (p := median_of_three (key x) (key y) (key z)).
  assert (HP : exists s v, left <= s <= right /\ rd a s = Some v /\ key v = p).
  { destruct (median_of_three_in (key x) (key y) (key z)) as [E|[E|E]]; fold p in E.
    - exists left, x. repeat split; auto; lia.
    - exists m, y. repeat split; auto; lia.
    - exists right, z. repeat split; auto; lia. }
  destruct HP as (s & v & Bs & Rs & Ks).
  destruct (@part_window a p left right s v) as (a1 & i & j & E & Bi & Bj & Bj' & PP); auto; try lia.
  rewrite E. destruct PP as [P1 P2 P3 PF P4 P5 P6].
  (* everything left of the window is below everything in it, and so on, still after partition *)
  assert (Sp1 : split_at a1 left right).
  { intros q r u w Hqr Hu Hw. destruct Hqr as [[Q R]|[Q R]].
    - rewrite P3 in Hu by lia. destruct (Nat.le_gt_cases r right).
      + destruct (PF r w ltac:(lia) Hw) as (r' & Br & Hr). apply (Sp q r'); auto; lia.
      + rewrite P3 in Hw by lia. apply (Sp q r); auto; lia.
    - rewrite P3 in Hw by lia. destruct (Nat.le_gt_cases left q).
      + destruct (PF q u ltac:(lia) Hu) as (q' & Bq & Hq). apply (Sp q' r); auto; lia.
      + rewrite P3 in Hu by lia. apply (Sp q r); auto; lia. }
  assert (LEFT : forall q u, q < i -> rd a1 q = Some u -> (key u <= p)%Qc).
  { intros q u Hq Hu. destruct (Nat.lt_ge_cases q left).
    - destruct (rd_Some a1 (i:=left) ltac:(lia)) as [w Ew].
      apply Qcle_trans with (key w). apply (Sp1 q left); auto; lia. apply (P5 left); auto; lia.
    - apply (P5 q); auto; lia. }
  assert (RIGHT : forall q u, j < q -> rd a1 q = Some u -> (p <= key u)%Qc).
  { intros q u Hq Hu. destruct (Nat.le_gt_cases q right).
    - apply (P6 q); auto; lia.
    - destruct (rd_Some a1 (i:=right) ltac:(lia)) as [w Ew].
      apply Qcle_trans with (key w). apply (P6 right); auto; lia. apply (Sp1 right q); auto; lia. }
  destruct (Nat.leb_spec k j) as [Kj|Kj]; [|destruct (Nat.leb_spec i k) as [Ki|Ki]].
  - destruct (IH a1 left j) as (a' & Pm & Le & D); try lia.
    + intros q r u w Hqr Hu Hw. destruct Hqr as [[Q R]|[Q R]].
      * apply (Sp1 q r); auto; lia.
      * apply Qcle_trans with p. apply (LEFT q); auto; lia. apply (RIGHT r); auto; lia.
    + exists a'. split; [eapply perm_trans; eauto|]. split; [congruence|exact D].
  - destruct (IH a1 i right) as (a' & Pm & Le & D); try lia.
    + intros q r u w Hqr Hu Hw. destruct Hqr as [[Q R]|[Q R]].
      * apply Qcle_trans with p. apply (LEFT q); auto; lia. apply (RIGHT r); auto; lia.
      * apply (Sp1 q r); auto; lia.
    + exists a'. split; [eapply perm_trans; eauto|]. split; [congruence|exact D].
  - exists a1. split; auto. split; auto. left. split; auto.
    intros w Hw. assert (Kw : key w = p).
    { apply Qcle_antisym. apply (LEFT k); auto; lia. apply (RIGHT k); auto; lia. }
    rewrite Kw. split; intros q u Hq Hu; [apply (LEFT q) | apply (RIGHT q)]; auto; lia.
Qed.

(** every cell of the buffer keeps its side: permutation inside a window keeps [split_at] *)
Lemma ins_outer_from left : 1 <= left -> forall cnt a i r, left < i -> i + cnt <= length a + 1 ->
  win_sorted a left (i - 1) -> ins_outer key cnt a left i = Some r -> from_win r a left (i + cnt - 1).
Proof.
  intros Hl. induction cnt as [|c IH]; intros a i r Hi Hlen Hs HE k v Hk Hv; simpl in HE.
  - injection HE as <-. eauto.
  - destruct (rd_Some a (i:=i) ltac:(lia)) as [cur Ecur]. rewrite Ecur in HE.
    destruct (@ins_shift_spec left cur Hl (i - 1) a ltac:(lia) ltac:(lia))
      as (r1 & m & E & Lr & Pm & Bm & R1 & R2 & R3 & R4 & R5 & R6).
    rewrite E in HE. replace (i - 1 + 1) with i in * by lia.
    destruct (@ins_outer_spec left Hl 1 a i Hi ltac:(lia) Hs) as (r1' & E1 & _ & _ & _ & S1).
    simpl in E1. rewrite Ecur, E in E1. injection E1 as <-.
    assert (S1' : win_sorted r1 left (i + 1 - 1)) by exact S1.
    destruct (IH r1 (i + 1) r ltac:(lia) ltac:(lia) S1' HE k v ltac:(lia) Hv) as (k' & Bk & Hk').
    destruct (lt_eq_lt_dec k' m) as [[?|?]|?].
    + exists k'. split; [lia|]. rewrite <- R1; auto.
    + subst. exists i. split; [lia|]. congruence.
    + destruct (Nat.le_gt_cases k' i).
      * exists (k' - 1). split; [lia|]. rewrite <- R3 by lia; auto.
      * exists k'. split; [lia|]. rewrite <- R4; auto.
Qed.

Lemma select_kth_keyed_spec thr a k : 1 <= k <= length a ->
  exists r, select_kth_keyed key thr a k = Some r /\ Permutation r a /\ kth_ok r k.
Proof.
  intros Hk. unfold select_kth_keyed.
  destruct (@select_loop_spec thr k (S (length a)) a 1 (length a)) as (a' & Pm & Le & D); try lia.
  { intros q r u w Hqr Hu Hw. apply rd_Some_bounds in Hu. apply rd_Some_bounds in Hw. lia. }
  destruct D as [[E K]|(lo & hi & E & B1 & B2 & B3 & Sp)]; rewrite E.
  - exists a'. auto.
  - destruct (@insertion_sort_spec a' lo hi) as (r & E2 & L2 & P2 & O2 & S2); try lia.
    exists r. split; auto. split; [eapply perm_trans; eauto|].
    assert (F : from_win r a' lo hi).
    { unfold insertion_sort in E2. replace hi with (lo + 1 + (hi - lo) - 1) at 1 by lia.
      eapply ins_outer_from; eauto; try lia.
      intros p q x y Hp Hpq Hq Hx Hy. assert (p = q) by lia. subst. rewrite Hx in Hy. injection Hy as ->. apply Qcle_refl. }
    assert (Sp1 : split_at r lo hi).
    { intros q s u w Hqr Hu Hw. destruct Hqr as [[Q R]|[Q R]].
      - rewrite O2 in Hu by lia. destruct (Nat.le_gt_cases s hi).
        + destruct (F s w ltac:(lia) Hw) as (r' & Br & Hr). apply (Sp q r'); auto; lia.
        + rewrite O2 in Hw by lia. apply (Sp q s); auto; lia.
      - rewrite O2 in Hw by lia. destruct (Nat.le_gt_cases lo q).
        + destruct (F q u ltac:(lia) Hu) as (q' & Bq & Hq). apply (Sp q' s); auto; lia.
        + rewrite O2 in Hu by lia. apply (Sp q s); auto; lia. }
    intros v Hv. split; intros i x Hi Hx.
    + destruct (Nat.lt_ge_cases i lo).
      * apply (Sp1 i k); auto; lia.
      * apply (S2 i k); auto; lia.
    + destruct (Nat.le_gt_cases i hi).
      * apply (S2 k i); auto; lia.
      * apply (Sp1 k i); auto; lia.
Qed.
End Keyed.
