(** Grid filler: facts that hold for every arithmetic. *)
From Verif Require Import Base Loops GF_Model GF_Spec.
Local Close Scope Qc_scope.
Local Open Scope nat_scope.

(** ** Stencil indices (C15) *)
Lemma latitude_indices_spec index n :
  2 <= n -> index < n ->
  let '(im1, ip1) := latitude_indices index n in
  Z.of_nat im1 = mirror n (Z.of_nat index - 1) /\ Z.of_nat ip1 = mirror n (Z.of_nat index + 1)
  /\ im1 < n /\ ip1 < n.
Proof.
  intros Hn Hi. unfold latitude_indices, mirror.
  destruct (Nat.eqb_spec index 0), (Nat.eqb_spec index (n - 1));
  destruct (Z.ltb_spec (Z.of_nat index - 1) 0), (Z.ltb_spec (Z.of_nat index + 1) 0),
    (Z.ltb_spec (Z.of_nat n - 1) (Z.of_nat index - 1)), (Z.ltb_spec (Z.of_nat n - 1) (Z.of_nat index + 1)); lia.
Qed.
Lemma longitude_indices_mirror index n :
  longitude_indices index n false = latitude_indices index n.
Proof. reflexivity. Qed.
Lemma longitude_indices_cyclic index n :
  2 <= n -> index < n ->
  let '(jm1, jp1) := longitude_indices index n true in
  Z.of_nat jm1 = ((Z.of_nat index - 1) mod Z.of_nat n)%Z
  /\ Z.of_nat jp1 = ((Z.of_nat index + 1) mod Z.of_nat n)%Z
  /\ jm1 < n /\ jp1 < n.
Proof.
  intros Hn Hi. unfold longitude_indices.
  destruct (Nat.eqb_spec index 0), (Nat.eqb_spec index (n - 1)); try lia; repeat split; try lia.
  - subst. change (Z.of_nat 0 - 1)%Z with (-1)%Z.
    rewrite <- (Z_mod_plus_full (-1) 1 (Z.of_nat n)), Z.mod_small; lia.
  - rewrite Z.mod_small; lia.
  - rewrite Z.mod_small; lia.
  - replace (Z.of_nat index + 1)%Z with (Z.of_nat n) by lia. rewrite Z.mod_same; lia.
  - rewrite Z.mod_small; lia.
  - rewrite Z.mod_small; lia.
Qed.

(** Both index functions in one statement. *)
Lemma stencil_nbrs cyc nlat nlon i j :
  2 <= nlat -> 2 <= nlon -> i < nlat -> j < nlon ->
  let '(im1, ip1) := latitude_indices i nlat in
  let '(jm1, jp1) := longitude_indices j nlon cyc in
  nbrs cyc nlat nlon i j = [(im1, j); (ip1, j); (i, jm1); (i, jp1)].
Proof.
  intros H1 H2 Hi Hj.
  pose proof (latitude_indices_spec i nlat H1 Hi) as L.
  destruct (latitude_indices i nlat) as [im1 ip1]. destruct L as (L1 & L2 & L3 & L4).
  unfold nbrs, row_nbr. rewrite <- L1, <- L2, !Nat2Z.id.
  destruct cyc; unfold col_nbr.
  - pose proof (longitude_indices_cyclic j nlon H2 Hj) as C.
    destruct (longitude_indices j nlon true) as [jm1 jp1]. destruct C as (C1 & C2 & _ & _).
    rewrite <- C1, <- C2, !Nat2Z.id. reflexivity.
  - rewrite longitude_indices_mirror. pose proof (latitude_indices_spec j nlon H2 Hj) as C.
    destruct (latitude_indices j nlon) as [jm1 jp1]. destruct C as (C1 & C2 & _ & _).
    rewrite <- C1, <- C2, !Nat2Z.id. reflexivity.
Qed.
Lemma nbrs_in_grid cyc nlat nlon i j a b :
  2 <= nlat -> 2 <= nlon -> i < nlat -> j < nlon ->
  In (a, b) (nbrs cyc nlat nlon i j) -> a < nlat /\ b < nlon.
Proof.
  intros H1 H2 Hi Hj. pose proof (stencil_nbrs cyc nlat nlon i j H1 H2 Hi Hj) as E.
  pose proof (latitude_indices_spec i nlat H1 Hi) as L.
  destruct (latitude_indices i nlat) as [im1 ip1]. destruct L as (_ & _ & L3 & L4).
  assert (C : let '(jm1, jp1) := longitude_indices j nlon cyc in jm1 < nlon /\ jp1 < nlon).
  { destruct cyc.
    - pose proof (longitude_indices_cyclic j nlon H2 Hj) as C.
      destruct (longitude_indices j nlon true); tauto.
    - rewrite longitude_indices_mirror. pose proof (latitude_indices_spec j nlon H2 Hj) as C.
      destruct (latitude_indices j nlon); tauto. }
  destruct (longitude_indices j nlon cyc) as [jm1 jp1]. rewrite E. simpl.
  intros [X|[X|[X|[X|[]]]]]; inversion X; subst; lia.
Qed.

(** ** The early-exit test *)
Lemma fold_zsum_seq (f : nat -> Z) l s : fold_left (fun s j => (s + f j)%Z) l s = (s + zsum (map f l))%Z.
Proof. apply fold_left_zsum. Qed.
Lemma zsum_blocks (a : nat -> Z) q :
  zsum (map (fun k => (a (4 * k)%nat + a (4 * k + 1)%nat + a (4 * k + 2)%nat + a (4 * k + 3)%nat)%Z) (seq 0 q))
  = zsum (map a (seq 0 (4 * q))).
Proof.
  induction q; [reflexivity|].
  rewrite seq_S, map_app, zsum_app, IHq.
  replace (4 * S q) with (4 * q + 4) by lia. rewrite seq_app, map_app, zsum_app.
  cbn [map seq zsum fold_right Nat.add].
  replace (4 * q + 1) with (S (4 * q)) by lia. replace (4 * q + 2) with (S (S (4 * q))) by lia.
  replace (4 * q + 3) with (S (S (S (4 * q)))) by lia. lia.
Qed.
Lemma int_sum_row_spec a nx s : int_sum_row a nx s = (s + zsum (map a (seq 0 nx)))%Z.
Proof.
  unfold int_sum_row. rewrite fold_left_zsum.
  rewrite (fold_left_zsum (fun q => (a (4 * q)%nat + a (4 * q + 1)%nat + a (4 * q + 2)%nat + a (4 * q + 3)%nat)%Z)).
  rewrite zsum_blocks.
  assert (E : 4 * ((nx - nx mod 4) / 4) = nx - nx mod 4).
  { pose proof (Nat.div_mod nx 4 ltac:(lia)) as D.
    replace (nx - nx mod 4) with (nx / 4 * 4) by lia. rewrite Nat.div_mul by lia. lia. }
  rewrite E. rewrite <- Z.add_assoc, <- zsum_app, <- map_app. do 3 f_equal.
  assert (Hle : nx mod 4 <= nx) by (apply Nat.mod_le; lia).
  replace (seq (nx - nx mod 4)) with (seq (0 + (nx - nx mod 4))) by reflexivity.
  rewrite <- seq_app. f_equal. lia.
Qed.
Lemma int_sum_spec m ny nx : int_sum m ny nx = zsum (map (fun i => zsum (map (m i) (seq 0 nx))) (seq 0 ny)).
Proof.
  unfold int_sum. rewrite (fold_left_ext_in _ (fun s i => (s + zsum (map (m i) (seq 0 nx)))%Z)).
  - rewrite fold_left_zsum. lia.
  - intros. apply int_sum_row_spec.
Qed.
Lemma zsum_nonneg_zero l : (forall x, In x l -> (0 <= x)%Z) -> (zsum l = 0%Z <-> forall x, In x l -> x = 0%Z).
Proof.
  induction l as [|a l IH]; simpl; [tauto|]. intros H.
  assert (P : (0 <= zsum l)%Z).
  { clear IH. assert (H' : forall x, In x l -> (0 <= x)%Z) by auto. clear H.
    induction l; simpl; [lia|]. pose proof (H' a0 (or_introl eq_refl)).
    specialize (IHl (fun x h => H' x (or_intror h))). lia. }
  specialize (IH (fun x h => H x (or_intror h))). pose proof (H a (or_introl eq_refl)).
  split.
  - intros E x [X|X]; [lia|]. apply IH; auto. lia.
  - intros E. assert (a = 0%Z) by auto. assert (zsum l = 0%Z) by (apply IH; auto). lia.
Qed.
(** With non-negative masks, the solver exits early exactly when nothing is missing. *)
Lemma int_sum_zero m nlat nlon :
  (forall i j, i < nlat -> j < nlon -> (0 <= m i j)%Z) ->
  (int_sum m nlat nlon = 0%Z <-> forall i j, i < nlat -> j < nlon -> masked m i j = false).
Proof.
  intros H. rewrite int_sum_spec. rewrite zsum_nonneg_zero.
  - split.
    + intros E i j Hi Hj. unfold masked.
      assert (R : zsum (map (m i) (seq 0 nlon)) = 0%Z).
      { apply E. apply in_map_iff. exists i. split; auto. apply in_seq. lia. }
      rewrite zsum_nonneg_zero in R.
      * rewrite (R (m i j)); [reflexivity|]. apply in_map, in_seq. lia.
      * intros x Hx. apply in_map_iff in Hx. destruct Hx as (k & <- & Hk). apply in_seq in Hk. apply H; lia.
    + intros E x Hx. apply in_map_iff in Hx. destruct Hx as (i & <- & Hi). apply in_seq in Hi.
      apply zsum_nonneg_zero.
      * intros x Hx. apply in_map_iff in Hx. destruct Hx as (k & <- & Hk). apply in_seq in Hk. apply H; lia.
      * intros x Hx. apply in_map_iff in Hx. destruct Hx as (k & <- & Hk). apply in_seq in Hk.
        specialize (E i k ltac:(lia) ltac:(lia)). unfold masked in E.
        destruct (Z.eqb_spec (m i k) 0); [auto|discriminate].
  - intros x Hx. apply in_map_iff in Hx. destruct Hx as (i & <- & Hi). apply in_seq in Hi.
    assert (P : forall l, (forall k, In k l -> (0 <= m i k)%Z) -> (0 <= zsum (map (m i) l))%Z).
    { induction l; simpl; [lia|]. intros G. pose proof (G a (or_introl eq_refl)).
      specialize (IHl (fun k h => G k (or_intror h))). lia. }
    apply P. intros k Hk. apply in_seq in Hk. apply H; lia.
Qed.

(** ** Cells *)
Lemma in_cells nlat nlon i j : In (i, j) (cells nlat nlon) <-> i < nlat /\ j < nlon.
Proof.
  unfold cells. rewrite in_flat_map. split.
  - intros (x & Hx & H). apply in_map_iff in H. destruct H as (y & E & Hy). inversion E; subst.
    apply in_seq in Hx. apply in_seq in Hy. lia.
  - intros [H1 H2]. exists i. split; [apply in_seq; lia|]. apply in_map_iff. exists j. split; auto. apply in_seq. lia.
Qed.

Lemma fold_left_inv (S B : Type) (I : S -> Prop) (f : S -> B -> S) l s :
  I s -> (forall s x, In x l -> I s -> I (f s x)) -> I (fold_left f l s).
Proof. revert s. induction l; simpl; auto. Qed.
Lemma fold_left_seq_nth (S B : Type) (f : S -> B -> S) (d : B) (l : list B) s :
  fold_left (fun s k => f s (nth k l d)) (seq 0 (length l)) s = fold_left f l s.
Proof.
  rewrite <- (fold_left_map f (fun k => nth k l d)). f_equal.
  clear. induction l; simpl; auto. rewrite <- seq_shift, map_map. f_equal. auto.
Qed.

Section Gen.
Variable A : arith.
Notation N := (num A).
Implicit Types g : grid_t A.

Lemma gset_same g i j v : gset A g i j v i j = v.
Proof. unfold gset. rewrite !Nat.eqb_refl. reflexivity. Qed.
Lemma gset_other g i j v a b : (a, b) <> (i, j) -> gset A g i j v a b = g a b.
Proof. unfold gset. intros H. destruct (Nat.eqb_spec a i), (Nat.eqb_spec b j); simpl; auto. subst. congruence. Qed.
Lemma gset_row g i j v a b : a <> i -> gset A g i j v a b = g a b.
Proof. intros. apply gset_other. congruence. Qed.

(** Initial-value row *)
Lemma const_fold_spec m i v l g a b :
  fold_left (fun g j => if masked m i j then gset A g i j v else g) l g a b
  = if (a =? i) && masked m a b && (if in_dec Nat.eq_dec b l then true else false) then v else g a b.
Proof.
  revert g. induction l as [|x l IH]; intros g.
  - simpl. rewrite andb_false_r. reflexivity.
  - cbn [fold_left]. rewrite IH.
    destruct (Nat.eqb_spec a i) as [->|Ha]; cbn [andb].
    + destruct (masked m i b) eqn:Mb; cbn [andb].
      * destruct (in_dec Nat.eq_dec b (x :: l)) as [I|I]; destruct (in_dec Nat.eq_dec b l) as [J|J]; auto.
        -- destruct I as [->|]; [|tauto]. rewrite Mb. apply gset_same.
        -- exfalso; simpl in I; tauto.
        -- assert (b <> x) by (intros ->; simpl in I; tauto).
           destruct (masked m i x); auto. apply gset_other. congruence.
      * destruct (masked m i x) eqn:Mx; auto. apply gset_other. intros E. inversion E; subst. congruence.
    + destruct (masked m i x); auto. apply gset_row; auto.
Qed.
Lemma const_row_spec m nlon i v g a b :
  const_row A m nlon i v g a b = if (a =? i) && masked m a b && (b <? nlon) then v else g a b.
Proof.
  unfold const_row. rewrite const_fold_spec.
  destruct (in_dec Nat.eq_dec b (seq 0 nlon)) as [I|I]; destruct (Nat.ltb_spec b nlon); auto;
  rewrite in_seq in I; lia.
Qed.

(** Zonal-mean row *)
Fixpoint obs_sum (m : mask_t) g i (l : list nat) (n : nat) (z : N) : nat * N :=
  match l with
  | [] => (n, z)
  | j :: l => if masked m i j then obs_sum m g i l n z else obs_sum m g i l (n + 1) (aadd A z (g i j))
  end.
Lemma obs_sum_fold m g i l n z :
  fold_left (fun '(n, zm) j => if masked m i j then (n, zm) else (n + 1, aadd A zm (g i j))) l (n, z)
  = obs_sum m g i l n z.
Proof. revert n z. induction l; simpl; auto. intros. destruct (masked m i a); auto. Qed.
Lemma zonal_mean_row_spec m nlon i g a b :
  zonal_mean_row A m nlon i g a b =
  let '(n, z) := obs_sum m g i (seq 0 nlon) 0 (a0 A) in
  if (0 <? n) && ((a =? i) && masked m a b && (b <? nlon)) then adiv A z (anat A n) else g a b.
Proof.
  unfold zonal_mean_row. rewrite obs_sum_fold. destruct (obs_sum m g i (seq 0 nlon) 0 (a0 A)) as [n z].
  destruct (0 <? n); cbn [andb]; auto. apply (const_row_spec m nlon i (adiv A z (anat A n))).
Qed.

(** One run of interpolated assignments *)
Definition run_value (n0 width : nat) (sv ev : N) (k : nat) : N :=
  aadd A (adiv A (amul A (anat A (n0 + k)) (asub A ev sv)) (anat A width)) sv.
Lemma fill_run_spec i lo hi n0 w sv ev g a b :
  fill_run A i lo hi n0 w sv ev g a b =
  if (a =? i) && (lo <=? b) && (b <? hi) then run_value n0 w sv ev (b - lo) else g a b.
Proof.
  unfold fill_run.
  assert (H : forall n g, fold_left (fun g k => gset A g i (lo + k) (run_value n0 w sv ev k)) (seq 0 n) g a b
    = if (a =? i) && (lo <=? b) && (b <? lo + n) then run_value n0 w sv ev (b - lo) else g a b).
  { clear. induction n; intros g.
    - simpl. destruct (Nat.eqb_spec a i); simpl; auto. destruct (Nat.leb_spec lo b), (Nat.ltb_spec b (lo + 0)); simpl; auto; lia.
    - rewrite seq_S, fold_left_app. cbn [fold_left Nat.add].
      destruct (Nat.eqb_spec a i) as [->|Ha].
      + destruct (Nat.eq_dec b (lo + n)) as [->|Hb].
        * rewrite gset_same. destruct (Nat.leb_spec lo (lo + n)), (Nat.ltb_spec (lo + n) (lo + S n)); simpl; try lia.
          f_equal. lia.
        * rewrite gset_other by congruence. rewrite IHn. cbn [andb].
          destruct (Nat.leb_spec lo b), (Nat.ltb_spec b (lo + n)), (Nat.ltb_spec b (lo + S n)); simpl; auto; lia.
      + rewrite gset_row by auto. rewrite IHn. reflexivity. }
  unfold run_value in H at 1. rewrite H.
  destruct (Nat.eqb_spec a i); cbn [andb]; auto. destruct (Nat.leb_spec lo b); cbn [andb]; auto.
  destruct (Nat.ltb_spec b hi), (Nat.ltb_spec b (lo + (hi - lo))); auto; lia.
Qed.

(** ** The segment scan *)
Section Scan.
Variables (m : mask_t) (nlon i : nat) (cyc : bool) (g : grid_t A).
Hypothesis Hn : 2 <= nlon.
Let mk := masked m i.
Let prev j := fst (longitude_indices j nlon cyc).
Let seg := ((nat * N) * (nat * N))%type.

Lemma prev_S k : prev (S k) = k.
Proof. unfold prev, longitude_indices. destruct cyc; simpl; lia. Qed.
Lemma prev_lt j : j < nlon -> prev j < nlon.
Proof. unfold prev, longitude_indices. destruct cyc; simpl; destruct (Nat.eqb_spec j 0); lia. Qed.

Definition start_ok (k : nat) (s : nat * N) : Prop :=
  fst s < k /\ mk (prev (fst s)) = false /\ snd s = g i (prev (fst s)).
Definition end_ok (k : nat) (e : nat * N) : Prop :=
  fst e < k /\ mk (fst e) = false /\ snd e = g i (fst e).
Definition seg_ok (k : nat) (s : seg) : Prop :=
  start_ok k (fst s) /\ end_ok k (snd s) /\ fst (fst s) < fst (snd s) /\
  forall x, fst (fst s) <= x < fst (snd s) -> mk x = true.
Definition in_seg (x : nat) (s : seg) : Prop := fst (fst s) <= x < fst (snd s).

(** What the two lists look like after columns 0..k-1. *)
Inductive scan_state (k : nat) : list (nat * N) -> list (nat * N) -> Prop :=
| ss_all_masked : mk (prev 0) = true -> (forall x, x < k -> mk x = true) -> scan_state k [] []
| ss_closed lead segs :
    (lead = [] /\ mk (prev 0) = false \/
     exists e, lead = [e] /\ mk (prev 0) = true /\ end_ok k e /\ (forall x, x < fst e -> mk x = true)
       /\ forall s, In s segs -> fst e < fst (fst s)) ->
    (forall s, In s segs -> seg_ok k s) ->
    mk (k - 1) = false ->
    (forall x, x < k -> mk x = true -> (exists s, In s segs /\ in_seg x s) \/ exists e, In e lead /\ x < fst e) ->
    scan_state k (map fst segs) (lead ++ map snd segs)
| ss_open lead segs o :
    (lead = [] /\ mk (prev 0) = false \/
     exists e, lead = [e] /\ mk (prev 0) = true /\ end_ok k e /\ (forall x, x < fst e -> mk x = true)
       /\ (forall s, In s segs -> fst e < fst (fst s)) /\ fst e < fst o) ->
    (forall s, In s segs -> seg_ok k s) ->
    start_ok k o ->
    (forall x, fst o <= x < k -> mk x = true) ->
    (forall x, x < k -> mk x = true -> (exists s, In s segs /\ in_seg x s) \/ (exists e, In e lead /\ x < fst e) \/ fst o <= x) ->
    scan_state k (map fst segs ++ [o]) (lead ++ map snd segs).

Lemma end_ok_S k e : end_ok k e -> end_ok (S k) e.
Proof. unfold end_ok; intuition lia. Qed.
Lemma start_ok_S k e : start_ok k e -> start_ok (S k) e.
Proof. unfold start_ok; intuition lia. Qed.
Lemma seg_ok_S k s : seg_ok k s -> seg_ok (S k) s.
Proof. unfold seg_ok. intros (H1 & H2 & H3). auto using start_ok_S, end_ok_S. Qed.

Definition scan_step (st : list (nat * N) * list (nat * N)) (j : nat) :=
  let '(ss, es) := st in
  let jm1 := prev j in
  if negb (mk jm1) && mk j then (ss ++ [(j, g i jm1)], es)
  else if mk jm1 && negb (mk j) then (ss, es ++ [(j, g i j)])
  else (ss, es).

Lemma scan_base : let '(ss, es) := scan_step ([], []) 0 in scan_state 1 ss es.
Proof.
  unfold scan_step. destruct (mk (prev 0)) eqn:P, (mk 0) eqn:M; cbn [negb andb app].
  - apply ss_all_masked; auto. intros x Hx. replace x with 0 by lia. auto.
  - apply (ss_closed 1 [(0, g i 0)] []).
    + right. exists (0, g i 0). repeat split; auto; simpl; lia.
    + intros s [].
    + exact M.
    + intros x Hx Mx. replace x with 0 in * by lia. congruence.
  - apply (ss_open 1 [] [] (0, g i (prev 0))).
    + left; auto.
    + intros s [].
    + unfold start_ok; simpl; auto.
    + intros x Hx. replace x with 0 by (simpl in *; lia). auto.
    + intros x Hx Mx. right; right. simpl. lia.
  - apply (ss_closed 1 [] []).
    + left; auto.
    + intros s [].
    + exact M.
    + intros x Hx Mx. replace x with 0 in * by lia. congruence.
Qed.

Lemma scan_step_state k ss es :
  1 <= k -> scan_state k ss es ->
  let '(ss', es') := scan_step (ss, es) k in scan_state (S k) ss' es'.
Proof.
  intros Hk H. unfold scan_step.
  assert (Pk : prev k = k - 1) by (destruct k; [lia|]; rewrite prev_S; lia).
  rewrite Pk. inversion H as [P M|lead segs L Sg M C|lead segs o L Sg O M C]; subst.
  - (* everything masked so far *)
    rewrite (M (k - 1)) by lia. destruct (mk k) eqn:Mk; cbn [negb andb app].
    + apply ss_all_masked; auto. intros x Hx. destruct (Nat.eq_dec x k); [subst; auto|apply M; lia].
    + apply (ss_closed (S k) [(k, g i k)] []).
      * right. exists (k, g i k). split; auto. split; auto. split; [unfold end_ok; simpl; repeat split; auto; lia|].
        split; [intros x Hx; apply M; simpl in Hx; lia|intros s []].
      * intros s [].
      * simpl. rewrite Nat.sub_0_r. exact Mk.
      * intros x Hx Mx. right. exists (k, g i k). split; [left; auto|]. simpl.
        destruct (Nat.eq_dec x k); [subst; congruence|lia].
  - (* no open segment *)
    rewrite M. destruct (mk k) eqn:Mk; cbn [negb andb].
    + apply (ss_open (S k) lead segs (k, g i (k - 1))).
      * destruct L as [L|(e & -> & P & E & X & Y)]; [left; auto|]. right. exists e. split; auto. split; auto.
        split; [apply end_ok_S; auto|]. split; auto. split; auto. destruct E as (E & _). simpl. lia.
      * intros s Hs. apply seg_ok_S; auto.
      * unfold start_ok. cbn [fst snd]. rewrite Pk. repeat split; auto.
      * intros x Hx. cbn [fst] in Hx. replace x with k by lia. auto.
      * intros x Hx Mx. destruct (Nat.eq_dec x k) as [->|Ne]; [right; right; simpl; lia|].
        destruct (C x ltac:(lia) Mx) as [D|D]; auto.
    + apply (ss_closed (S k) lead segs).
      * destruct L as [L|(e & -> & P & E & X & Y)]; [left; auto|]. right. exists e. split; auto. split; auto.
        split; [apply end_ok_S; auto|]. auto.
      * intros s Hs. apply seg_ok_S; auto.
      * simpl. rewrite Nat.sub_0_r. exact Mk.
      * intros x Hx Mx. destruct (Nat.eq_dec x k) as [->|Ne]; [congruence|]. apply C; auto. lia.
  - (* open segment *)
    assert (O' := O). destruct O' as (O1 & O2 & O3).
    rewrite (M (k - 1)) by lia. destruct (mk k) eqn:Mk; cbn [negb andb].
    + apply (ss_open (S k) lead segs o).
      * destruct L as [L|(e & -> & P & E & X & Y)]; [left; auto|]. right. exists e. split; auto. split; auto.
        split; [apply end_ok_S; auto|]. auto.
      * intros s Hs. apply seg_ok_S; auto.
      * apply start_ok_S; auto.
      * intros x Hx. destruct (Nat.eq_dec x k); [subst; auto|apply M; lia].
      * intros x Hx Mx. destruct (Nat.eq_dec x k) as [->|Ne]; [right; right; lia|].
        apply C; auto. lia.
    + rewrite <- app_assoc. replace (map fst segs ++ [o]) with (map fst (segs ++ [(o, (k, g i k))])) by (rewrite map_app; reflexivity).
      replace (map snd segs ++ [(k, g i k)]) with (map snd (segs ++ [(o, (k, g i k))])) by (rewrite map_app; reflexivity).
      apply (ss_closed (S k) lead (segs ++ [(o, (k, g i k))])).
      * destruct L as [L|(e & -> & P & E & X & Y & Z)]; [left; auto|]. right. exists e. split; auto. split; auto.
        split; [apply end_ok_S; auto|]. split; auto.
        intros s Hs. apply in_app_or in Hs. destruct Hs as [Hs|[<-|[]]]; auto.
      * intros s Hs. apply in_app_or in Hs. destruct Hs as [Hs|[<-|[]]]; [apply seg_ok_S; auto|].
        unfold seg_ok. cbn [fst snd]. split; [apply start_ok_S; auto|].
        split; [unfold end_ok; simpl; repeat split; auto|]. split; [lia|]. intros x Hx. apply M. lia.
      * simpl. rewrite Nat.sub_0_r. exact Mk.
      * intros x Hx Mx. destruct (Nat.eq_dec x k) as [->|Ne]; [congruence|].
        destruct (C x ltac:(lia) Mx) as [(s & Hs & I)|[D|D]].
        -- left. exists s. split; auto. apply in_or_app; auto.
        -- right; auto.
        -- left. exists (o, (k, g i k)). split; [apply in_or_app; right; left; auto|]. unfold in_seg; cbn [fst snd]. lia.
Qed.

Lemma scan_segments_state :
  let '(ss, es) := scan_segments A m nlon i cyc g in scan_state nlon ss es.
Proof.
  assert (E : scan_segments A m nlon i cyc g = fold_left scan_step (seq 0 nlon) ([], [])).
  { unfold scan_segments. apply fold_left_ext_in. intros [ss es] j _. reflexivity. }
  rewrite E.
  assert (G : forall k, 1 <= k -> let '(ss, es) := fold_left scan_step (seq 0 k) ([], []) in scan_state k ss es).
  { induction k; [lia|]. intros _. destruct k.
    - exact scan_base.
    - rewrite seq_S, fold_left_app. specialize (IHk ltac:(lia)).
      destruct (fold_left scan_step (seq 0 (S k)) ([], [])) as [ss es].
      apply (scan_step_state (S k) ss es); auto. lia. }
  apply G. lia.
Qed.
End Scan.

(** Runs over a list of segments. *)
Definition run_segs (i : nat) (segs : list ((nat * N) * (nat * N))) g : grid_t A :=
  fold_left (fun g s => fill_run A i (fst (fst s)) (fst (snd s)) 0 (fst (snd s) - fst (fst s))
                          (snd (fst s)) (snd (snd s)) g) segs g.
Definition seg_value (s : (nat * N) * (nat * N)) (b : nat) : N :=
  run_value 0 (fst (snd s) - fst (fst s)) (snd (fst s)) (snd (snd s)) (b - fst (fst s)).
Lemma run_segs_cases i segs g a b :
  (run_segs i segs g a b = g a b /\ (a = i -> forall s, In s segs -> ~ in_seg b s)) \/
  (a = i /\ exists s, In s segs /\ in_seg b s /\ run_segs i segs g a b = seg_value s b).
Proof.
  revert g. induction segs as [|s segs IH]; intros g.
  - left. split; auto.
  - pose (h' := fill_run A i (fst (fst s)) (fst (snd s)) 0 (fst (snd s) - fst (fst s)) (snd (fst s)) (snd (snd s)) g).
    change (run_segs i (s :: segs) g) with (run_segs i segs h').
    destruct (IH h') as [[E F]|[-> (s' & I & J & E)]].
    + rewrite E. unfold h'. rewrite fill_run_spec.
      destruct (Nat.eqb_spec a i) as [->|Ha]; cbn [andb].
      * destruct (Nat.leb_spec (fst (fst s)) b), (Nat.ltb_spec b (fst (snd s))); cbn [andb].
        -- right. split; auto. exists s. split; [left; auto|]. split; [split; auto|reflexivity].
        -- left. split; auto. intros _ s' [<-|I]; [unfold in_seg; lia|]. apply F; auto.
        -- left. split; auto. intros _ s' [<-|I]; [unfold in_seg; lia|]. apply F; auto.
        -- left. split; auto. intros _ s' [<-|I]; [unfold in_seg; lia|]. apply F; auto.
      * left. split; [reflexivity|]. tauto.
    + right. split; auto. exists s'. split; [right; auto|]. auto.
Qed.

(** The value of an interpolation run between two observed neighbours. *)
Definition interp_value (m : mask_t) (nlon i : nat) (g : grid_t A) (w : N) : Prop :=
  exists a b k n, a < nlon /\ b < nlon /\ masked m i a = false /\ masked m i b = false /\
    k <= n /\ 0 < n /\ w = aadd A (adiv A (amul A (anat A k) (asub A (g i b) (g i a))) (anat A n)) (g i a).

Lemma map_nth_fst (segs : list ((nat * N) * (nat * N))) l k d e :
  k < length segs -> nth k (map fst segs ++ l) d = fst (nth k segs (d, e)).
Proof.
  intros H. rewrite app_nth1 by (rewrite map_length; auto).
  change d with (fst (d, e)) at 1. apply (map_nth fst).
Qed.
Lemma map_nth_snd (segs : list ((nat * N) * (nat * N))) k d e :
  k < length segs -> nth k (map snd segs) d = snd (nth k segs (e, d)).
Proof. intros H. change d with (snd (e, d)) at 1. apply (map_nth snd). Qed.

Lemma fold_runs_segs i (segs : list ((nat * N) * (nat * N))) l lead (d : nat * N) g off :
  off = length lead ->
  fold_left (fun g k =>
        fill_run A i (fst (nth k (map fst segs ++ l) d)) (fst (nth (k + off) (lead ++ map snd segs) d)) 0
           (fst (nth (k + off) (lead ++ map snd segs) d) - fst (nth k (map fst segs ++ l) d))
           (snd (nth k (map fst segs ++ l) d)) (snd (nth (k + off) (lead ++ map snd segs) d)) g)
        (seq 0 (length segs)) g
  = run_segs i segs g.
Proof.
  intros ->. unfold run_segs. rewrite <- (fold_left_seq_nth _ _ _ (d, d) segs).
  apply fold_left_ext_in. intros s k Hk. apply in_seq in Hk.
  rewrite (map_nth_fst segs l k d d) by lia.
  rewrite app_nth2 by lia. replace (k + length lead - length lead) with k by lia.
  rewrite (map_nth_snd segs k d d) by lia. reflexivity.
Qed.

(** What one zonal-linear row does: it is the exhaustive case list for every
    mask row; [good] says that the row is interpolated. *)
Lemma zonal_linear_row_cases m nlon cyc v i g :
  2 <= nlon ->
  (forall a b, a <> i \/ masked m i b = false \/ nlon <= b -> zonal_linear_row A m nlon cyc v i g a b = g a b) /\
  ((exists b, b < nlon /\ masked m i b = false) ->
   masked m i (fst (longitude_indices 0 nlon cyc)) = masked m i (nlon - 1) ->
   forall b, b < nlon -> masked m i b = true -> interp_value m nlon i g (zonal_linear_row A m nlon cyc v i g i b)) /\
  (masked m i (fst (longitude_indices 0 nlon cyc)) <> masked m i (nlon - 1) ->
   (forall b, zonal_linear_row A m nlon cyc v i g i b = g i b) \/
   (forall b, b < nlon -> masked m i b = true -> zonal_linear_row A m nlon cyc v i g i b = v)).
Proof.
  intros Hn. pose proof (scan_segments_state m nlon i cyc g Hn) as S0.
  unfold zonal_linear_row.
  destruct (scan_segments A m nlon i cyc g) as [ss es].
  inversion S0 as [P M|lead segs L Sg M C|lead segs o L Sg O M C]; subst; clear S0.
  - (* every column masked *)
    cbn [length Nat.eqb]. split; [|split].
    + intros a b H. rewrite const_row_spec. destruct (Nat.eqb_spec a i) as [->|]; cbn [andb]; auto.
      destruct H as [H|[H|H]]; [tauto|rewrite H; auto|]. destruct (Nat.ltb_spec b nlon); [lia|]. rewrite andb_false_r; auto.
    + intros (b & Hb & Mb). rewrite M in Mb by auto. discriminate.
    + intros Ne. right. intros b Hb Mb. rewrite const_row_spec, Nat.eqb_refl, Mb.
      destruct (Nat.ltb_spec b nlon); [reflexivity|lia].
  - (* last column observed *)
    rewrite map_length, app_length, map_length.
    destruct (Nat.eqb_spec (length segs) 0) as [Z|Z].
    + destruct segs; [|discriminate]. split; [|split].
      * intros a b H. rewrite const_row_spec. destruct (Nat.eqb_spec a i) as [->|]; cbn [andb]; auto.
        destruct H as [H|[H|H]]; [tauto|rewrite H; auto|]. destruct (Nat.ltb_spec b nlon); [lia|]. rewrite andb_false_r; auto.
      * intros _ E b Hb Mb. exfalso. rewrite M in E.
        destruct L as [[-> L]|(e & -> & L & _)]; [|congruence].
        destruct (C b Hb Mb) as [(s & [] & _)|(e & [] & _)].
      * intros Ne. right. intros b Hb Mb. rewrite const_row_spec, Nat.eqb_refl, Mb.
        destruct (Nat.ltb_spec b nlon); [reflexivity|lia].
    + destruct L as [[-> L]|(e & -> & L & Le & _)]; cbn [length app Nat.add].
      * rewrite Nat.eqb_refl.
        assert (F0 : fst (nth 0 (map fst segs) (0, a0 A)) <? fst (nth 0 (map snd segs) (0, a0 A)) = true).
        { destruct segs as [|s segs]; [simpl in Z; lia|]. simpl. apply Nat.ltb_lt.
          destruct (Sg s (or_introl eq_refl)) as (_ & _ & X & _). auto. }
        rewrite F0.
        pose proof (fold_runs_segs i segs [] [] (0, a0 A) g 0 eq_refl) as R.
        cbn [app] in R. rewrite app_nil_r in R.
        rewrite (fold_left_ext_in _ (fun g k =>
           fill_run A i (fst (nth k (map fst segs) (0, a0 A))) (fst (nth (k + 0) (map snd segs) (0, a0 A))) 0
           (fst (nth (k + 0) (map snd segs) (0, a0 A)) - fst (nth k (map fst segs) (0, a0 A)))
           (snd (nth k (map fst segs) (0, a0 A))) (snd (nth (k + 0) (map snd segs) (0, a0 A))) g))
          by (intros; rewrite Nat.add_0_r; reflexivity).
        rewrite R. clear R. split; [|split].
        -- intros a b H. destruct (run_segs_cases i segs g a b) as [[E _]|[-> (s & I & J & E)]]; auto.
           exfalso. destruct (Sg s I) as ((S1 & _) & (E1 & _) & X & Y). unfold in_seg in J.
           destruct H as [H|[H|H]]; [tauto| |lia]. rewrite (Y b) in H by auto. discriminate.
        -- intros _ _ b Hb Mb. destruct (run_segs_cases i segs g i b) as [[_ F]|[_ (s & I & J & E)]].
           ++ exfalso. destruct (C b Hb Mb) as [(s & I & J)|(e & [] & _)]. exact (F eq_refl s I J).
           ++ rewrite E. destruct (Sg s I) as ((S1 & S2 & S3) & (E1 & E2 & E3) & X & Y). unfold in_seg in J.
              exists (fst (longitude_indices (fst (fst s)) nlon cyc)), (fst (snd s)), (b - fst (fst s)), (fst (snd s) - fst (fst s)).
              split; [apply prev_lt; auto|]. split; auto. split; auto. split; auto. split; [lia|]. split; [lia|].
              unfold seg_value, run_value. rewrite S3, E3. reflexivity.
        -- intros Ne. congruence.
      * assert (NE : (length segs =? S (length segs)) = false) by (apply Nat.eqb_neq; lia).
        rewrite NE. split; [auto|split]; [congruence|]. intros _. left. auto.
  - (* last column masked *)
    assert (Ml : masked m i (nlon - 1) = true) by (apply M; destruct O; lia).
    rewrite app_length, map_length, app_length, map_length. cbn [length].
    destruct (Nat.eqb_spec (length segs + 1) 0) as [Z|_]; [lia|].
    destruct L as [[-> L]|(e & -> & L & Le & Lm & Ls & Lo)]; cbn [length app Nat.add].
    + assert (NE : (length segs + 1 =? length segs) = false) by (apply Nat.eqb_neq; lia).
      rewrite NE. split; [auto|split]; [congruence|]. intros _. left; auto.
    + rewrite Nat.add_1_r, Nat.eqb_refl.
      assert (F0 : fst (nth 0 (map fst segs ++ [o]) (0, a0 A)) <? fst (nth 0 (e :: map snd segs) (0, a0 A)) = false).
      { apply Nat.ltb_ge. cbn [nth]. destruct segs as [|s segs]; cbn [map app nth]; [lia|].
        specialize (Ls s (or_introl eq_refl)). lia. }
      rewrite F0. replace (S (length segs) - 1) with (length segs) by lia.
      pose proof (fold_runs_segs i segs [o] [e] (0, a0 A) g 1 eq_refl) as R. cbn [app] in R. rewrite R. clear R.
      assert (No : nth (length segs) (map fst segs ++ [o]) (0, a0 A) = o).
      { rewrite app_nth2 by (rewrite map_length; lia). rewrite map_length, Nat.sub_diag. reflexivity. }
      rewrite No. cbn [nth]. destruct O as (O1 & O2 & O3). destruct Le as (Le1 & Le2 & Le3).
      set (w := nlon - fst o + fst e). split; [|split].
      * intros a b H. rewrite !fill_run_spec. destruct (Nat.eqb_spec a i) as [->|Ha]; cbn [andb].
        -- destruct (Nat.leb_spec 0 b); [|lia]. destruct (Nat.ltb_spec b (fst e)); cbn [andb].
           { destruct H as [H|[H|H]]; [tauto| |lia]. rewrite Lm in H by auto. discriminate. }
           destruct (Nat.leb_spec (fst o) b), (Nat.ltb_spec b nlon); cbn [andb].
           { destruct H as [H|[H|H]]; [tauto| |lia]. rewrite M in H by auto. discriminate. }
           all: destruct (run_segs_cases i segs g i b) as [[E _]|[_ (s & I & J & E)]]; auto.
           all: exfalso; destruct (Sg s I) as ((S1 & _) & (E1 & _) & X & Y); unfold in_seg in J.
           all: destruct H as [H|[H|H]]; [tauto| |lia]; rewrite (Y b) in H by auto; discriminate.
        -- destruct (run_segs_cases i segs g a b) as [[E _]|[-> _]]; auto. tauto.
      * intros _ _ b Hb Mb.
        assert (Wrap : forall k, k <= w -> interp_value m nlon i g (run_value 0 w (snd o) (snd e) k)).
        { intros k Hk. exists (fst (longitude_indices (fst o) nlon cyc)), (fst e), k, w.
          split; [apply prev_lt; auto|]. split; auto. split; auto. split; auto. split; auto. split; [unfold w; lia|].
          unfold run_value. rewrite O3, Le3. reflexivity. }
        rewrite !fill_run_spec, Nat.eqb_refl. cbn [andb].
        destruct (Nat.leb_spec 0 b); [|lia]. destruct (Nat.ltb_spec b (fst e)); cbn [andb].
        { exact (Wrap (nlon - fst o + (b - 0)) ltac:(unfold w; lia)). }
        destruct (Nat.leb_spec (fst o) b), (Nat.ltb_spec b nlon); cbn [andb]; try lia.
        { exact (Wrap (b - fst o) ltac:(unfold w; lia)). }
        destruct (run_segs_cases i segs g i b) as [[_ F]|[_ (s & I & J & E)]].
        -- exfalso. destruct (C b Hb Mb) as [(s & I & J)|[(e' & [<-|[]] & X)|X]]; [|lia|lia].
           exact (F eq_refl s I J).
        -- rewrite E. destruct (Sg s I) as ((S1 & S2 & S3) & (E1 & E2 & E3) & X & Y). unfold in_seg in J.
           exists (fst (longitude_indices (fst (fst s)) nlon cyc)), (fst (snd s)), (b - fst (fst s)), (fst (snd s) - fst (fst s)).
           split; [apply prev_lt; auto|]. split; auto. split; auto. split; auto. split; [lia|]. split; [lia|].
           unfold seg_value, run_value. rewrite S3, E3. reflexivity.
      * intros Ne. congruence.
Qed.
End Gen.
