(** Proofs about the axis bookkeeping: fill on arrays of any rank, windspharm,
    latitude ordering. *)
From Verif Require Import Base Loops NdArray GF_Model GF_Proofs1 GF_Proofs2 AX_Model AX_Spec AX_Proofs.
Local Close Scope Qc_scope.
Local Open Scope nat_scope.

(** ** Replacing one coordinate *)
Lemma set_nth_length k v l : k < length l -> length (set_nth k v l) = length l.
Proof. intros H. unfold set_nth. rewrite app_length, firstn_length_le by lia. cbn [length]. rewrite skipn_length. lia. Qed.
Lemma nthn_set_nth k v l d : k < length l -> nthn (set_nth k v l) d = if d =? k then v else nthn l d.
Proof.
  intros H. unfold nthn, set_nth. destruct (Nat.lt_total d k) as [D|[->|D]].
  - rewrite app_nth1 by (rewrite firstn_length_le; lia).
    destruct (Nat.eqb_spec d k); [lia|]. rewrite <- (firstn_skipn k l) at 2. rewrite app_nth1 by (rewrite firstn_length_le; lia). reflexivity.
  - rewrite app_nth2 by (rewrite firstn_length_le; lia). rewrite firstn_length_le by lia. rewrite Nat.sub_diag, Nat.eqb_refl. reflexivity.
  - rewrite app_nth2 by (rewrite firstn_length_le; lia). rewrite firstn_length_le by lia.
    destruct (Nat.eqb_spec d k); [lia|]. replace (d - k) with (S (d - S k)) by lia. cbn [nth].
    rewrite <- (firstn_skipn (S k) l) at 2. rewrite app_nth2 by (rewrite firstn_length_le; lia).
    f_equal. rewrite firstn_length_le by lia. lia.
Qed.
Lemma nthn_ext l m : length l = length m -> (forall d, d < length l -> nthn l d = nthn m d) -> l = m.
Proof. intros L H. apply nth_ext with (d := 0) (d' := 0); auto. Qed.
Lemma valid_of_nth ix sh : length ix = length sh -> (forall d, d < length sh -> nthn ix d < nthn sh d) -> valid ix sh.
Proof.
  revert sh. induction ix as [|i ix IH]; intros [|s sh] L H; simpl in *; try discriminate; constructor.
  - apply (H 0). lia.
  - apply IH; [lia|]. intros d Hd. apply (H (S d)). lia.
Qed.
Lemma valid_set_nth ix sh k v : valid ix sh -> k < length sh -> v < nthn sh k -> valid (set_nth k v ix) sh.
Proof.
  intros V Hk Hv. pose proof (valid_length _ _ V) as L. apply valid_of_nth.
  - rewrite set_nth_length; lia.
  - intros d Hd. rewrite nthn_set_nth by lia. destruct (Nat.eqb_spec d k); [subst; auto|]. apply valid_nth; auto.
Qed.
Lemma at_yx_nth x y ix i j d : x < length ix -> y < length ix -> x <> y ->
  nthn (at_yx x y ix i j) d = if d =? x then j else if d =? y then i else nthn ix d.
Proof. intros. unfold at_yx. rewrite !nthn_set_nth by (rewrite ?set_nth_length; lia). reflexivity. Qed.
Lemma other_index_at_yx sh x y ix i j : length ix = length sh -> x < length ix -> y < length ix -> x <> y ->
  other_index sh x y (at_yx x y ix i j) = other_index sh x y ix.
Proof.
  intros L Hx Hy N. unfold other_index. f_equal. apply map_ext_in. intros d Hd. apply in_others in Hd.
  rewrite at_yx_nth by auto. destruct (Nat.eqb_spec d x), (Nat.eqb_spec d y); lia.
Qed.

(** ** fill on arrays of any rank *)
Lemma other_index_lt sh x y ix : valid ix sh -> other_index sh x y ix < prodn (map (nthn sh) (others (length sh) x y)).
Proof. intros V. unfold other_index. apply ravel_lt. apply valid_map_nth; auto. intros d Hd. apply in_others in Hd. tauto. Qed.

Lemma fill_nd_spec (A : arith) (P : params A) (g : nda (num A * bool)) x y ni0 rm0 out conv :
  fill P g x y ni0 rm0 = Some (out, conv) ->
  nd_shape out = nd_shape g /\
  forall ix, valid ix (nd_shape g) ->
  (snd (nd_elt g ix) = false -> nd_elt out ix = fst (nd_elt g ix)) /\
  let '(f, n, r) := poisson_fill A P
      (fun i j => if snd (nd_elt g (at_yx x y ix i j)) then 1%Z else 0%Z)
      (nthn (nd_shape g) y) (nthn (nd_shape g) x)
      (fun i j => let e := nd_elt g (at_yx x y ix i j) in if snd e then amark A else fst e) in
  nd_elt out ix = f (nthn ix y) (nthn ix x) /\
  conv (other_index (nd_shape g) x y ix) = negb (altb A (p_tol A P) r).
Proof.
  intros H. unfold fill in H.
  destruct (prep_data g x y) as [[g3 inf]|] eqn:EP; [|discriminate].
  assert (HD : x < ndim g /\ y < ndim g /\ x <> y).
  { destruct (order_dims_error _ g x y) as [_ K].
    destruct (Nat.lt_decidable x (ndim g)) as [Hx|Hx]; [|rewrite K in EP by tauto; discriminate].
    destruct (Nat.lt_decidable y (ndim g)) as [Hy|Hy]; [|rewrite K in EP by tauto; discriminate].
    destruct (Nat.eq_decidable x y) as [Hn|Hn]; [rewrite K in EP by tauto; discriminate|]. auto. }
  destruct HD as (Hx & Hy & N).
  destruct (prep_data_spec _ g x y Hx Hy N) as (g3' & inf' & E' & Sh & Inf & El).
  rewrite EP in E'. injection E' as <- <-.
  destruct (fill_prepared A P _ _ _ _ _ ni0 rm0) as [[o c]|] eqn:EF; [|discriminate].
  injection H as <- <-.
  set (G := mk_nda (nd_shape g3) (fun ix => o (nthn ix 0) (nthn ix 1) (nthn ix 2))).
  assert (RS := recover_data_spec _ _ g G x y Hx Hy N Sh). cbv zeta in RS. rewrite <- Inf in RS.
  destruct RS as [R1 R2]. split; [exact R1|]. intros ix V.
  pose proof (valid_length _ _ V) as L. fold (ndim g) in L.
  set (k := other_index (nd_shape g) x y ix) in *.
  assert (OUT : nd_elt (recover_data G inf) ix = o (nthn ix y) (nthn ix x) k).
  { rewrite R2 by auto. reflexivity. }
  assert (SL : forall i j, i < nthn (nd_shape g) y -> j < nthn (nd_shape g) x ->
    nd_elt g3 [i; j; k] = nd_elt g (at_yx x y ix i j)).
  { intros i j Hi Hj.
    assert (V' : valid (at_yx x y ix i j) (nd_shape g)).
    { apply valid_set_nth; auto. apply valid_set_nth; auto. }
    pose proof (El _ V') as E. rewrite other_index_at_yx in E by (unfold ndim in *; lia). fold k in E. rewrite <- E.
    rewrite !at_yx_nth by lia. rewrite Nat.eqb_refl. destruct (Nat.eqb_spec y x); [lia|]. rewrite Nat.eqb_refl. reflexivity. }
  split.
  - intros M. rewrite OUT.
    rewrite (fill_keeps_observed A P _ _ _ _ _ _ _ _ _ _ _ _ EF).
    + unfold k. rewrite (El ix V). reflexivity.
    + unfold k. rewrite (El ix V). exact M.
  - unfold fill_prepared in EF.
    match type of EF with match ?z with _ => _ end = _ => destruct z as [[[gs' ni] rm]|] eqn:EQ; [|discriminate] end.
    injection EF as <- <-.
    assert (K : k < prodn (map (nthn (nd_shape g)) (others (ndim g) x y))).
    { unfold k, ndim. apply other_index_lt; auto. }
    assert (DIM : 2 <= nthn (nd_shape g) y /\ 2 <= nthn (nd_shape g) x).
    { unfold poisson_fill_grids in EQ. rewrite Sh in EQ.
      match type of EQ with (if ?b then _ else _) = _ => destruct b eqn:EB; [discriminate|] end.
      apply orb_false_elim in EB. destruct EB as [E1 E2]. apply Nat.ltb_ge in E1, E2. cbn [nthn nth] in E1, E2. lia. }
    pose proof (fill_grids_slices A _ _ _ _ _ _ _ _ _ _ _ EQ k) as FS.
    rewrite Sh in FS. change (nthn [?a; ?b; ?c] 0) with a in FS. unfold nthn at 1 2 3 4 5 in FS. cbn [nth] in FS.
    specialize (FS K).
    unfold mask_slice, slice in FS.
    pose proof (poisson_fill_ext A P
      (fun i j => if snd (nd_elt g3 [i; j; k]) then 1%Z else 0%Z)
      (fun i j => if snd (nd_elt g (at_yx x y ix i j)) then 1%Z else 0%Z)
      (nthn (nd_shape g) y) (nthn (nd_shape g) x)
      (fun i j => if snd (nd_elt g3 [i; j; k]) then amark A else fst (nd_elt g3 [i; j; k]))
      (fun i j => let e := nd_elt g (at_yx x y ix i j) in if snd e then amark A else fst e)
      (proj1 DIM) (proj2 DIM)) as EXT.
    destruct (poisson_fill A P (fun i j => if snd (nd_elt g3 [i; j; k]) then 1%Z else 0%Z) _ _ _) as [[f n] r].
    destruct (poisson_fill A P (fun i j => if snd (nd_elt g (at_yx x y ix i j)) then 1%Z else 0%Z) _ _ _) as [[f' n'] r'].
    cbn [fst snd] in EXT. destruct EXT as (X1 & X2 & X3).
    + intros i j Hi Hj. rewrite SL by auto. reflexivity.
    + intros i j Hi Hj. cbv zeta. rewrite SL by auto. reflexivity.
    + destruct FS as (F1 & F2 & F3).
      split.
      * rewrite OUT. change (nthn [?a; ?b; ?c] 1) with b in F1. rewrite F1; [apply X1|..]; apply valid_nth; auto.
      * rewrite F3, X3. reflexivity.
Qed.
