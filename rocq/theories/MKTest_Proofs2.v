From Verif Require Import Base Buffer Loops NdArray AX_Spec AX_Proofs AX_Proofs2 MKStat_Model MKTest_Model MKTest_Spec MKTest_Proofs.
From Coq Require Import Reals Qreals Lra.
Local Close Scope Qc_scope.
Local Open Scope nat_scope.

Lemma rem_seq a n : a < n -> rem a (seq 0 n) = seq 0 a ++ seq (S a) (n - 1 - a).
Proof.
  intros H. replace n with (a + S (n - 1 - a)) at 1 by lia. rewrite seq_app, rem_app. cbn [seq plus].
  rewrite rem_notin by (rewrite in_seq; lia). f_equal. unfold rem at 1. cbn [filter]. rewrite Nat.eqb_refl. cbn [negb].
  change (filter (fun x => negb (x =? a)) (seq (S a) (n - 1 - a))) with (rem a (seq (S a) (n - 1 - a))).
  apply rem_notin. rewrite in_seq. lia.
Qed.
Lemma map_nthn_firstn l a : a <= length l -> map (nthn l) (seq 0 a) = firstn a l.
Proof.
  intros H. apply nthn_ext. rewrite map_length, seq_length, firstn_length_le by auto. auto.
  rewrite map_length, seq_length. intros d Hd. rewrite nthn_map_seq by auto. unfold nthn. rewrite <- (firstn_skipn a l) at 1.
  rewrite app_nth1; auto. rewrite firstn_length_le; auto.
Qed.
Lemma map_nthn_skipn l : forall k, map (nthn l) (seq k (length l - k)) = skipn k l.
Proof.
  induction l as [|x l IH]; intros k. destruct k; auto. destruct k as [|k].
  - rewrite Nat.sub_0_r. cbn [skipn]. apply map_nth_seq_id.
  - cbn [length skipn]. rewrite Nat.sub_succ. rewrite <- seq_shift, map_map. rewrite <- IH. apply map_ext. auto.
Qed.
Lemma map_rem_drop l a : a < length l -> map (nthn l) (rem a (seq 0 (length l))) = drop_axis a l.
Proof.
  intros H. rewrite rem_seq by auto. rewrite map_app, map_nthn_firstn by lia. unfold drop_axis. f_equal.
  replace (length l - 1 - a) with (length l - S a) by lia. apply map_nthn_skipn.
Qed.
Lemma insert_at_length a t ix : a <= length ix -> length (insert_at a t ix) = S (length ix).
Proof. intros H. unfold insert_at. rewrite app_length, firstn_length_le by auto. cbn [length]. rewrite skipn_length. lia. Qed.
Lemma nthn_insert_at a t ix : a <= length ix -> nthn (insert_at a t ix) a = t.
Proof. intros H. unfold nthn, insert_at. rewrite app_nth2; rewrite firstn_length_le by auto; auto. rewrite Nat.sub_diag. auto. Qed.
Lemma drop_insert a t ix : a <= length ix -> drop_axis a (insert_at a t ix) = ix.
Proof.
  intros H. unfold drop_axis, insert_at. rewrite firstn_app, firstn_length_le, Nat.sub_diag, firstn_firstn, Nat.min_id by auto. cbn [firstn]. rewrite app_nil_r.
  rewrite skipn_app, firstn_length_le by auto. rewrite skipn_all2 by (rewrite firstn_length_le; auto). replace (S a - a) with 1 by lia. cbn [skipn app]. apply firstn_skipn.
Qed.
Lemma drop_axis_length a l : a < length l -> length (drop_axis a l) = length l - 1.
Proof. intros H. unfold drop_axis. rewrite app_length, firstn_length_le, skipn_length by lia. lia. Qed.

Lemma moveaxis0_shape T (a : nda T) k : k < ndim a -> nd_shape (moveaxis0 a k) = nthn (nd_shape a) k :: drop_axis k (nd_shape a).
Proof. intros H. unfold moveaxis0. cbn [transpose nd_shape map]. f_equal. unfold ndim. apply map_rem_drop. auto. Qed.
Lemma moveaxis0_elt T (a : nda T) k t ix : k < ndim a -> length ix = ndim a - 1 -> nd_elt (moveaxis0 a k) (t :: ix) = nd_elt a (insert_at k t ix).
Proof.
  intros H L. unfold moveaxis0. set (lab := k :: rem k (seq 0 (ndim a))).
  assert (P : is_perm lab (ndim a)) by (apply is_perm_roll; auto; apply is_perm_seq).
  assert (E : t :: ix = map (nthn (insert_at k t ix)) lab).
  { unfold lab. cbn [map]. rewrite nthn_insert_at by lia. f_equal.
    replace (ndim a) with (length (insert_at k t ix)) by (rewrite insert_at_length; lia). rewrite map_rem_drop by (rewrite insert_at_length; lia).
    rewrite drop_insert by lia. auto. }
  rewrite E. apply (@view_elt T lab a); auto.
  - split; auto.
  - rewrite insert_at_length; lia.
Qed.

Lemma default_chunk_ge t n : 1 <= t -> exists c, default_chunk t n = Some c /\ (100 <= c)%Z.
Proof. intros H. unfold default_chunk. destruct (Nat.eqb_spec t 0); [lia|]. eexists. split. reflexivity. lia. Qed.

Lemma multidim_ok cdf ppf g alpha theil chunk axis data : axis < ndim data -> 1 <= nthn (nd_shape data) axis ->
  (forall c, chunk = Some c -> (1 <= c)%Z) ->
  exists out, mann_kendall_multidim cdf ppf g alpha theil chunk axis data = Some out /\
    nd_shape out = drop_axis axis (nd_shape data) /\
    forall ix, valid ix (nd_shape out) -> nd_elt out ix =
      point cdf ppf alpha theil (map (fun t => nd_elt data (insert_at axis t ix)) (seq 0 (nthn (nd_shape data) axis))).
Proof.
  intros HA HT HC. unfold mann_kendall_multidim. cbv zeta. rewrite moveaxis0_shape by auto. cbn [nth tl].
  set (T := nthn (nd_shape data) axis) in *. set (sp := drop_axis axis (nd_shape data)).
  destruct (Nat.eqb_spec T 0); [lia|]. cbn [andb].
  assert (C : exists c, (match chunk with Some c => Some c | None => default_chunk T (prodn sp) end) = Some c /\ (1 <= c)%Z).
  { destruct chunk as [c|]. exists c; auto. destruct (default_chunk_ge T (prodn sp) HT) as (c & E & ?). exists c. split; auto. lia. }
  destruct C as (c & -> & Hc). rewrite chunk_loop_ok by auto. cbn [option_map]. eexists. split; [reflexivity|]. cbn [nd_shape nd_elt]. split; auto.
  intros ix V. rewrite map_map. pose proof (ravel_lt sp ix V) as R.
  set (F := fun k => _).
  rewrite (nth_indep _ nan_stat (F 0)) by (rewrite map_length, seq_length; auto). rewrite map_nth, seq_nth by auto. cbn [plus]. unfold F. f_equal.
  apply map_ext_in. intros t Ht. apply in_seq in Ht. cbn [reshape nd_elt].
  assert (LI : length ix = ndim data - 1). { apply valid_length in V. rewrite V. unfold sp. rewrite drop_axis_length; auto. }
  rewrite <- moveaxis0_elt by auto. f_equal. rewrite moveaxis0_shape by auto. fold T sp.
  replace (ravel [T; prodn sp] [t; ravel sp ix]) with (ravel (T :: sp) (t :: ix)) by (simpl; lia).
  apply unravel_ravel. constructor; auto. lia.
Qed.
