(** From one column to the arrays: the flat kernels and the fallback. *)
From Verif Require Import Base Buffer Loops I2P_Model I2P_Proofs VH_Model VH_Spec VH_Proofs VH_Proofs2.
Local Open Scope nat_scope.
Local Opaque spvl.

(** ** Arrays by columns *)
Definition by_columns {T : Type} (nouter nlev ninner : nat) (col : nat -> nat -> list T) (out : list T) : Prop :=
  length out = nouter * nlev * ninner /\
  forall o k i, o < nouter -> k < nlev -> i < ninner -> elt3 out nlev ninner o k i = nth_error (col o i) k.
Lemma decompose nlev ninner nouter q : q < nouter * nlev * ninner ->
  exists o k i, o < nouter /\ k < nlev /\ i < ninner /\ q = flat_index nlev ninner o k i.
Proof.
  intros H. assert (ninner <> 0) by nia. assert (nlev <> 0) by nia.
  exists (q / ninner / nlev), (q / ninner mod nlev), (q mod ninner).
  pose proof (Nat.div_mod q ninner ltac:(auto)). pose proof (Nat.mod_upper_bound q ninner ltac:(auto)).
  pose proof (Nat.div_mod (q / ninner) nlev ltac:(auto)). pose proof (Nat.mod_upper_bound (q / ninner) nlev ltac:(auto)).
  split; [|split; [auto|split; [auto|]]].
  - apply Nat.div_lt_upper_bound; auto. apply Nat.div_lt_upper_bound; auto. nia.
  - unfold flat_index. nia.
Qed.
Lemma nth_ext_all (T : Type) (a b : list T) : (forall q, nth_error a q = nth_error b q) -> a = b.
Proof.
  revert b. induction a as [|x a IH]; intros [|y b] H; auto.
  - specialize (H 0). discriminate. - specialize (H 0). discriminate.
  - f_equal; [specialize (H 0); injection H; auto|]. apply IH. intros q. apply (H (Datatypes.S q)).
Qed.
Lemma by_columns_unique (T : Type) nouter nlev ninner (c c' : nat -> nat -> list T) a b :
  by_columns nouter nlev ninner c a -> by_columns nouter nlev ninner c' b ->
  (forall o i, o < nouter -> i < ninner -> c o i = c' o i) -> a = b.
Proof.
  intros [La Ha] [Lb Hb] E. apply nth_ext_all. intros q. destruct (Nat.ltb_spec q (nouter * nlev * ninner)) as [H|H].
  - destruct (decompose _ _ _ _ H) as [o [k [i [H1 [H2 [H3 ->]]]]]]. specialize (Ha o k i H1 H2 H3). specialize (Hb o k i H1 H2 H3).
    unfold elt3 in *. rewrite Ha, Hb, E; auto.
  - rewrite (proj2 (nth_error_None a q)), (proj2 (nth_error_None b q)); auto; lia.
Qed.
Lemma by_columns_map (T U : Type) (f : T -> U) nouter nlev ninner c a :
  by_columns nouter nlev ninner c a -> by_columns nouter nlev ninner (fun o i => map f (c o i)) (map f a).
Proof.
  intros [L H]. split; [rewrite map_length; auto|]. intros o k i H1 H2 H3. unfold elt3 in *. rewrite !nth_error_map, H; auto.
Qed.
Lemma flat_index_lt nouter nlev ninner o k i : o < nouter -> k < nlev -> i < ninner -> flat_index nlev ninner o k i < nouter * nlev * ninner.
Proof. intros. unfold flat_index. assert (o * nlev + k + 1 <= nouter * nlev) by nia. assert ((o * nlev + k + 1) * ninner <= nouter * nlev * ninner) by (apply Nat.mul_le_mono_r; auto). nia. Qed.
Lemma by_columns_ext (T : Type) nouter nlev ninner (c c' : nat -> nat -> list T) a :
  by_columns nouter nlev ninner c a -> (forall o i, o < nouter -> i < ninner -> c o i = c' o i) -> by_columns nouter nlev ninner c' a.
Proof. intros [L H] E. split; auto. intros. rewrite <- E; auto. Qed.

(** ** The loop over columns of a flat kernel *)
Lemma corder_fold (T : Type) nouter nlevo ninner (f : nat -> nat -> T -> option (option Qc)) (ts : nat -> nat -> list T)
    (step : list (option Qc) -> nat * nat -> option (list (option Qc))) vs buf :
  length buf = nouter * nlevo * ninner ->
  (forall o i b, o < nouter -> i < ninner -> step b (o, i + 1) = flat_store (f o i) (ts o i) (o * nlevo * ninner + (i + 1)) ninner b) ->
  (forall o i, o < nouter -> i < ninner -> length (ts o i) = nlevo /\ mapM (f o i) (ts o i) = Some (vs o i)) ->
  exists out, foldM step (columns_in_order nouter ninner) buf = Some out /\ by_columns nouter nlevo ninner vs out.
Proof.
  intros Hb Hs Hv.
  pose (cells := fun oi : nat * nat => strided (fst oi * nlevo * ninner + snd oi) ninner (vs (fst oi) (snd oi - 1))).
  assert (Hl : forall o i, o < nouter -> i < ninner -> length (vs o i) = nlevo).
  { intros o i H1 H2. destruct (Hv o i H1 H2) as [L M]. rewrite <- L. eapply mapM_length; eauto. }
  destruct (foldM_cells _ _ step cells (nouter * nlevo * ninner) (columns_in_order nouter ninner) buf) as [out [E [L [W _]]]]; auto.
  - intros [o i1] Hin b Lb. apply in_columns in Hin. destruct Hin as [H1 H2].
    destruct (Hv o (i1 - 1) H1 ltac:(lia)) as [Lt M].
    destruct (flat_store_ok _ (f o (i1 - 1)) ninner (nouter * nlevo * ninner) ltac:(lia) (ts o (i1 - 1)) (vs o (i1 - 1)) (o * nlevo * ninner + i1) b)
      as [b' [E [L [W K]]]]; auto; try lia.
    { intros NE. rewrite Hl by lia. assert (0 < nlevo). { rewrite <- (Hl o (i1 - 1)) by lia. destruct (vs o (i1 - 1)); [congruence|simpl; lia]. }
      pose proof (flat_index_lt nouter nlevo ninner o (nlevo - 1) (i1 - 1) H1 ltac:(lia) ltac:(lia)) as B. unfold flat_index in B.
      rewrite Nat.mul_add_distr_r in B. lia. }
    exists b'. specialize (Hs o (i1 - 1) b H1 ltac:(lia)). replace (i1 - 1 + 1) with i1 in Hs by lia. rewrite Hs. auto.
  - rewrite flat_map_concat_map. erewrite map_ext_in; [rewrite <- flat_map_concat_map; apply (addresses_NoDup nouter nlevo ninner)|].
    intros [o i1] Hin. apply in_columns in Hin. unfold cells. cbn [fst snd]. rewrite strided_fst, Hl by lia.
    unfold build_flat_level_offsets. rewrite offsets_map. auto.
  - exists out. split; auto. split; auto. intros o k i H1 H2 H3.
    destruct (nth_error (vs o i) k) as [v|] eqn:En; [|apply nth_error_None in En; rewrite Hl in En; lia].
    assert (X := W (o, i + 1) (o * nlevo * ninner + (i + 1) + k * ninner) v).
    rewrite in_columns in X. specialize (X ltac:(lia)). unfold cells in X. cbn [fst snd] in X. rewrite Nat.add_sub in X.
    specialize (X (strided_in _ ninner _ _ k v En)).
    unfold elt3, flat_index. replace (o * nlevo * ninner + (i + 1) + k * ninner) with (Datatypes.S ((o * nlevo + k) * ninner + i)) in X by nia.
    simpl in X. auto.
Qed.

(** ** Reading the input column *)
Definition take_column {T : Type} (d : T) (a : list T) (nlev ninner o i : nat) : list T :=
  map (fun k => nth (flat_index nlev ninner o k i) a d) (seq 0 nlev).
Lemma take_column_length (T : Type) (d : T) a nlev ninner o i : length (take_column d a nlev ninner o i) = nlev.
Proof. unfold take_column. rewrite map_length, seq_length. auto. Qed.
Lemma take_column_nth (T : Type) (d : T) a nouter nlev ninner o i k : length a = nouter * nlev * ninner -> o < nouter -> i < ninner -> k < nlev ->
  nth_error (take_column d a nlev ninner o i) k = nth_error a (flat_index nlev ninner o k i).
Proof.
  intros L H1 H2 H3. unfold take_column. rewrite nth_error_map.
  rewrite (nth_error_nth' (seq 0 nlev) 0) by (rewrite seq_length; auto). cbn [option_map]. rewrite seq_nth by auto.
  rewrite (nth_error_nth' a d); auto. rewrite L. apply flat_index_lt; auto.
Qed.
Lemma take_column_spec (T : Type) (d : T) a nouter nlev ninner o i : length a = nouter * nlev * ninner -> o < nouter -> i < ninner ->
  column3 a nlev ninner o i (take_column d a nlev ninner o i).
Proof. intros. split; [apply take_column_length|]. intros k Hk. eapply take_column_nth; eauto. Qed.
Lemma column3_unique (T : Type) (a : list T) nlev ninner o i c c' : column3 a nlev ninner o i c -> column3 a nlev ninner o i c' -> c = c'.
Proof.
  intros [L H] [L' H']. apply nth_ext_all. intros q. destruct (Nat.ltb_spec q nlev) as [Q|Q].
  - rewrite H, H'; auto.
  - rewrite (proj2 (nth_error_None c q)), (proj2 (nth_error_None c' q)); auto; lia.
Qed.
Lemma rd_offsets base inner ninner n kp : 1 <= kp <= n -> rd (build_flat_level_offsets base inner ninner n) kp = Some (base + inner + (kp - 1) * ninner).
Proof.
  intros H. unfold build_flat_level_offsets. rewrite offsets_map, rd_map. destruct kp as [|k]; [lia|]. simpl rd.
  rewrite (nth_error_nth' (seq 0 n) 0) by (rewrite seq_length; lia). rewrite seq_nth by lia. simpl. f_equal. f_equal. f_equal. lia.
Qed.
Lemma rd_column (T : Type) (d : T) a nouter nlev ninner o i kp : length a = nouter * nlev * ninner -> o < nouter -> i < ninner -> 1 <= kp <= nlev ->
  rd a (o * nlev * ninner + (i + 1) + (kp - 1) * ninner) = rd (take_column d a nlev ninner o i) kp.
Proof.
  intros L H1 H2 H3. destruct kp as [|k]; [lia|]. simpl rd at 2. rewrite (take_column_nth _ d a nouter) by (auto; lia).
  replace (o * nlev * ninner + (i + 1) + (Datatypes.S k - 1) * ninner) with (Datatypes.S (flat_index nlev ninner o k i)) by (unfold flat_index; nia).
  reflexivity.
Qed.

(** ** The fallback's reshaping *)
Lemma seq_nth_error n k : k < n -> nth_error (seq 0 n) k = Some k.
Proof. intros H. rewrite (nth_error_nth' (seq 0 n) 0) by (rewrite seq_length; auto). rewrite seq_nth; auto. Qed.
Lemma data_columns_ok a nouter nlev ninner : length a = nouter * nlev * ninner ->
  data_columns a nouter nlev ninner =
  Some (map (fun j => take_column None a nlev ninner (j / ninner) (j mod ninner)) (seq 0 (nouter * ninner))).
Proof.
  intros L. unfold data_columns. apply mapM_Some_map. intros j Hj. apply in_seq in Hj.
  assert (ninner <> 0) by nia. unfold take_column. apply mapM_Some_map. intros k Hk. apply in_seq in Hk. unfold celt.
  apply nth_error_nth'. rewrite L. apply flat_index_lt.
  - apply Nat.div_lt_upper_bound; auto; nia.
  - lia.
  - apply Nat.mod_upper_bound; auto.
Qed.
Lemma columns_to_corder_ok (cols : list (list (option Qc))) nouter nlevo ninner (col : nat -> nat -> list (option Qc)) :
  (forall o i, o < nouter -> i < ninner -> nth_error cols (o * ninner + i) = Some (col o i) /\ length (col o i) = nlevo) ->
  exists out, columns_to_corder cols nouter nlevo ninner = Some out /\ by_columns nouter nlevo ninner col out.
Proof.
  intros H. unfold columns_to_corder.
  set (f := fun q : nat => _).
  assert (F : forall o k i, o < nouter -> k < nlevo -> i < ninner -> f (flat_index nlevo ninner o k i) = nth_error (col o i) k).
  { intros o k i H1 H2 H3. unfold f, flat_index.
    assert (E1 : ((o * nlevo + k) * ninner + i) mod ninner = i) by (rewrite Nat.add_comm, Nat.mod_add by lia; apply Nat.mod_small; auto).
    assert (E2 : ((o * nlevo + k) * ninner + i) / ninner = o * nlevo + k) by (rewrite Nat.div_add_l by lia; rewrite (Nat.div_small i) by auto; lia).
    rewrite (Nat.mul_comm nlevo ninner), <- Nat.div_div by lia. rewrite E1, E2.
    rewrite Nat.div_add_l, (Nat.div_small k), Nat.add_0_r by (auto; lia).
    rewrite (Nat.add_comm (o * nlevo)), Nat.mod_add, Nat.mod_small by (auto; lia).
    destruct (H o i H1 H3) as [-> _]. reflexivity. }
  destruct (mapM_some _ _ f (seq 0 (nouter * nlevo * ninner))) as [out E].
  { intros q Hq. apply in_seq in Hq. destruct (decompose nlevo ninner nouter q ltac:(lia)) as [o [k [i [H1 [H2 [H3 ->]]]]]].
    rewrite F by auto. destruct (nth_error (col o i) k) eqn:En; eauto. apply nth_error_None in En. destruct (H o i H1 H3). lia. }
  exists out. split; auto. split; [rewrite (mapM_length _ _ _ _ _ E), seq_length; auto|].
  intros o k i H1 H2 H3. unfold elt3.
  destruct (mapM_nth _ _ _ _ _ _ _ E (seq_nth_error _ _ (flat_index_lt _ _ _ _ _ _ H1 H2 H3))) as [y [E1 E2]].
  rewrite F in E1 by auto. congruence.
Qed.
Lemma nth_combine (A B : Type) (a : list A) (b : list B) k x y : nth_error a k = Some x -> nth_error b k = Some y -> nth_error (combine a b) k = Some (x, y).
Proof. revert b k. induction a; intros [|z b] [|k] Hx Hy; simpl in *; try discriminate; auto. congruence. Qed.
