(** Proofs about the axis bookkeeping (AX_Model). *)
From Verif Require Import Base Loops NdArray GF_Model GF_Proofs1 GF_Proofs2 AX_Model AX_Spec.
Local Close Scope Qc_scope.
Local Open Scope nat_scope.

(** ** Rolling the axes back *)
Lemma filter_lt_rem m l : filter (fun d => d <? m) (rem m l) = filter (fun d => d <? m) l.
Proof.
  induction l as [|x l IH]; simpl; auto. destruct (Nat.eqb_spec x m) as [->|N]; simpl.
  - rewrite Nat.ltb_irrefl. exact IH.
  - fold (rem m l). destruct (x <? m); rewrite IH; auto.
Qed.
Lemma rem_filter_lt m l : rem m (filter (fun d => d <? S m) l) = filter (fun d => d <? m) l.
Proof.
  induction l as [|x l IH]; simpl; auto.
  destruct (Nat.ltb_spec x (S m)), (Nat.ltb_spec x m); simpl; auto; try lia.
  - destruct (Nat.eqb_spec x m); [lia|]. simpl. f_equal. exact IH.
  - destruct (Nat.eqb_spec x m); [|lia]. simpl. exact IH.
Qed.
Lemma filter_none {X} (f : X -> bool) l : (forall x, In x l -> f x = false) -> filter f l = [].
Proof. induction l as [|x l IH]; simpl; auto. intros H. rewrite (H x) by auto. apply IH. auto. Qed.
Lemma rem_app d l m : rem d (l ++ m) = rem d l ++ rem d m.
Proof. apply filter_app. Qed.
Lemma nthn_map (f : nat -> nat) l k : k < length l -> nthn (map f l) k = f (nthn l k).
Proof. intros H. unfold nthn. rewrite nth_indep with (d' := f 0) by (rewrite map_length; auto). apply map_nth. Qed.

Lemma roll_back_step T (x : nda T) n : ndim x = n -> forall m i lab rd a,
  m + i = n -> is_perm lab n -> is_view lab x a -> length rd = n ->
  (forall j, i <= j < n -> nthn rd j = pos (n - 1 - j) lab) ->
  lab = seq (n - i) i ++ filter (fun d => d <? n - i) lab ->
  nd_eq (roll_back m i a rd) x.
Proof.
  intros Hn. induction m as [|m IH]; intros i lab rd a Hm Hl Hv Hr Hrd Hlab.
  - cbn [roll_back]. apply view_end. replace (seq 0 (ndim x)) with lab; auto.
    rewrite Hlab, filter_none, app_nil_r.
    + f_equal; lia.
    + intros y _. apply Nat.ltb_ge. lia.
  - cbn [roll_back]. cbv zeta. set (d := n - 1 - i).
    assert (Ed : nthn rd i = pos d lab) by (apply Hrd; lia).
    destruct (Hl) as (L1 & L2 & L3).
    assert (Hd : In d lab) by (apply L3; unfold d; lia).
    rewrite Ed. apply (IH (S i) (d :: rem d lab)).
    + lia.
    + apply is_perm_roll; auto. unfold d. lia.
    + apply view_rollaxis; auto. rewrite Hn. auto.
    + rewrite map_length. auto.
    + intros j Hj. rewrite nthn_map by lia. rewrite (Hrd j) by lia.
      symmetry. apply pos_roll; auto; try (apply L3; lia). unfold d. lia.
    + replace (n - S i) with d by (unfold d; lia). cbn [seq app]. f_equal.
      assert (E0 : n - i = S d) by (unfold d; lia). rewrite E0 in Hlab.
      cbn [filter]. rewrite Nat.ltb_irrefl, filter_lt_rem.
      transitivity (rem d (seq (S d) i ++ filter (fun d0 => d0 <? S d) lab)); [f_equal; exact Hlab|].
      rewrite rem_app, rem_filter_lt, rem_notin; auto.
      rewrite in_seq. lia.
Qed.
Lemma roll_back_view T (x a : nda T) lab :
  is_perm lab (ndim x) -> is_view lab x a ->
  nd_eq (roll_back (ndim x) 0 a (map (fun d => pos d lab) (rev (seq 0 (ndim x))))) x.
Proof.
  intros Hl Hv. destruct (Hl) as (L1 & L2 & L3).
  apply (roll_back_step T x (ndim x) eq_refl (ndim x) 0 lab); auto.
  - rewrite map_length, rev_length, seq_length. reflexivity.
  - intros j Hj. rewrite nthn_map by (rewrite rev_length, seq_length; lia). f_equal.
    unfold nthn. rewrite rev_nth by (rewrite seq_length; lia). rewrite seq_length, seq_nth by lia. lia.
  - rewrite Nat.sub_0_r. cbn [seq app].
    assert (G : forall l : list nat, (forall d, In d l -> d < ndim x) -> l = filter (fun d => d <? ndim x) l).
    { induction l as [|y l IHl]; simpl; auto. intros G. rewrite (proj2 (Nat.ltb_lt y (ndim x))) by auto. f_equal. auto. }
    apply G. intros d Hd. apply L3; auto.
Qed.

(** Any array is the view of its inverse transpose. *)
Lemma inverse_perm lab n : is_perm lab n ->
  let inv := map (fun d => pos d lab) (seq 0 n) in
  is_perm inv n /\ map (nthn inv) lab = seq 0 n /\ forall d, d < n -> pos d inv = nthn lab d.
Proof.
  intros Hl inv. destruct (Hl) as (L1 & L2 & L3).
  assert (LEN : length inv = n) by (unfold inv; rewrite map_length, seq_length; auto).
  assert (N : NoDup inv).
  { unfold inv. apply NoDup_map_inj; [|apply seq_NoDup]. intros a b Ha Hb E. rewrite in_seq in *.
    apply (pos_inj lab); auto; apply L3; lia. }
  assert (V : forall d, d < n -> nthn inv d = pos d lab).
  { intros d Hd. unfold inv. rewrite nthn_map_seq by auto. reflexivity. }
  split; [|split].
  - split; [auto|]. split; [auto|]. intros d. unfold inv. rewrite in_map_iff. split.
    + intros (e & <- & He). apply in_seq in He. rewrite <- L2. apply pos_lt, L3. lia.
    + intros Hd. exists (nthn lab d). split; [apply pos_nth; auto; lia|]. rewrite in_seq.
      pose proof (is_perm_nth lab n d Hl Hd). lia.
  - assert (E : forall k, k < n -> nth k (map (nthn inv) lab) 0 = k).
    { intros k Hk. change (nthn (map (nthn inv) lab) k = k). rewrite nthn_map by lia.
      rewrite V by (apply is_perm_nth; auto). apply pos_nth; auto. lia. }
    apply nth_ext with (d := 0) (d' := 0).
    + rewrite map_length, seq_length. auto.
    + intros k Hk. rewrite map_length in Hk. rewrite E by lia. rewrite seq_nth by lia. lia.
  - intros d Hd.
    assert (In d inv).
    { unfold inv. rewrite in_map_iff. exists (nthn lab d). split; [apply pos_nth; auto; lia|].
      rewrite in_seq. pose proof (is_perm_nth lab n d Hl Hd). lia. }
    assert (P : pos d inv < n) by (rewrite <- LEN; apply pos_lt; auto).
    pose proof (nth_pos d inv H) as E. rewrite V in E by auto.
    rewrite <- E at 2. symmetry. apply nth_pos. apply L3. auto.
Qed.
Lemma view_of_inverse T (b : nda T) lab : is_perm lab (ndim b) ->
  let x := transpose (map (fun d => pos d lab) (seq 0 (ndim b))) b in
  ndim x = ndim b /\ is_view lab x b /\
  (forall ix, length ix = ndim b -> nd_elt x ix = nd_elt b (map (nthn ix) lab)) /\
  nd_shape x = map (fun d => nthn (nd_shape b) (pos d lab)) (seq 0 (ndim b)).
Proof.
  intros Hl x. destruct (inverse_perm lab (ndim b) Hl) as (I1 & I2 & I3).
  set (inv := map (fun d => pos d lab) (seq 0 (ndim b))) in *.
  destruct (Hl) as (L1 & L2 & L3). destruct (I1) as (J1 & J2 & J3).
  assert (NX : ndim x = ndim b).
  { unfold x, ndim at 1. cbn [transpose nd_shape]. rewrite map_length. auto. }
  split; [auto|]. split; [|split].
  - assert (E := transpose_transpose T b lab inv Hl I1). rewrite I2 in E. destruct E as [E1 E2].
    destruct (transpose_id T b) as [F1 F2]. split.
    + unfold x. rewrite E1, F1. reflexivity.
    + intros ix Hix. unfold x. rewrite E2, F2; congruence.
  - intros ix Hix. unfold x. cbn [transpose nd_elt]. f_equal. rewrite J2.
    transitivity (map (nthn ix) (map (nthn lab) (seq 0 (ndim b)))).
    + rewrite map_map. apply map_ext_in. intros d Hd. apply in_seq in Hd. rewrite I3 by lia. reflexivity.
    + rewrite <- L2 at 1. f_equal. apply map_nth_seq_id.
  - unfold x, inv. cbn [transpose nd_shape]. rewrite map_map. reflexivity.
Qed.

(** ** The order produced by _order_dims *)
Definition front_order (n x y : nat) : list nat := [y; x] ++ rem y (rem x (seq 0 n)).
Lemma front_order_perm n x y : x < n -> y < n -> x <> y -> is_perm (front_order n x y) n /\
  front_order n x y = y :: rem y (x :: rem x (seq 0 n)).
Proof.
  intros Hx Hy N.
  assert (E : front_order n x y = y :: rem y (x :: rem x (seq 0 n))).
  { unfold front_order. cbn [app]. f_equal. simpl. destruct (Nat.eqb_spec x y); [congruence|]. reflexivity. }
  split; auto. rewrite E. apply is_perm_roll; auto. apply is_perm_roll; auto. apply is_perm_seq.
Qed.
Lemma two_rolls T (a : nda T) x y : x < ndim a -> y < ndim a -> x <> y ->
  is_view (front_order (ndim a) x y) a (rollaxis (rollaxis a x) (if y <? x then y + 1 else y)).
Proof.
  intros Hx Hy N. destruct (front_order_perm (ndim a) x y Hx Hy N) as [P E]. rewrite E.
  pose proof (is_perm_seq (ndim a)) as P0. pose proof (is_perm_roll x _ _ P0 Hx) as P1.
  assert (V1 : is_view (x :: rem x (seq 0 (ndim a))) a (rollaxis a x)).
  { pose proof (view_rollaxis T (seq 0 (ndim a)) a a x P0 (view_start T a)) as V.
    rewrite pos_seq in V by lia. rewrite Nat.sub_0_r in V. apply V. apply in_seq. lia. }
  assert (Q : pos y (x :: rem x (seq 0 (ndim a))) = if y <? x then y + 1 else y).
  { rewrite pos_roll; try (apply in_seq; lia); auto; [|apply seq_NoDup]. rewrite !pos_seq by lia. rewrite !Nat.sub_0_r. reflexivity. }
  rewrite <- Q. apply view_rollaxis; auto. simpl. rewrite in_rem, in_seq. right. lia.
Qed.

(** ** gridfill: what _prep_data and _recover_data do to each element *)

Lemma valid_nth ix sh d : valid ix sh -> d < length sh -> nthn ix d < nthn sh d.
Proof.
  intros V. revert d. induction V as [|i s ix sh Hi V IH]; simpl; [lia|]. intros d Hd. unfold nthn in *. destruct d; simpl; auto.
  apply IH. lia.
Qed.
Lemma valid_map_nth ix sh lab : valid ix sh -> (forall d, In d lab -> d < length sh) -> valid (map (nthn ix) lab) (map (nthn sh) lab).
Proof.
  intros V H. induction lab as [|d lab IH]; simpl; constructor.
  - apply valid_nth; simpl in *; auto.
  - apply IH. simpl in *; auto.
Qed.
Lemma in_others n x y d : In d (others n x y) <-> d < n /\ d <> x /\ d <> y.
Proof. change (others n x y) with (rem y (rem x (seq 0 n))). rewrite !in_rem, in_seq. lia. Qed.

Lemma view_elt T (lab : list nat) (x a : nda T) ix : is_perm lab (ndim x) -> is_view lab x a ->
  length ix = ndim x -> nd_elt a (map (nthn ix) lab) = nd_elt x ix.
Proof.
  intros (L1 & L2 & L3) [_ H] Hix. rewrite H by (rewrite map_length; auto). cbn [transpose nd_elt]. f_equal.
  rewrite L2. transitivity (map (nthn ix) (seq 0 (length ix))); [|apply map_nth_seq_id].
  rewrite Hix. apply map_ext_in. intros d Hd. apply in_seq in Hd.
  assert (In d lab) by (apply L3; lia). rewrite nthn_map by (apply pos_lt; auto). f_equal. apply nth_pos. auto.
Qed.
Lemma reshape3_elt T ny nx rest (a : nda T) i j ks :
  nd_shape a = ny :: nx :: rest -> valid (i :: j :: ks) (nd_shape a) ->
  nd_elt (reshape [ny; nx; prodn rest] a) [i; j; ravel rest ks] = nd_elt a (i :: j :: ks).
Proof.
  intros Hs V. cbn [reshape nd_elt]. f_equal. rewrite <- (unravel_ravel (nd_shape a) (i :: j :: ks) V). f_equal.
  rewrite Hs. cbn [ravel prodn fold_right]. fold (prodn rest). rewrite !Nat.mul_1_r, Nat.add_0_r. reflexivity.
Qed.
Lemma reshape_back_elt T ny nx rest (a : nda T) i j ks :
  nd_shape a = [ny; nx; prodn rest] -> valid (i :: j :: ks) (ny :: nx :: rest) ->
  nd_elt (reshape (ny :: nx :: rest) a) (i :: j :: ks) = nd_elt a [i; j; ravel rest ks].
Proof.
  intros Hs V. cbn [reshape nd_elt]. f_equal.
  inversion V as [|? ? ? ? Hi V1]; subst. inversion V1 as [|? ? ? ? Hj V2]; subst.
  assert (V3 : valid [i; j; ravel rest ks] (nd_shape a)).
  { rewrite Hs. repeat constructor; auto. apply ravel_lt; auto. }
  rewrite <- (unravel_ravel _ _ V3). f_equal. rewrite Hs.
  cbn [ravel prodn fold_right]. fold (prodn rest). rewrite !Nat.mul_1_r, Nat.add_0_r. reflexivity.
Qed.

Lemma prep_data_spec T (g : nda T) x y : x < ndim g -> y < ndim g -> x <> y ->
  exists g3 inf, prep_data g x y = Some (g3, inf) /\
  nd_shape g3 = [nthn (nd_shape g) y; nthn (nd_shape g) x; prodn (map (nthn (nd_shape g)) (others (ndim g) x y))] /\
  inf = {| intshape := map (nthn (nd_shape g)) (front_order (ndim g) x y); intorder := front_order (ndim g) x y; origndim := ndim g |} /\
  forall ix, valid ix (nd_shape g) ->
    nd_elt g3 [nthn ix y; nthn ix x; other_index (nd_shape g) x y ix] = nd_elt g ix.
Proof.
  intros Hx Hy N. destruct (front_order_perm (ndim g) x y Hx Hy N) as [P _].
  pose proof (two_rolls T g x y Hx Hy N) as V.
  unfold prep_data, order_dims.
  rewrite (proj2 (Nat.ltb_lt _ _) Hx), (proj2 (Nat.ltb_lt _ _) Hy), (proj2 (Nat.eqb_neq _ _) N). cbn [andb negb].
  set (a := rollaxis (rollaxis g x) (if y <? x then y + 1 else y)) in *.
  destruct (V) as [Vs Ve]. cbn [transpose nd_shape] in Vs.
  fold (front_order (ndim g) x y). eexists. eexists. split; [reflexivity|].
  cbn [reshape nd_shape]. rewrite Vs.
  change (front_order (ndim g) x y) with (y :: x :: others (ndim g) x y) at 1.
  change (front_order (ndim g) x y) with (y :: x :: others (ndim g) x y) at 1.
  cbn [map firstn skipn app]. split; [reflexivity|]. split; [reflexivity|].
  intros ix Vi.
  assert (L : length ix = ndim g) by (apply valid_length in Vi; auto).
  pose proof (view_elt T _ g a ix P V L) as E. rewrite <- E.
  change (front_order (ndim g) x y) with (y :: x :: others (ndim g) x y).
  cbn [map]. unfold other_index. fold (ndim g).
  apply (reshape3_elt T (nthn (nd_shape g) y) (nthn (nd_shape g) x)).
  - rewrite Vs. reflexivity.
  - rewrite Vs. change (nthn ix y :: nthn ix x :: map (nthn ix) (others (ndim g) x y))
      with (map (nthn ix) (front_order (ndim g) x y)).
    apply valid_map_nth; auto. intros d Hd. apply P; auto.
Qed.

Lemma recover_spec_gen T (g3 : nda T) sh x y n : length sh = n -> x < n -> y < n -> x <> y ->
  nd_shape g3 = [nthn sh y; nthn sh x; prodn (map (nthn sh) (others n x y))] ->
  let r := roll_back n 0 (reshape (map (nthn sh) (front_order n x y)) g3)
             (map (fun d => pos d (front_order n x y)) (rev (seq 0 n))) in
  nd_shape r = sh /\
  forall ix, valid ix sh -> nd_elt r ix = nd_elt g3 [nthn ix y; nthn ix x; other_index sh x y ix].
Proof.
  intros Ln Hx Hy N Hs r.
  set (lab := front_order n x y) in *.
  destruct (front_order_perm n x y Hx Hy N) as [P _]. fold lab in P. destruct (P) as (P1 & P2 & P3).
  set (b := reshape (map (nthn sh) lab) g3) in *.
  assert (NB : ndim b = n) by (unfold b, ndim; cbn [reshape nd_shape]; rewrite map_length; auto).
  assert (P' : is_perm lab (ndim b)) by (rewrite NB; auto).
  destruct (view_of_inverse T b lab P') as (X1 & X2 & X3 & X4).
  set (X := transpose (map (fun d => pos d lab) (seq 0 (ndim b))) b) in *.
  assert (R : nd_eq r X).
  { unfold r. rewrite <- NB, <- X1. apply roll_back_view; auto. rewrite X1, NB. auto. }
  destruct R as [R1 R2].
  assert (SH : nd_shape X = sh).
  { rewrite X4, NB. unfold b. cbn [reshape nd_shape].
    transitivity (map (nthn sh) (seq 0 n)); [|rewrite <- Ln; apply map_nth_seq_id].
    apply map_ext_in. intros d Hd. apply in_seq in Hd. assert (I : In d lab) by (apply P3; lia).
    rewrite nthn_map by (apply pos_lt; auto). rewrite nth_pos; auto. }
  split; [congruence|]. intros ix V.
  assert (L : length ix = n) by (apply valid_length in V; congruence).
  rewrite R2 by (rewrite R1, SH; auto). rewrite X3 by congruence. unfold b, lab, front_order.
  cbn [app map]. fold (others n x y).
  assert (VV : valid (map (nthn ix) (y :: x :: others n x y)) (map (nthn sh) (y :: x :: others n x y))).
  { apply valid_map_nth; auto. intros d Hd. rewrite Ln. apply P3. exact Hd. }
  cbn [map] in VV.
  rewrite (reshape_back_elt T (nthn sh y) (nthn sh x)); auto.
  unfold other_index. rewrite Ln. reflexivity.
Qed.

Lemma recover_data_spec T S (g : nda S) (g3 : nda T) x y : x < ndim g -> y < ndim g -> x <> y ->
  nd_shape g3 = [nthn (nd_shape g) y; nthn (nd_shape g) x; prodn (map (nthn (nd_shape g)) (others (ndim g) x y))] ->
  let r := recover_data g3 {| intshape := map (nthn (nd_shape g)) (front_order (ndim g) x y);
                              intorder := front_order (ndim g) x y; origndim := ndim g |} in
  nd_shape r = nd_shape g /\
  forall ix, valid ix (nd_shape g) -> nd_elt r ix = nd_elt g3 [nthn ix y; nthn ix x; other_index (nd_shape g) x y ix].
Proof.
  intros Hx Hy N Hs. unfold recover_data. cbn [intshape intorder origndim].
  rewrite map_length, rev_length, seq_length. apply recover_spec_gen; auto.
Qed.
Lemma order_dims_error T (g : nda T) x y : prep_data g x y = None <-> ~ (x < ndim g /\ y < ndim g /\ x <> y).
Proof.
  unfold prep_data, order_dims.
  destruct (Nat.ltb_spec x (ndim g)), (Nat.ltb_spec y (ndim g)), (Nat.eqb_spec x y); cbn [andb negb]; split; intros H'; try discriminate; try (auto; fail); try lia; exfalso; apply H'; auto.
Qed.
