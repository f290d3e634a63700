(** The S statistic, its symmetries, and the Sen slope kernels. *)
From Verif Require Import Base Buffer Loops OrderSpec OrderProofs MKSort_Model MKSort_Proofs MKSort_Props MKStat_Model MKStat_Spec.
Set Implicit Arguments.
Local Open Scope nat_scope.

(** *** index pairs versus value pairs *)
Lemma get_cons_S x t i : 1 <= i -> get (x :: t) (S i) = get t i.
Proof. intros H. unfold get. destruct i; [lia|]. simpl. rewrite Nat.sub_0_r. auto. Qed.
Lemma with_dist_index x t : forall d l0, 
  with_dist d x t = map (fun j => (d + j - 1 - l0, x, get t (j - l0))) (seq (1 + l0) (length t)).
Proof.
  induction t as [|y t IH]; intros d l0; auto. cbn [with_dist length seq map]. f_equal.
  - f_equal; [f_equal; lia|]. replace (1 + l0 - l0) with 1 by lia. auto.
  - rewrite (IH (S d) (S l0)). apply map_ext_in. intros j Hj. apply in_seq in Hj. f_equal; [f_equal; lia|].
    replace (j - l0) with (S (j - S l0)) by lia. rewrite get_cons_S by lia. auto.
Qed.
Lemma row_pairs_S n : row_pairs (S n) = map (fun j => (1, j)) (seq 2 n) ++ map (fun '(i, j) => (S i, S j)) (row_pairs n).
Proof.
  unfold row_pairs. destruct n; [reflexivity|]. replace (S (S n) - 1) with (S n) by lia.
  cbn [seq flat_map]. f_equal.
  - rewrite <- seq_shift with (len := n). rewrite flat_map_concat_map, map_map.
    replace (S n - 1) with n by lia. rewrite flat_map_concat_map, concat_map, map_map. f_equal.
    apply map_ext_in. intros i Hi. apply in_seq in Hi. rewrite map_map.
    replace (S i + 1) with (S (i + 1)) by lia. rewrite <- seq_shift, map_map.
    replace (S (S n) - S i) with (S n - i) by lia. auto.
Qed.
Definition pair_of (y : list Qc) (p : nat * nat) : nat * Qc * Qc := let '(i, j) := p in (j - i, get y i, get y j).
Lemma all_pairs_index y : all_pairs y = map (pair_of y) (row_pairs (length y)).
Proof.
  induction y as [|x t IH]; [reflexivity|]. cbn [all_pairs length]. rewrite row_pairs_S, map_app, !map_map. f_equal.
  - rewrite (with_dist_index x t 1 1). apply map_ext_in. intros j Hj. apply in_seq in Hj. unfold pair_of. apply f_equal2; [apply f_equal2; [lia|reflexivity]|].
    replace j with (S (j - 1)) at 2 by lia. rewrite get_cons_S by lia. auto.
  - rewrite IH. apply map_ext_in. intros [i j] Hp. apply in_row_pairs in Hp. unfold pair_of.
    rewrite !get_cons_S by lia. auto.
Qed.
Lemma all_pairs_lag y : Permutation (all_pairs y) (map (pair_of y) (lag_pairs (length y))).
Proof. rewrite all_pairs_index. apply Permutation_map. symmetry. apply lag_row_perm. Qed.

(** *** S *)
Definition psign (p : nat * Qc * Qc) : Z := if increasing p then 1%Z else if decreasing p then (-1)%Z else 0%Z.
Lemma psign_count l : zsum (map psign l) = (Z.of_nat (length (filter increasing l)) - Z.of_nat (length (filter decreasing l)))%Z.
Proof.
  induction l as [|[[d x] y] l IH]; simpl; auto. rewrite IH. unfold psign, increasing, decreasing.
  repeat qc_case; simpl length; try lia. exfalso; qclra.
Qed.
Lemma mk_S_zsum l : mk_S l = zsum (map psign (all_pairs l)).
Proof. unfold mk_S. rewrite psign_count. auto. Qed.

Lemma do_loop_row {S : Type} (n : nat) (f : nat -> nat -> S -> S) st :
  do_loop 1 (n - 1) (fun i st => do_loop (i + 1) n (fun j st => f i j st) st) st =
  fold_left (fun st '(i, j) => f i j st) (row_pairs n) st.
Proof.
  unfold do_loop, row_pairs. rewrite fold_left_flat_map. replace (n - 1 + 1 - 1) with (n - 1) by lia.
  apply fold_left_ext_in. intros s i Hi. rewrite fold_left_map.
  replace (n + 1 - (i + 1)) with (n - i) by lia. auto.
Qed.
Lemma do_loop_lag {S : Type} (n : nat) (f : nat -> nat -> S -> S) st :
  do_loop 1 (n - 1) (fun lag st => do_loop 1 (n - lag) (fun i st => f i (i + lag) st) st) st =
  fold_left (fun st '(i, j) => f i j st) (lag_pairs n) st.
Proof.
  unfold do_loop, lag_pairs. rewrite fold_left_flat_map. replace (n - 1 + 1 - 1) with (n - 1) by lia.
  apply fold_left_ext_in. intros s i Hi. rewrite fold_left_map.
  replace (n - i + 1 - 1) with (n - i) by lia. auto.
Qed.

Lemma compute_s_value_ok y : compute_s_value y = mk_S y.
Proof.
  rewrite mk_S_zsum, all_pairs_index. unfold compute_s_value.
  rewrite (do_loop_row (length y) (fun i j s => if (get y i <? get y j)%Qc then (s + 1)%Z else if (get y j <? get y i)%Qc then (s - 1)%Z else s)).
  rewrite (@fold_left_ext_in _ _ _ (fun s p => (s + psign (pair_of y p))%Z)).
  - rewrite fold_left_zsum, map_map. reflexivity.
  - intros s [i j] _. unfold psign, pair_of, increasing, decreasing. repeat qc_case; lia.
Qed.

(** counting bound *)
Lemma psign_bound l : (- Z.of_nat (length l) <= zsum (map psign l) <= Z.of_nat (length l))%Z.
Proof. induction l as [|[[d x] y] l IH]; cbn [map zsum fold_right length]; [lia|]. fold (zsum (map psign l)).
  assert (-1 <= psign (d, x, y) <= 1)%Z. { unfold psign. destruct (increasing (d,x,y)), (decreasing (d,x,y)); lia. } lia. Qed.
Lemma all_pairs_length l : 2 * length (all_pairs l) = length l * (length l - 1).
Proof. rewrite (Permutation_length (all_pairs_lag l)), map_length. apply two_len_lag. Qed.
Lemma mk_S_bound l : (2 * Z.abs (mk_S l) <= Z.of_nat (length l) * (Z.of_nat (length l) - 1))%Z.
Proof. rewrite mk_S_zsum. pose proof (psign_bound (all_pairs l)). pose proof (all_pairs_length l).
  assert (2 * Z.of_nat (length (all_pairs l)) = Z.of_nat (length l) * (Z.of_nat (length l) - 1))%Z.
  { destruct (length l) eqn:E; [lia|]. rewrite <- E in *. nia. }
  lia. Qed.

(** *** symmetries *)
Definition sgnd (x y : Qc) : Z := if (x <? y)%Qc then 1%Z else if (y <? x)%Qc then (-1)%Z else 0%Z.
Lemma sgnd_anti x y : sgnd y x = (- sgnd x y)%Z.
Proof. unfold sgnd. repeat qc_case; try lia; exfalso; qclra. Qed.
Lemma psign_with_dist x t : forall d, map psign (with_dist d x t) = map (sgnd x) t.
Proof. induction t; intros; simpl; auto. f_equal; auto. Qed.
Lemma mk_S_cons x t : mk_S (x :: t) = (zsum (map (sgnd x) t) + mk_S t)%Z.
Proof. rewrite !mk_S_zsum. simpl. rewrite map_app, zsum_app, psign_with_dist. auto. Qed.
Lemma mk_S_snoc x l : mk_S (l ++ [x]) = (mk_S l + zsum (map (fun y => sgnd y x) l))%Z.
Proof. induction l as [|y t IH]; [reflexivity|]. rewrite <- app_comm_cons. rewrite !mk_S_cons, map_app, zsum_app, IH.
  cbn [map zsum fold_right]. fold (zsum (map (fun y => sgnd y x) t)). lia. Qed.
Lemma mk_S_rev l : mk_S (rev l) = (- mk_S l)%Z.
Proof. induction l as [|x t IH]; [reflexivity|]. simpl rev. rewrite mk_S_snoc, mk_S_cons, IH.
  rewrite (zsum_perm (Permutation_map _ (Permutation_sym (Permutation_rev t)))).
  rewrite (map_ext _ _ (fun y => sgnd_anti x y)). rewrite zsum_map_opp. lia. Qed.
Lemma mk_S_map_mono f l : (forall x y, (x < y)%Qc -> (f x < f y)%Qc) -> mk_S (map f l) = mk_S l.
Proof. intros H. assert (G : forall x y, sgnd (f x) (f y) = sgnd x y).
  { intros x y. unfold sgnd. destruct (Qcltb_spec x y) as [L|L]. { apply H in L. destruct (Qcltb_spec (f x) (f y)); auto. contradiction. }
    destruct (Qcltb_spec y x) as [L'|L'].
    - apply H in L'. repeat qc_case; auto; try contradiction. exfalso; qclra.
    - assert (x = y) by (apply Qcle_antisym; apply Qcnot_lt_le; auto). subst.
      repeat qc_case; auto; exfalso; qclra. }
  induction l; [reflexivity|]. simpl map. rewrite !mk_S_cons, IHl, map_map. f_equal. f_equal. apply map_ext. auto. Qed.
Lemma mk_S_map_anti f l : (forall x y, (x < y)%Qc -> (f y < f x)%Qc) -> mk_S (map f l) = (- mk_S l)%Z.
Proof. intros H. rewrite <- (mk_S_map_mono (fun x => - f x)%Qc l).
  2:{ intros x y L. apply H in L. qclra. }
  assert (G : forall x y, sgnd (- f x)%Qc (- f y)%Qc = (- sgnd (f x) (f y))%Z).
  { intros x y. unfold sgnd. repeat qc_case; try lia; exfalso; qclra. }
  induction l; [reflexivity|]. simpl map. rewrite !mk_S_cons, IHl, !map_map, (map_ext _ _ (fun y => G a y)), zsum_map_opp. lia. Qed.

(** *** buffer fills *)
Lemma upd0_seam (A : Type) (p q : list A) v x : upd0 (p ++ x :: q) (length p) v = (p ++ [v]) ++ q.
Proof. rewrite upd0_app_r by lia. rewrite Nat.sub_diag. simpl. rewrite <- app_assoc. auto. Qed.
Lemma skipn_cons_ex (A : Type) (l : list A) k : k < length l -> exists x, skipn k l = x :: skipn (S k) l.
Proof. revert k; induction l; intros k H; simpl in *; [lia|]. destruct k; simpl; eauto. destruct (IHl k ltac:(lia)) as [x E]. simpl in E. eauto. Qed.
Lemma wr_append (A : Type) (p w0 : list A) v : length p < length w0 ->
  wr (p ++ skipn (length p) w0) (length p + 1) v = (p ++ [v]) ++ skipn (length p + 1) w0.
Proof. intros H. destruct (skipn_cons_ex w0 H) as [x E]. rewrite E. replace (length p + 1) with (S (length p)) by lia. cbn [wr].
  rewrite upd0_seam. auto. Qed.

Lemma fold_fill (B : Type) (w0 : list Qc) (f : B -> Qc) : forall (l : list B) p, length p + length l <= length w0 ->
  forall (pos : nat -> B -> nat), (forall k b, nth_error l k = Some b -> pos k b = length p + k + 1) ->
  fold_left (fun '(k, w) b => (S k, wr w (pos k b) (f b))) l (0, p ++ skipn (length p) w0) =
   (length l, (p ++ map f l) ++ skipn (length p + length l) w0).
Proof.
  (* generalise the counter *)
  assert (G : forall (l : list B) p k0, length p + length l <= length w0 ->
    forall (pos : nat -> B -> nat), (forall k b, nth_error l k = Some b -> pos (k0 + k) b = length p + k + 1) ->
    fold_left (fun '(k, w) b => (S k, wr w (pos k b) (f b))) l (k0, p ++ skipn (length p) w0) =
    (k0 + length l, (p ++ map f l) ++ skipn (length p + length l) w0)).
  { induction l as [|b l IH]; intros p k0 Hl pos Hpos; simpl.
    - rewrite app_nil_r, !Nat.add_0_r. auto.
    - simpl in Hl. pose proof (Hpos 0 b eq_refl) as H0. rewrite !Nat.add_0_r in H0. rewrite H0. rewrite wr_append by lia.
      replace (length p + 1) with (length (p ++ [f b])) by (rewrite app_length; auto).
      rewrite IH.
      + rewrite app_length, <- (app_assoc p). simpl. f_equal. lia. f_equal. f_equal. lia.
      + rewrite app_length. simpl. lia.
      + intros k c Hc. specialize (Hpos (S k) c Hc). rewrite app_length. cbn [length]. replace (S k0 + k) with (k0 + S k) by lia. lia. }
  intros l p Hl pos Hpos. rewrite G with (k0 := 0); auto.
Qed.

(** lag-band layout: the position computed from (lag, i) is the running count *)
Lemma band_start_count n lag : 1 <= lag <= n - 1 ->
  length (flat_map (fun lag => map (fun i => (i, i + lag)) (seq 1 (n - lag))) (seq 1 (lag - 1))) = (lag - 1) * (2 * n - lag) / 2.
Proof. intros H. pose proof (@two_len_lag_aux n (lag - 1) ltac:(lia)) as E. apply (Nat.div_unique _ 2 _ 0); [lia|].
  rewrite E. replace (2 * n - (lag - 1) - 1) with (2 * n - lag) by lia. lia. Qed.

Lemma fold_seq_fill (f : nat -> Qc) s m : forall w, s + m <= length w ->
  fold_left (fun w i => wr w (1 + s + i - 1) (f i)) (seq 1 m) w = firstn s w ++ map f (seq 1 m) ++ skipn (s + m) w.
Proof.
  induction m; intros w H.
  - simpl. rewrite Nat.add_0_r, firstn_skipn. auto.
  - rewrite seq_S, fold_left_app, IHm by lia. cbn [fold_left].
    assert (E : firstn s w ++ map f (seq 1 m) ++ skipn (s + m) w =
                (firstn s w ++ map f (seq 1 m)) ++ skipn (length (firstn s w ++ map f (seq 1 m))) w).
    { rewrite <- app_assoc. f_equal. f_equal. rewrite app_length, firstn_length, map_length, seq_length. f_equal. lia. }
    rewrite E. assert (L : length (firstn s w ++ map f (seq 1 m)) = s + m) by (rewrite app_length, firstn_length, map_length, seq_length; lia).
    replace (1 + s + (1 + m) - 1) with (length (firstn s w ++ map f (seq 1 m)) + 1) by (rewrite L; lia).
    rewrite wr_append by lia. rewrite L, map_app. simpl. rewrite <- !app_assoc. simpl. replace (s + m + 1) with (s + S m) by lia. auto.
Qed.

Definition lag_slopes (y inv_lag : list Qc) : list Qc :=
  map (fun '(i, j) => (get y j - get y i) * get inv_lag (j - i))%Qc (lag_pairs (length y)).

Lemma lag_fill (y inv_lag work0 : list Qc) : let n := length y in length (lag_pairs n) <= length work0 ->
  do_loop 1 (n - 1) (fun lag w =>
      let factor := get inv_lag lag in
      let band_start := 1 + (lag - 1) * (2 * n - lag) / 2 in
      do_loop 1 (n - lag) (fun i w =>
        wr w (band_start + i - 1) ((get y (i + lag)%nat - get y i) * factor)%Qc) w) work0
  = lag_slopes y inv_lag ++ skipn (length (lag_pairs n)) work0.
Proof.
  intros n Hlen. unfold do_loop, lag_slopes, lag_pairs. fold n. replace (n - 1 + 1 - 1) with (n - 1) by lia.
  set (band := fun lag => map (fun i => (i, i + lag)) (seq 1 (n - lag))).
  set (fs := fun '(i, j) => ((get y j - get y i) * get inv_lag (j - i))%Qc).
  assert (G : forall m, m <= n - 1 ->
    fold_left (fun w lag => fold_left (fun w i => wr w (1 + (lag - 1) * (2 * n - lag) / 2 + i - 1) ((get y (i + lag)%nat - get y i) * get inv_lag lag)%Qc)
        (seq 1 (n - lag + 1 - 1)) w) (seq 1 m) work0
    = map fs (flat_map band (seq 1 m)) ++ skipn (length (flat_map band (seq 1 m))) work0).
  { induction m; intros Hm. { simpl. auto. }
    rewrite seq_S, fold_left_app, IHm by lia. cbn [fold_left].
    replace (n - (1 + m) + 1 - 1) with (n - (1 + m)) by lia.
    assert (BS : (1 + m - 1) * (2 * n - (1 + m)) / 2 = length (flat_map band (seq 1 m))).
    { rewrite <- band_start_count by lia. replace (1 + m - 1) with m by lia. auto. }
    rewrite BS. set (P := flat_map band (seq 1 m)) in *.
    assert (LP : length P + (n - (1 + m)) <= length work0).
    { eapply Nat.le_trans; [|exact Hlen]. unfold lag_pairs. fold band.
      replace (n - 1) with (S m + (n - 1 - S m)) by lia. rewrite seq_app, flat_map_app, app_length.
      rewrite seq_S, flat_map_app, app_length. fold P. simpl. rewrite app_nil_r. unfold band at 1. rewrite map_length, seq_length. lia. }
    rewrite (@fold_seq_fill (fun i => ((get y (i + (1 + m))%nat - get y i) * get inv_lag (1 + m))%Qc) (length P) (n - (1 + m))).
    2:{ rewrite app_length, map_length, skipn_length. lia. }
    rewrite flat_map_app, map_app. fold P. simpl flat_map. rewrite app_nil_r.
    rewrite firstn_app, map_length, Nat.sub_diag, firstn_O, app_nil_r.
    rewrite firstn_all2 by (rewrite map_length; auto).
    rewrite <- app_assoc. f_equal. f_equal.
    - unfold band. rewrite map_map. apply map_ext_in. intros i Hi. apply in_seq in Hi. unfold fs.
      replace (i + S m - i) with (S m) by lia. auto.
    - rewrite skipn_app, map_length. rewrite (skipn_all2 (map fs P)) by (rewrite map_length; lia). simpl.
      rewrite skipn_skipn'. rewrite app_length. unfold band at 1. rewrite map_length, seq_length. f_equal. lia. }
  apply G. lia.
Qed.

(** slopes produced = declared slopes *)
Lemma get_inv_lag m lag : 1 <= lag <= m -> get (make_inv_lag m) lag = (1 / qz (Z.of_nat lag))%Qc.
Proof. intros H. unfold make_inv_lag. rewrite get_map_seq by auto. auto. Qed.
Lemma lag_slopes_perm y : Permutation (lag_slopes y (make_inv_lag (length y - 1))) (pair_slopes y).
Proof.
  unfold pair_slopes. rewrite (Permutation_map _ (all_pairs_lag y)), map_map. unfold lag_slopes.
  match goal with |- Permutation (map ?f _) (map ?g _) => rewrite (map_ext_in f g) end; auto.
  intros [i j] Hp. apply in_lag_pairs in Hp. unfold pair_of. rewrite get_inv_lag by lia. unfold Qcdiv. ring.
Qed.
Lemma lag_slopes_length y il : length (lag_slopes y il) = length y * (length y - 1) / 2.
Proof. unfold lag_slopes. rewrite map_length. apply len_lag. Qed.

(** *** median step *)
Lemma running_max (w : list Qc) : forall m, 1 <= m <= length w ->
  let lo := do_loop 2 m (fun i lo => if (lo <? get w i)%Qc then get w i else lo) (get w 1) in
  In lo (firstn m w) /\ (forall x, In x (firstn m w) -> (x <= lo)%Qc).
Proof.
  unfold do_loop. induction m as [|m IH]; intros H; [lia|]. destruct (Nat.eq_dec m 0).
  - subst. destruct w as [|a w]; [simpl in H; lia|]. simpl. split; auto. intros x [->|[]]. apply Qcle_refl.
  - destruct (IH ltac:(lia)) as [I M]. cbn zeta. replace (S m + 1 - 2) with (S (m + 1 - 2)) by lia.
    rewrite seq_S, fold_left_app. cbn [fold_left]. replace (2 + (m + 1 - 2)) with (S m) by lia.
    set (lo := fold_left _ _ _) in *.
    assert (E : firstn (S m) w = firstn m w ++ [get w (S m)]).
    { assert (R : rd w (S m) = Some (get w (S m))) by (apply rd_get; lia). simpl in R.
      clear -R. set (v := get w (S m)) in *. clearbody v. revert m R; induction w; intros [|m] R; simpl in *; try discriminate.
      - congruence. - f_equal. auto. }
    rewrite E. destruct (Qcltb_spec lo (get w (S m))) as [L|L].
    + split. apply in_or_app; simpl; auto. intros x Hx. apply in_app_or in Hx. destruct Hx as [Hx|[<-|[]]]; [|apply Qcle_refl].
      apply Qcle_trans with lo; auto. apply Qclt_le_weak; auto.
    + split. apply in_or_app; auto. intros x Hx. apply in_app_or in Hx. destruct Hx as [Hx|[<-|[]]]; auto. apply Qcnot_lt_le; auto.
Qed.
Lemma maxval_spec l : l <> [] -> In (maxval l) l /\ (forall x, In x l -> (x <= maxval l)%Qc).
Proof.
  destruct l as [|a t]; [congruence|]. intros _. unfold maxval.
  assert (G : forall t m, let r := fold_left (fun m v => if (m <? v)%Qc then v else m) t m in
     (r = m \/ In r t) /\ (m <= r)%Qc /\ (forall x, In x t -> (x <= r)%Qc)).
  { clear. induction t as [|v t IH]; intros m; simpl. { split; auto. split. apply Qcle_refl. tauto. }
    destruct (Qcltb_spec m v) as [L|L].
    - destruct (IH v) as (A & B & C). split; [destruct A; auto|]. split. apply Qcle_trans with v; auto. apply Qclt_le_weak; auto.
      intros x [<-|H]; auto.
    - destruct (IH m) as (A & B & C). split; [destruct A; auto|]. split; auto. apply Qcnot_lt_le in L.
      intros x [<-|H]; auto. apply Qcle_trans with m; auto. }
  destruct (G t a) as (A & B & C). split. { destruct A as [->|A]; simpl; auto. } intros x [<-|H]; auto.
Qed.

Lemma even_mod n : (n mod 2 =? 0) = Nat.even n.
Proof. pose proof (Nat.div_mod_eq n 2) as D. destruct (Nat.even n) eqn:E.
  - apply Nat.even_spec in E. destruct E as [k E]. apply Nat.eqb_eq. pose proof (Nat.mod_upper_bound n 2 ltac:(lia)). lia.
  - apply Nat.eqb_neq. intros H. assert (Nat.even n = true). { apply Nat.even_spec. exists (n / 2). lia. } congruence. Qed.

Lemma median_of_work_ok work : work <> [] -> median_of_work work (length work) = Some (Some (median work)).
Proof.
  intros HN. unfold median_of_work, median. set (n := length work). set (mid := n / 2).
  assert (Hn : 1 <= n) by (destruct work; [congruence|unfold n; simpl; lia]).
  assert (Hm : mid < n) by (apply Nat.div_lt; lia).
  destruct (@select_ok work (mid + 1)) as (w & v & E & P & R & _ & K1 & K2 & NV). { fold n; lia. }
  rewrite E, even_mod. rewrite (get_rd _ _ R). replace (mid + 1 - 1) with mid in NV by lia.
  destruct (Nat.even n) eqn:EV.
  - assert (1 <= mid). { apply Nat.even_spec in EV. destruct EV as [k EV]. unfold mid. rewrite EV. replace (2 * k) with (k * 2) by lia. rewrite Nat.div_mul; lia. }
    destruct (@running_max w mid) as [I M]. { rewrite (Permutation_length P). fold n. lia. }
    set (lo := do_loop 2 mid _ _) in *. cbn zeta in I, M.
    assert (NL : nth (mid - 1) (sorted_copy work) 0%Qc = lo).
    { rewrite <- (sorted_copy_perm_eq P). replace (mid - 1) with (mid + 1 - 2) by lia.
      apply (@partitioned_prev_max w (mid + 1) v); auto; try lia; replace (mid + 1 - 1) with mid by lia; auto. }
    rewrite NV, NL. auto.
  - rewrite NV. auto.
Qed.
Lemma median_of_work_maxval_ok work : work <> [] -> median_of_work_maxval work (length work) = Some (Some (median work)).
Proof.
  intros HN. unfold median_of_work_maxval, median. set (n := length work). set (mid := n / 2).
  assert (Hn : 1 <= n) by (destruct work; [congruence|unfold n; simpl; lia]).
  assert (Hm : mid < n) by (apply Nat.div_lt; lia).
  destruct (@select_ok work (mid + 1)) as (w & v & E & P & R & _ & K1 & K2 & NV). { fold n; lia. }
  rewrite E, even_mod. rewrite (get_rd _ _ R). replace (mid + 1 - 1) with mid in NV by lia.
  destruct (Nat.even n) eqn:EV.
  - assert (1 <= mid). { apply Nat.even_spec in EV. destruct EV as [k EV]. unfold mid. rewrite EV. replace (2 * k) with (k * 2) by lia. rewrite Nat.div_mul; lia. }
    destruct (@maxval_spec (firstn mid w)) as [I M]. { intros X. apply (f_equal (@length Qc)) in X. rewrite firstn_length, (Permutation_length P) in X. fold n in X. simpl in X. lia. }
    assert (NL : nth (mid - 1) (sorted_copy work) 0%Qc = maxval (firstn mid w)).
    { rewrite <- (sorted_copy_perm_eq P). replace (mid - 1) with (mid + 1 - 2) by lia.
      apply (@partitioned_prev_max w (mid + 1) v); auto; try lia; replace (mid + 1 - 1) with mid by lia; auto. }
    rewrite NV, NL. auto.
  - rewrite NV. auto.
Qed.

Lemma half_pos n : 2 <= n -> 1 <= n * (n - 1) / 2.
Proof. intros H. apply Nat.div_le_lower_bound; nia. Qed.
Lemma firstn_app_exact (A : Type) (p q : list A) n : length p = n -> firstn n (p ++ q) = p.
Proof. intros <-. rewrite firstn_app, Nat.sub_diag, firstn_O, app_nil_r. apply firstn_all. Qed.

Lemma sen_slope_with_inv_lag_ok y work0 : length y * (length y - 1) / 2 <= length work0 ->
  sen_slope_with_inv_lag y (make_inv_lag (length y - 1)) work0 = Some (if length y <? 2 then None else Some (sen y)).
Proof.
  intros HW. unfold sen_slope_with_inv_lag. destruct (Nat.ltb_spec (length y) 2) as [L|L]; auto.
  cbn zeta. pose proof (@lag_fill y (make_inv_lag (length y - 1)) work0) as LF. cbn zeta in LF.
  rewrite LF by (rewrite len_lag; auto). clear LF.
  rewrite firstn_app_exact by apply lag_slopes_length.
  pose proof (half_pos L). pose proof (lag_slopes_length y (make_inv_lag (length y - 1))).
  rewrite <- (lag_slopes_length y (make_inv_lag (length y - 1))).
  rewrite median_of_work_ok. { unfold sen. do 2 f_equal. apply median_perm, lag_slopes_perm. }
  intros X. rewrite X in *. simpl in *. lia.
Qed.
Lemma compute_sen_slope_ok y work0 : length y * (length y - 1) / 2 <= length work0 ->
  compute_sen_slope y work0 = Some (if length y <? 2 then None else Some (sen y)).
Proof. intros H. unfold compute_sen_slope. rewrite sen_slope_with_inv_lag_ok by auto. destruct (length y <? 2); auto. Qed.

(** fused kernel *)
Lemma fold_pair_split (A S T : Type) (f : S -> A -> S) (g : T -> A -> T) l s t :
  fold_left (fun '(s, t) x => (f s x, g t x)) l (s, t) = (fold_left f l s, fold_left g l t).
Proof. revert s t; induction l; simpl; auto. Qed.

Lemma s_value_and_sen_ok y work0 : length y * (length y - 1) / 2 <= length work0 ->
  s_value_and_sen_slope_with_inv_lag y (make_inv_lag (length y - 1)) work0 =
  Some (mk_S y, if length y <? 2 then None else Some (sen y)).
Proof.
  intros HW. pose proof (@sen_slope_with_inv_lag_ok y work0 HW) as HS.
  unfold s_value_and_sen_slope_with_inv_lag, sen_slope_with_inv_lag in *.
  destruct (Nat.ltb_spec (length y) 2) as [L|L].
  { destruct y as [|a [|b t]]; simpl in *; auto; lia. }
  cbn zeta in *. set (n := length y) in *. set (il := make_inv_lag (n - 1)) in *.
  match goal with |- context [do_loop 1 (n - 1) ?F (0%Z, work0)] =>
    assert (E : do_loop 1 (n - 1) F (0%Z, work0) =
      (do_loop 1 (n - 1) (fun lag s => do_loop 1 (n - lag) (fun i s =>
          (fun i j s => (s + psign (pair_of y (i, j)))%Z) i (i + lag) s) s) 0%Z,
       do_loop 1 (n - 1) (fun lag w => do_loop 1 (n - lag) (fun i w =>
          wr w (1 + (lag - 1) * (2 * n - lag) / 2 + i - 1) ((get y (i + lag) - get y i) * get il lag)%Qc) w) work0)) end.
  { unfold do_loop. rewrite <- fold_pair_split. apply fold_left_ext_in. intros [s w] lag _.
    rewrite <- fold_pair_split. apply fold_left_ext_in. intros [s' w'] i _. f_equal.
    unfold psign, pair_of, increasing, decreasing. repeat qc_case; try lia; exfalso; qclra. }
  rewrite E, HS. f_equal. f_equal. rewrite (do_loop_lag n (fun i j s => (s + psign (pair_of y (i, j)))%Z)).
  rewrite (@fold_left_ext_in _ _ _ (fun s p => (s + psign (pair_of y p))%Z)). 2:{ intros s [i j] _; auto. }
  rewrite fold_left_zsum, <- (map_map (pair_of y) psign). rewrite mk_S_zsum.
  rewrite (zsum_perm (Permutation_map psign (all_pairs_lag y))). reflexivity.
Qed.
Lemma compute_s_value_and_sen_ok y work0 : length y * (length y - 1) / 2 <= length work0 ->
  compute_s_value_and_sen_slope y work0 = Some (mk_S y, if length y <? 2 then None else Some (sen y)).
Proof. intros H. unfold compute_s_value_and_sen_slope. rewrite s_value_and_sen_ok by auto.
  destruct (Nat.ltb_spec (length y) 2); auto. destruct y as [|a [|b t]]; simpl in *; auto; lia. Qed.
