(** Proofs about the grouped Sen slope kernel. *)
From Verif Require Import Base Buffer Loops OrderSpec OrderProofs MKSort_Model MKSort_Proofs MKSort_Props
  MKStat_Model MKStat_Spec MKStat_Proofs1 MKStat_Proofs2.
Set Implicit Arguments.
Local Open Scope nat_scope.

(** Index pairs visited by the grouped kernel, in visiting order. *)
Definition gpair (period g : nat) (p : nat * nat) : nat * nat :=
  let '(i, j) := p in (g + (i - 1) * period, g + (j - 1) * period).
Definition group_pairs (n period : nat) : list (nat * nat) :=
  flat_map (fun g => map (gpair period g) (lag_pairs (1 + (n - g) / period))) (seq 1 (Nat.min period n)).

Lemma in_group_pairs n P a b : 1 <= P ->
  In (a, b) (group_pairs n P) <-> (1 <= a < b /\ b <= n) /\ (b - a) mod P = 0.
Proof.
  intros HP. unfold group_pairs. rewrite in_flat_map. split.
  - intros (g & Hg & H). apply in_seq in Hg. assert (Hg0 : g <= n) by lia. apply in_map_iff in H. destruct H as ((i, j) & E & H).
    apply in_lag_pairs in H. unfold gpair in E. injection E as <- <-.
    assert (D : (n - g) / P * P <= n - g). { rewrite Nat.mul_comm. apply Nat.mul_div_le. lia. }
    assert (J : (j - 1) * P <= (n - g) / P * P) by (apply Nat.mul_le_mono_r; lia).
    assert (K : (i - 1) * P + (j - i) * P = (j - 1) * P). { rewrite <- Nat.mul_add_distr_r. f_equal. lia. }
    assert (1 * P <= (j - i) * P) by (apply Nat.mul_le_mono_r; lia).
    set (dd := (j - i) * P) in *. set (ii := (i - 1) * P) in *. set (jj := (j - 1) * P) in *.
    set (nn := (n - g) / P * P) in *.
    split; [lia|]. replace (g + jj - (g + ii)) with dd by lia.
    apply Nat.mod_mul. lia.
  - intros ((H1 & H2) & M).
    assert (Q : b - a = (b - a) / P * P). { pose proof (Nat.div_mod (b - a) P ltac:(lia)). lia. }
    assert (A : a - 1 = (a - 1) / P * P + (a - 1) mod P). { pose proof (Nat.div_mod (a - 1) P ltac:(lia)). lia. }
    pose proof (Nat.mod_upper_bound (a - 1) P ltac:(lia)).
    set (q := (a - 1) / P) in *. set (r := (a - 1) mod P) in *. set (l := (b - a) / P) in *.
    exists (r + 1). split. { apply in_seq. assert (r <= a - 1) by lia. lia. }
    apply in_map_iff. exists (q + 1, q + 1 + l). split.
    + unfold gpair. f_equal; try lia. replace (q + 1 + l - 1) with (q + l) by lia. rewrite Nat.mul_add_distr_r. lia.
    + apply in_lag_pairs. assert (1 <= l) by (destruct l; lia). split; [lia|].
      assert (q + l <= (n - (r + 1)) / P). { apply Nat.div_le_lower_bound; [lia|]. rewrite (Nat.mul_comm P), Nat.mul_add_distr_r. lia. }
      lia.
Qed.

Lemma NoDup_group_pairs n P : 1 <= P -> NoDup (group_pairs n P).
Proof.
  intros HP. unfold group_pairs. apply NoDup_flat_map.
  - apply seq_NoDup.
  - intros g Hg. apply NoDup_map_inj; [|apply NoDup_lag_pairs].
    intros (i, j) (i', j') H H' E. apply in_lag_pairs in H. apply in_lag_pairs in H'. unfold gpair in E.
    injection E as E1 E2. assert (i - 1 = i' - 1) by nia. assert (j - 1 = j' - 1) by nia. f_equal; lia.
  - intros g g' (a, b) Hg Hg' H H'. apply in_seq in Hg. apply in_seq in Hg'.
    apply in_map_iff in H. destruct H as ((i, j) & E & H). apply in_map_iff in H'. destruct H' as ((i', j') & E' & H').
    unfold gpair in E, E'. injection E as E1 E2. injection E' as E1' E2'.
    assert (X : g + (i - 1) * P = g' + (i' - 1) * P) by lia.
    assert (Y : (g - 1 + (i - 1) * P) mod P = (g' - 1 + (i' - 1) * P) mod P) by (f_equal; lia).
    rewrite !Nat.mod_add in Y by lia. rewrite !Nat.mod_small in Y by lia. lia.
Qed.

Lemma group_pairs_perm n P : 1 <= P ->
  Permutation (group_pairs n P) (filter (fun '(i, j) => (j - i) mod P =? 0) (row_pairs n)).
Proof.
  intros HP. apply NoDup_Permutation.
  - apply NoDup_group_pairs; auto.
  - apply NoDup_filter. apply NoDup_row_pairs.
  - intros (a, b). rewrite in_group_pairs by auto. rewrite filter_In, in_row_pairs, Nat.eqb_eq. tauto.
Qed.

Lemma grouped_slope_count_len n P : 1 <= P -> grouped_slope_count n P = length (group_pairs n P).
Proof.
  intros HP. unfold grouped_slope_count. destruct (n <? 2) eqn:N; simpl.
  - apply Nat.ltb_lt in N. destruct (group_pairs n P) as [|(a, b) t] eqn:E; auto.
    assert (I : In (a, b) (group_pairs n P)) by (rewrite E; left; auto). apply in_group_pairs in I; auto. lia.
  - replace (P =? 0) with false by (symmetry; apply Nat.eqb_neq; lia).
    unfold do_loop, group_pairs. rewrite Nat.add_sub.
    enough (H : forall l acc, fold_left (fun s g => if 1 <? 1 + (n - g) / P then s + (1 + (n - g) / P) * (1 + (n - g) / P - 1) / 2 else s) l acc
      = acc + length (flat_map (fun g => map (gpair P g) (lag_pairs (1 + (n - g) / P))) l)).
    { specialize (H (seq 1 (Nat.min P n)) 0). exact H. }
    induction l as [|g l IH]; intros acc; [cbn; lia|]. cbn [fold_left flat_map]. rewrite IH, app_length, map_length, len_lag.
    destruct (1 <? 1 + (n - g) / P) eqn:L; [lia|]. apply Nat.ltb_ge in L.
    replace ((n - g) / P) with 0 by lia. cbn. lia.
Qed.

Definition group_slope_list (y inv_lag : list Qc) (P : nat) : list Qc :=
  map (fun '(a, b) => (get y b - get y a) * get inv_lag ((b - a) / P))%Qc (group_pairs (length y) P).

Lemma group_fill (y inv_lag work0 : list Qc) P : 1 <= P -> let n := length y in length (group_pairs n P) <= length work0 ->
    do_loop 1 (Nat.min P n) (fun g st =>
      let gc := 1 + (n - g) / P in
      do_loop 1 (gc - 1) (fun lag st =>
        let factor := get inv_lag lag in
        do_loop 1 (gc - lag) (fun i '(k, w) =>
          let k := k + 1 in
          (k, wr w k ((get y (g + (i - 1 + lag) * P)%nat - get y (g + (i - 1) * P)%nat) * factor)%Qc)) st) st)
      (0, work0)
  = (length (group_pairs n P), group_slope_list y inv_lag P ++ skipn (length (group_pairs n P)) work0).
Proof.
  intros HP n L. unfold group_slope_list. fold n.
  pose proof (@fold_fill (nat * nat) work0 (fun '(a, b) => (get y b - get y a) * get inv_lag ((b - a) / P))%Qc (group_pairs n P) [] L (fun k _ => k + 1)) as F.
  cbn [length app plus] in F. rewrite <- F by (intros; lia). clear F. simpl skipn.
  unfold group_pairs. rewrite fold_left_flat_map. unfold do_loop at 1. rewrite Nat.add_sub.
  apply fold_left_ext_in. intros st g Hg. rewrite fold_left_map.
  set (gc := 1 + (n - g) / P). cbv zeta.
  transitivity (fold_left (fun (st : nat * list Qc) '(i, j) => let '(k, w) := st in (k + 1, wr w (k + 1) ((get y (g + (j - 1) * P) - get y (g + (i - 1) * P)) * get inv_lag (j - i))%Qc)) (lag_pairs gc) st).
  - rewrite <- (do_loop_lag gc (fun i j (st : nat * list Qc) => let '(k, w) := st in (k + 1, wr w (k + 1) ((get y (g + (j - 1) * P)%nat - get y (g + (i - 1) * P)%nat) * get inv_lag (j - i))%Qc)) st).
    unfold do_loop. apply fold_left_ext_in. intros s lag Hl. apply fold_left_ext_in. intros (k, w) i Hi.
    apply in_seq in Hi. replace (i + lag - 1) with (i - 1 + lag) by lia. replace (i + lag - i) with lag by lia. reflexivity.
  - apply fold_left_ext_in. intros (k, w) (i, j) H. apply in_lag_pairs in H. unfold gpair.
    rewrite Nat.add_1_r. enough (X : (g + (j - 1) * P - (g + (i - 1) * P)) / P = j - i) by (rewrite X; reflexivity).
    assert (K : (i - 1) * P + (j - i) * P = (j - 1) * P). { rewrite <- Nat.mul_add_distr_r. f_equal. lia. }
    assert (Y : g + (j - 1) * P - (g + (i - 1) * P) = (j - i) * P) by (rewrite <- K; generalize ((i - 1) * P) ((j - i) * P); clear; intros; lia).
    rewrite Y. apply Nat.div_mul. lia.
Qed.

Lemma filter_map_comm (A B : Type) (f : A -> B) (p : B -> bool) l :
  filter p (map f l) = map f (filter (fun x => p (f x)) l).
Proof. induction l as [|x l IH]; simpl; auto. destruct (p (f x)); simpl; rewrite IH; auto. Qed.
Lemma Permutation_filter (A : Type) (p : A -> bool) l l' : Permutation l l' -> Permutation (filter p l) (filter p l').
Proof.
  induction 1; simpl; auto.
  - destruct (p x); auto.
  - destruct (p x), (p y); auto. apply perm_swap.
  - eapply perm_trans; eauto.
Qed.

Lemma group_slope_list_perm y P inv_lag : 1 <= P ->
  (forall lag, 1 <= lag <= (length y - 1) / P -> get inv_lag lag = (1 / qz (Z.of_nat lag))%Qc) ->
  Permutation (group_slope_list y inv_lag P) (group_slopes y P).
Proof.
  intros HP HI. unfold group_slope_list, group_slopes. rewrite all_pairs_index, filter_map_comm, map_map.
  rewrite (Permutation_map _ (group_pairs_perm (length y) HP)).
  rewrite (filter_ext (fun x => let '(d, _, _) := pair_of y x in d mod P =? 0) (fun '(i, j) => (j - i) mod P =? 0)) by (intros (i, j); auto).
  apply Permutation_refl'. apply map_ext_in. intros (i, j) H. apply filter_In in H. destruct H as [H M].
  apply in_row_pairs in H. apply Nat.eqb_eq in M. unfold pair_of.
  assert (Q : j - i = (j - i) / P * P). { pose proof (Nat.div_mod (j - i) P ltac:(lia)). lia. }
  rewrite HI.
  - unfold Qcdiv. ring.
  - split. { destruct ((j - i) / P); lia. } apply Nat.div_le_mono; lia.
Qed.

Lemma group_slopes_length y P : 1 <= P -> length (group_slopes y P) = grouped_slope_count (length y) P.
Proof.
  intros HP. rewrite grouped_slope_count_len by auto. unfold group_slopes. rewrite all_pairs_index, filter_map_comm, !map_length.
  rewrite (Permutation_length (group_pairs_perm (length y) HP)). f_equal. apply filter_ext. intros (i, j). auto.
Qed.

Lemma grouped_sen_ok y P inv_lag work0 : 1 <= P ->
  (forall lag, 1 <= lag <= (length y - 1) / P -> get inv_lag lag = (1 / qz (Z.of_nat lag))%Qc) ->
  grouped_slope_count (length y) P <= length work0 ->
  grouped_sen_slope_with_inv_lag y P inv_lag work0 =
    Some (match group_slopes y P with [] => None | l => Some (median l) end).
Proof.
  intros HP HI HW. unfold grouped_sen_slope_with_inv_lag.
  pose proof (group_slopes_length y HP) as GL. set (cnt := grouped_slope_count (length y) P) in *.
  assert (Z0 : cnt = 0 -> Some (match group_slopes y P with [] => None | l => Some (median l) end) = Some None).
  { intros E. destruct (group_slopes y P); simpl in GL; auto; lia. }
  destruct (length y <? 2) eqn:N.
  { simpl. rewrite Z0; auto. unfold cnt, grouped_slope_count. rewrite N. auto. }
  replace (P =? 0) with false by (symmetry; apply Nat.eqb_neq; lia). cbn [orb].
  destruct (cnt <=? 0) eqn:C. { apply Nat.leb_le in C. rewrite Z0; auto. lia. }
  apply Nat.leb_gt in C.
  unfold cnt in HW. rewrite grouped_slope_count_len in HW by auto.
  pose proof (@group_fill y inv_lag work0 P HP HW) as GF. cbv zeta in GF |- *. rewrite GF. clear GF.
  pose proof (@group_slope_list_perm y P inv_lag HP HI) as GP.
  assert (LL : length (group_slope_list y inv_lag P) = cnt). { rewrite (Permutation_length GP). auto. }
  rewrite firstn_app_exact by auto. rewrite <- LL. rewrite median_of_work_maxval_ok.
  - rewrite (median_perm GP). destruct (group_slopes y P); auto. simpl in GL. lia.
  - intros E. rewrite E in LL. simpl in LL. lia.
Qed.
