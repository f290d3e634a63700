(** Median equivariance, tie-corrected variance, ranks. *)
From Verif Require Import Base Buffer Loops OrderSpec OrderProofs MKSort_Model MKSort_Proofs MKSort_Props MKStat_Model MKStat_Spec MKStat_Proofs1.
Set Implicit Arguments.
Local Open Scope nat_scope.

(** *** medians of transformed lists *)
Lemma ascending_map f l : (forall x y, (x <= y)%Qc -> (f x <= f y)%Qc) -> ascending l -> ascending (map f l).
Proof. unfold ascending. intros H. induction 1; simpl; constructor; auto. apply Forall_map. eapply Forall_impl; eauto. Qed.
Lemma ascending_rev_map f l : (forall x y, (x <= y)%Qc -> (f y <= f x)%Qc) -> ascending l -> ascending (rev (map f l)).
Proof. unfold ascending. intros H. induction 1; simpl. constructor. apply ascending_app; auto. constructor; constructor.
  intros x y Hx [<-|[]]. apply in_rev, in_map_iff in Hx. destruct Hx as (z & <- & Hz). apply H. eapply Forall_forall in H1; eauto. Qed.
Lemma sorted_copy_map_mono f l : (forall x y, (x <= y)%Qc -> (f x <= f y)%Qc) -> sorted_copy (map f l) = map f (sorted_copy l).
Proof. intros H. symmetry. apply sorted_copy_unique. apply ascending_map; auto using sorted_copy_ascending. apply Permutation_map, sorted_copy_perm. Qed.
Lemma sorted_copy_map_anti f l : (forall x y, (x <= y)%Qc -> (f y <= f x)%Qc) -> sorted_copy (map f l) = rev (map f (sorted_copy l)).
Proof. intros H. symmetry. apply sorted_copy_unique. apply ascending_rev_map; auto using sorted_copy_ascending.
  eapply perm_trans; [symmetry; apply Permutation_rev|]. apply Permutation_map, sorted_copy_perm. Qed.
Lemma nth_map_Qc f l k : k < length l -> nth k (map f l) 0%Qc = f (nth k l 0%Qc).
Proof. intros H. rewrite (nth_indep _ 0%Qc (f 0%Qc)) by (rewrite map_length; auto). apply map_nth. Qed.

Lemma median_affine a c l : l <> [] -> median (map (fun s => a * s + c)%Qc l) = (a * median l + c)%Qc.
Proof.
  intros HN. unfold median. rewrite map_length. set (n := length l).
  assert (Hn : 1 <= n) by (destruct l; [congruence|unfold n; simpl; lia]).
  assert (Hm : n / 2 < n) by (apply Nat.div_lt; lia).
  assert (LS : length (sorted_copy l) = n) by apply sorted_copy_length.
  pose proof (Nat.div_mod_eq n 2) as D.
  destruct (Qclt_le_dec a 0) as [A|A].
  - rewrite sorted_copy_map_anti. 2:{ intros x y H. qcnra. }
    destruct (Nat.even n) eqn:EV.
    + apply Nat.even_spec in EV. destruct EV as [k EV].
      assert (n / 2 = k). { rewrite EV. rewrite Nat.mul_comm. apply Nat.div_mul; lia. }
      rewrite !rev_nth by (rewrite map_length; lia). rewrite !map_length, !LS.
      rewrite !nth_map_Qc by lia. replace (n - S (n / 2 - 1)) with (n / 2) by lia. replace (n - S (n / 2)) with (n / 2 - 1) by lia.
      qclra.
    + assert (Nat.odd n = true) by (unfold Nat.odd; rewrite EV; auto). apply Nat.odd_spec in H. destruct H as [k H].
      assert (n / 2 = k). { symmetry. apply (Nat.div_unique _ 2 _ 1); lia. }
      rewrite rev_nth by (rewrite map_length; lia). rewrite map_length, LS, nth_map_Qc by lia.
      replace (n - S (n / 2)) with (n / 2) by lia. auto.
  - rewrite sorted_copy_map_mono. 2:{ intros x y H. qcnra. }
    destruct (Nat.even n) eqn:EV; rewrite !nth_map_Qc by lia; auto. qclra.
Qed.

Lemma ascending_nth_le l : ascending l -> forall i k, i <= k -> k < length l -> (nth i l 0 <= nth k l 0)%Qc.
Proof. intros HS i k Hik Hk. destruct (Nat.eq_dec i k). { subst. apply Qcle_refl. }
  apply (proj2 (ascending_rd l)) with (i := S i) (k := S k); auto; try lia; simpl; apply nth_error_nth'; lia. Qed.
Lemma median_bounds l lo hi : l <> [] -> (forall x, In x l -> (lo <= x <= hi)%Qc) -> (lo <= median l <= hi)%Qc.
Proof.
  intros HN HB. unfold median. set (n := length l).
  assert (Hn : 1 <= n) by (destruct l; [congruence|unfold n; simpl; lia]).
  assert (Hm : n / 2 < n) by (apply Nat.div_lt; lia).
  assert (G : forall k, k < n -> (lo <= nth k (sorted_copy l) 0 <= hi)%Qc).
  { intros k Hk. apply HB. apply (Permutation_in _ (sorted_copy_perm l)). apply nth_In. rewrite sorted_copy_length. auto. }
  destruct (Nat.even n).
  - destruct (G (n / 2 - 1) ltac:(lia)), (G (n / 2) ltac:(lia)). split; qclra.
  - apply G; auto.
Qed.

(** series transformations for the Sen slope *)
Definition affine_series (a b c : Qc) (y : list Qc) : list Qc :=
  map (fun i => a * get y i + b + c * qz (Z.of_nat i))%Qc (seq 1 (length y)).
Lemma affine_series_length a b c y : length (affine_series a b c y) = length y.
Proof. unfold affine_series. rewrite map_length, seq_length. auto. Qed.
Lemma qz_nonzero z : z <> 0%Z -> qz z <> 0%Qc.
Proof. intros H E. rewrite <- qz_0 in E. apply qz_inj in E. auto. Qed.
Lemma pair_slopes_affine a b c y : pair_slopes (affine_series a b c y) = map (fun s => a * s + c)%Qc (pair_slopes y).
Proof.
  unfold pair_slopes. rewrite !all_pairs_index, !map_map, affine_series_length. apply map_ext_in.
  intros [i j] Hp. apply in_row_pairs in Hp. unfold pair_of, affine_series. rewrite !get_map_seq by lia.
  replace (Z.of_nat j) with (Z.of_nat (j - i) + Z.of_nat i)%Z by lia. rewrite qz_add.
  assert (qz (Z.of_nat (j - i)) <> 0%Qc) by (apply qz_nonzero; lia). field. auto.
Qed.
Lemma pair_slopes_length y : 2 * length (pair_slopes y) = length y * (length y - 1).
Proof. unfold pair_slopes. rewrite map_length. apply all_pairs_length. Qed.
Lemma pair_slopes_nonempty y : 2 <= length y -> pair_slopes y <> [].
Proof. intros H E. pose proof (pair_slopes_length y). rewrite E in H0. simpl in H0. nia. Qed.
Lemma sen_affine a b c y : 2 <= length y -> sen (affine_series a b c y) = (a * sen y + c)%Qc.
Proof. intros H. unfold sen. rewrite pair_slopes_affine. apply median_affine. apply pair_slopes_nonempty; auto. Qed.

Lemma row_pairs_reflect n : Permutation (map (fun '(i, j) => (n + 1 - j, n + 1 - i)) (row_pairs n)) (row_pairs n).
Proof. apply NoDup_Permutation.
  - apply NoDup_map_inj. 2:apply NoDup_row_pairs. intros [i j] [k m] H1 H2 E. apply in_row_pairs in H1, H2. injection E as E1 E2. f_equal; lia.
  - apply NoDup_row_pairs.
  - intros [i j]. rewrite in_map_iff, in_row_pairs. split.
    + intros ([k m] & E & H). apply in_row_pairs in H. injection E as <- <-. lia.
    + intros H. exists (n + 1 - j, n + 1 - i). rewrite in_row_pairs. split; [f_equal; lia|lia]. Qed.
Lemma get_rev l i : 1 <= i <= length l -> get (rev l) i = get l (length l + 1 - i).
Proof. intros H. unfold get. rewrite rev_nth by lia. f_equal. lia. Qed.
Lemma pair_slopes_rev y : Permutation (pair_slopes (rev y)) (map (fun s => (-(1)) * s + 0)%Qc (pair_slopes y)).
Proof.
  unfold pair_slopes. rewrite !all_pairs_index, !map_map, rev_length.
  rewrite <- (Permutation_map _ (row_pairs_reflect (length y))), map_map.
  match goal with |- Permutation (map ?f _) (map ?g _) => rewrite (map_ext_in f g) end; auto.
  intros [i j] Hp. apply in_row_pairs in Hp. unfold pair_of. rewrite !get_rev by lia.
  replace (length y + 1 - (length y + 1 - j)) with j by lia. replace (length y + 1 - (length y + 1 - i)) with i by lia.
  replace (length y + 1 - i - (length y + 1 - j)) with (j - i) by lia.
  assert (qz (Z.of_nat (j - i)) <> 0%Qc) by (apply qz_nonzero; lia). field. auto.
Qed.
Lemma sen_rev y : 2 <= length y -> sen (rev y) = (- sen y)%Qc.
Proof. intros H. unfold sen. rewrite (median_perm (pair_slopes_rev y)), median_affine. ring. apply pair_slopes_nonempty; auto. Qed.

(** *** ties *)
Lemma mult_perm v l l' : Permutation l l' -> mult v l = mult v l'.
Proof. intros P. unfold mult. rewrite (count_perm _ P). auto. Qed.
Lemma tie_correction_perm l l' : Permutation l l' -> tie_correction l = tie_correction l'.
Proof.
  intros P. unfold tie_correction. change (fold_right Z.add 0%Z) with zsum.
  assert (PN : Permutation (nodup Qc_eq_dec l) (nodup Qc_eq_dec l')).
  { apply NoDup_Permutation; try apply NoDup_nodup. intros x. rewrite !nodup_In. split; apply Permutation_in; auto. symmetry; auto. }
  rewrite (zsum_perm (Permutation_map _ PN)). f_equal. apply map_ext. intros v. rewrite (mult_perm v P). auto.
Qed.
Lemma mult_repeat_same v r : mult v (repeat v r) = Z.of_nat r.
Proof. unfold mult. rewrite count_all, repeat_length; auto. intros x Hx. apply repeat_spec in Hx. subst. destruct (Qceqb_spec v v); auto. Qed.
Lemma mult_app v l l' : mult v (l ++ l') = (mult v l + mult v l')%Z.
Proof. unfold mult. rewrite count_app. lia. Qed.
Lemma mult_notin v l : ~ In v l -> mult v l = 0%Z.
Proof. intros H. unfold mult. rewrite count_none; auto. intros x Hx. destruct (Qceqb_spec x v); auto. subst; contradiction. Qed.
Lemma tie_correction_group v r l : 1 <= r -> ~ In v l ->
  tie_correction (repeat v r ++ l) = (tie_poly (Z.of_nat r) + tie_correction l)%Z.
Proof.
  intros Hr HN. unfold tie_correction. change (fold_right Z.add 0%Z) with zsum.
  assert (PN : Permutation (nodup Qc_eq_dec (repeat v r ++ l)) (v :: nodup Qc_eq_dec l)).
  { apply NoDup_Permutation. apply NoDup_nodup. constructor. rewrite nodup_In; auto. apply NoDup_nodup.
    intros x. rewrite nodup_In, in_app_iff. simpl. rewrite nodup_In. split.
    - intros [H|H]; auto. apply repeat_spec in H. auto.
    - intros [<-|H]; auto. left. destruct r; [lia|]. simpl; auto. }
  rewrite (zsum_perm (Permutation_map _ PN)). cbn [map zsum fold_right]. f_equal.
  - rewrite mult_app, mult_repeat_same, mult_notin by auto. unfold tie_poly. cbn zeta. rewrite Z.add_0_r. auto.
  - unfold zsum. f_equal. apply map_ext_in. intros x Hx. apply nodup_In in Hx. rewrite mult_app.
    rewrite (@mult_notin x (repeat v r)). 2:{ intros H. apply repeat_spec in H. subst. auto. } reflexivity.
Qed.

(** the run scan of the sorted copy *)
Fixpoint run_scan (prev : Qc) (t : list Qc) (run tie : Z) : Z * Z :=
  match t with
  | [] => (run, tie)
  | z :: t' => if (z =? prev)%Qc then run_scan z t' (run + 1) tie
               else run_scan z t' 1 (if (1 <? run)%Z then (tie + tie_poly run)%Z else tie)
  end.
Lemma get_mid pre (x : Qc) t : get (pre ++ x :: t) (length pre + 1) = x.
Proof. unfold get. rewrite app_nth2 by lia. replace (length pre + 1 - 1 - length pre) with 0 by lia. auto. Qed.
Lemma run_scan_loop t : forall pre prev run tie,
  fold_left (fun '(run, tie) i => if (get (pre ++ prev :: t) i =? get (pre ++ prev :: t) (i - 1)%nat)%Qc then ((run + 1)%Z, tie)
      else (1%Z, if (1 <? run)%Z then (tie + tie_poly run)%Z else tie)) (seq (length pre + 2) (length t)) (run, tie) = run_scan prev t run tie.
Proof.
  induction t as [|z t IH]; intros pre prev run tie; auto. cbn [length seq fold_left].
  replace (length pre + 2 - 1) with (length pre + 1) by lia. rewrite get_mid.
  replace (pre ++ prev :: z :: t) with ((pre ++ [prev]) ++ z :: t) by (rewrite <- app_assoc; auto).
  replace (length pre + 2) with (length (pre ++ [prev]) + 1) by (rewrite app_length; simpl; lia). rewrite get_mid.
  replace (S (length (pre ++ [prev]) + 1)) with (length (pre ++ [prev]) + 2) by lia.
  cbn [run_scan]. destruct (z =? prev)%Qc; apply IH.
Qed.
Lemma run_scan_tie t : forall prev run tie, ascending (prev :: t) -> (1 <= run)%Z ->
  let '(r, ti) := run_scan prev t run tie in
  (1 <= r)%Z /\ (ti + tie_poly r = tie + tie_correction (repeat prev (Z.to_nat run) ++ t))%Z.
Proof.
  induction t as [|z t IH]; intros prev run tie HS Hr; cbn [run_scan].
  - split; auto. rewrite tie_correction_group by (simpl; auto; lia). rewrite Z2Nat.id by lia. unfold tie_correction; simpl. lia.
  - inversion HS; subst. destruct (Qceqb_spec z prev) as [E|E].
    + subst. specialize (IH prev (run + 1)%Z tie H1 ltac:(lia)). destruct (run_scan prev t (run + 1) tie) as [r ti].
      destruct IH as [A B]. split; auto. rewrite B. f_equal. apply tie_correction_perm.
      replace (Z.to_nat (run + 1)) with (S (Z.to_nat run)) by lia. simpl. apply Permutation_middle.
    + assert (NI : ~ In prev (z :: t)).
      { intros [H|H]; [congruence|]. inversion H1; subst. inversion H2; subst.
        eapply Forall_forall in H5; eauto. apply E. apply Qcle_antisym; auto. }
      specialize (IH z 1%Z (if (1 <? run)%Z then (tie + tie_poly run)%Z else tie) H1 ltac:(lia)).
      destruct (run_scan z t 1 (if (1 <? run)%Z then (tie + tie_poly run)%Z else tie)) as [r ti].
      destruct IH as [A B]. split; auto. rewrite B. change (repeat z (Z.to_nat 1) ++ t) with (z :: t).
      rewrite (@tie_correction_group prev (Z.to_nat run) (z :: t)) by (auto; lia). rewrite Z2Nat.id by lia.
      destruct (Z.ltb_spec 1 run); [lia|]. assert (run = 1%Z) by lia. subst. unfold tie_poly. lia.
Qed.
Lemma base_variance_from_sorted_ok l : ascending l -> base_variance_from_sorted l (length l) = mk_variance l.
Proof.
  intros S. unfold base_variance_from_sorted, mk_variance. destruct l as [|x t].
  { simpl. apply Qc_is_canon. reflexivity. }
  destruct (Nat.leb_spec (length (x :: t)) 1) as [L|L].
  { destruct t; [|simpl in L; lia]. change (length [x]) with 1.
    pose proof (@tie_correction_group x 1 [] ltac:(lia) ltac:(simpl; auto)) as E. simpl in E. rewrite E.
    unfold tie_correction, tie_poly. simpl. apply Qc_is_canon. reflexivity. }
  unfold do_loop. pose proof (run_scan_loop t [] x 1%Z 0%Z) as RL. simpl app in RL. simpl (length [] + 2) in RL.
  replace (length (x :: t) + 1 - 2) with (length t) by (simpl; lia).
  match goal with |- context [fold_left ?f (seq 2 (length t)) (1%Z, 0%Z)] => replace (fold_left f (seq 2 (length t)) (1%Z, 0%Z)) with (run_scan x t 1 0) end.
  2:{ rewrite <- RL. apply fold_left_ext_in. intros [a b] i _. reflexivity. }
  pose proof (@run_scan_tie t x 1%Z 0%Z S ltac:(lia)) as RT. destruct (run_scan x t 1 0) as [r ti]. destruct RT as [A B].
  change (repeat x (Z.to_nat 1) ++ t) with (x :: t) in B.
  replace (if (1 <? r)%Z then (ti + tie_poly r)%Z else ti) with (tie_correction (x :: t)). auto.
  destruct (Z.ltb_spec 1 r); [lia|]. assert (r = 1%Z) by lia. subst. unfold tie_poly in B. lia.
Qed.
Lemma mk_variance_perm l l' : Permutation l l' -> mk_variance l = mk_variance l'.
Proof. intros P. unfold mk_variance. rewrite (tie_correction_perm P), (Permutation_length P). auto. Qed.
Lemma compute_base_variance_ok y : compute_base_variance y = Some (mk_variance y).
Proof. unfold compute_base_variance. rewrite sort_real_eq. f_equal.
  rewrite <- (sorted_copy_length y), base_variance_from_sorted_ok by apply sorted_copy_ascending.
  apply mk_variance_perm, sorted_copy_perm. Qed.

(** grouping a list by one of its values *)
Lemma group_perm x l : Permutation l (repeat x (count (fun z => (z =? x)%Qc) l) ++ filter (fun z => negb (z =? x)%Qc) l).
Proof. unfold count. induction l as [|a l IH]; simpl; auto. destruct (Qceqb_spec a x); simpl.
  - subst. constructor. auto.
  - eapply perm_trans; [apply perm_skip, IH|]. apply Permutation_middle. Qed.
Lemma tie_poly_super a b : (0 <= a)%Z -> (0 <= b)%Z -> (tie_poly a + tie_poly b + 6 * a * b * (a + b + 1) = tie_poly (a + b))%Z.
Proof. unfold tie_poly. intros. ring. Qed.
Lemma tie_correction_bounds : forall n l, length l = n ->
  (0 <= tie_correction l <= tie_poly (Z.of_nat n))%Z /\
  ((exists x y, In x l /\ In y l /\ x <> y) -> (tie_correction l < tie_poly (Z.of_nat n))%Z).
Proof.
  intros n. induction n as [n IH] using lt_wf_ind. intros l Hl. destruct l as [|x t].
  { simpl in Hl. subst. split. vm_compute. split; congruence. intros (? & ? & [] & _). }
  pose proof (group_perm x (x :: t)) as P. set (r := count _ (x :: t)) in *. set (rest := filter _ (x :: t)) in *.
  assert (Hr : 1 <= r). { unfold r, count. simpl. destruct (Qceqb_spec x x); [simpl; lia|congruence]. }
  assert (NI : ~ In x rest). { unfold rest. intros H. apply filter_In in H. destruct H as [_ H]. destruct (Qceqb_spec x x); [discriminate|congruence]. }
  assert (LEN : n = r + length rest). { rewrite <- Hl, (Permutation_length P), app_length, repeat_length. auto. }
  rewrite (tie_correction_perm P), tie_correction_group by auto.
  destruct (IH (length rest) ltac:(lia) rest eq_refl) as [[B1 B2] _].
  pose proof (@tie_poly_super (Z.of_nat r) (Z.of_nat (length rest)) ltac:(lia) ltac:(lia)) as SP.
  replace (Z.of_nat r + Z.of_nat (length rest))%Z with (Z.of_nat n) in SP by lia.
  assert (0 <= tie_poly (Z.of_nat r))%Z by (unfold tie_poly; nia).
  assert (0 <= 6 * Z.of_nat r * Z.of_nat (length rest) * (Z.of_nat n + 1))%Z by nia.
  split; [lia|]. intros (u & v & Hu & Hv & Huv).
  assert (1 <= length rest).
  { assert (G : In u rest \/ In v rest).
    { apply (Permutation_in _ P) in Hu. apply (Permutation_in _ P) in Hv. apply in_app_or in Hu. apply in_app_or in Hv.
      destruct Hu as [Hu|Hu]; auto. destruct Hv as [Hv|Hv]; auto. apply repeat_spec in Hu. apply repeat_spec in Hv. congruence. }
    destruct rest; simpl; [destruct G as [[]|[]]|lia]. }
  assert (0 < 6 * Z.of_nat r * Z.of_nat (length rest) * (Z.of_nat n + 1))%Z by nia. lia.
Qed.
Lemma all_equal_dec (l : list Qc) : (forall x y, In x l -> In y l -> x = y) \/ (exists x y, In x l /\ In y l /\ x <> y).
Proof. destruct l as [|a l]. { left; intros ? ? []. }
  assert (D : Forall (fun x => x = a) l \/ Exists (fun x => x <> a) l).
  { induction l as [|b l IH]; auto. destruct (Qc_eq_dec b a), IH as [H|H]; auto. }
  destruct D as [H|H].
  - left. rewrite Forall_forall in H. intros x y [<-|Hx] [<-|Hy]; auto. symmetry; auto. rewrite (H x), (H y); auto.
  - right. apply Exists_exists in H. destruct H as (x & Hx & N). exists x, a. simpl; auto. Qed.
Lemma tie_correction_allsame x l : (forall y, In y l -> y = x) -> tie_correction l = tie_poly (Z.of_nat (length l)).
Proof. intros H. assert (E : l = repeat x (length l)). { induction l; simpl; auto. f_equal; auto. apply H; simpl; auto. apply IHl. intros; apply H; simpl; auto. }
  destruct l as [|a l]; [reflexivity|]. rewrite E at 1. rewrite <- (app_nil_r (repeat x (length (a :: l)))).
  rewrite tie_correction_group by (simpl; auto; lia). unfold tie_correction at 1. simpl fold_right. lia. Qed.
Lemma mk_variance_nonneg l : (0 <= mk_variance l)%Qc.
Proof. unfold mk_variance. destruct (@tie_correction_bounds (length l) l eq_refl) as [[_ B] _]. unfold tie_poly in B.
  assert (H : (0 <= Z.of_nat (length l) * (Z.of_nat (length l) - 1) * (2 * Z.of_nat (length l) + 5) - tie_correction l)%Z) by lia.
  apply qz_le in H. rewrite qz_0 in H. cbn zeta. qclra. Qed.
Lemma mk_variance_zero_iff l : mk_variance l = 0%Qc <-> (forall x y, In x l -> In y l -> x = y).
Proof. unfold mk_variance. cbn zeta. set (n := Z.of_nat (length l)). split.
  - intros E. destruct (all_equal_dec l) as [H|H]; auto. exfalso.
    destruct (@tie_correction_bounds (length l) l eq_refl) as [_ B]. specialize (B H). unfold tie_poly in B. fold n in B.
    assert (H0 : (0 < n * (n - 1) * (2 * n + 5) - tie_correction l)%Z) by lia. apply qz_lt in H0. rewrite qz_0 in H0. qclra.
  - intros H. assert (E : tie_correction l = tie_poly n).
    { destruct l as [|x t]; [reflexivity|]. apply (@tie_correction_allsame x). intros y Hy. apply H; simpl; auto. }
    rewrite E. unfold tie_poly. replace (n * (n - 1) * (2 * n + 5) - n * (n - 1) * (2 * n + 5))%Z with 0%Z by lia. rewrite qz_0. field. discriminate.
Qed.
Lemma mk_variance_no_ties l : NoDup l -> mk_variance l = (let n := Z.of_nat (length l) in qz (n * (n - 1) * (2 * n + 5)) / qz 18)%Qc.
Proof. intros N. unfold mk_variance. cbn zeta. f_equal. f_equal. replace (tie_correction l) with 0%Z; [lia|]. symmetry.
  unfold tie_correction. change (fold_right Z.add 0%Z) with zsum. rewrite nodup_fixed_point by auto.
  assert (G : forall l', (forall x, In x l' -> In x l) -> zsum (map (fun v => let t := mult v l in (t * (t - 1) * (2 * t + 5))%Z) l') = 0%Z).
  { induction l' as [|x l' IH]; intros H; auto. cbn [map zsum fold_right]. fold (zsum (map (fun v => let t := mult v l in (t * (t - 1) * (2 * t + 5))%Z) l')).
    rewrite IH by (intros; apply H; simpl; auto).
    assert (M : mult x l = 1%Z).
    { assert (In x l) by (apply H; simpl; auto). unfold mult, count. clear -N H0. induction l as [|a l IH]; [destruct H0|].
      inversion N; subst. simpl. destruct (Qceqb_spec a x).
      - subst. replace (filter (fun x0 => (x0 =? x)%Qc) l) with (@nil Qc). reflexivity. symmetry.
        clear -H2. induction l as [|b l IH]; auto. simpl. destruct (Qceqb_spec b x). subst. exfalso; apply H2; simpl; auto. apply IH. intro; apply H2; simpl; auto.
      - apply IH; auto. destruct H0; auto. congruence. }
    rewrite M. cbn zeta. lia. }
  apply G. auto. Qed.

(** *** ranks *)
Lemma count_split (l : list Qc) v :
  (count (fun x => (x <? v)%Qc) l + count (fun x => (x =? v)%Qc) l + count (fun x => (v <? x)%Qc) l = length l)%nat.
Proof. unfold count. induction l as [|a l IH]; simpl; auto.
  repeat qc_case; simpl; try lia; try (exfalso; subst; qclra).
  exfalso. apply n1. apply Qcle_antisym; apply Qcnot_lt_le; auto. Qed.
Definition rank_score (l : list Qc) (v : Qc) : Z := zsum (map (fun x => sgnd x v) l).
Lemma rank_score_counts l v : rank_score l v = (Z.of_nat (count (fun x => (x <? v)%Qc) l) - Z.of_nat (count (fun x => (v <? x)%Qc) l))%Z.
Proof. unfold rank_score, count. induction l as [|a l IH]; auto. cbn [map zsum fold_right filter]. fold (zsum (map (fun x => sgnd x v) l)).
  rewrite IH. unfold sgnd. repeat qc_case; cbn [length]; try lia. exfalso; qclra. Qed.
Lemma average_rank_score l v : average_rank l v = (qz (Z.of_nat (length l) + 1 + rank_score l v) / 2)%Qc.
Proof. unfold average_rank. rewrite rank_score_counts. pose proof (count_split l v) as C.
  set (a := count (fun x => (x <? v)%Qc) l) in *. set (b := count (fun x => (x =? v)%Qc) l) in *. set (c := count (fun x => (v <? x)%Qc) l) in *.
  replace (Z.of_nat (length l) + 1 + (Z.of_nat a - Z.of_nat c))%Z with (2 * Z.of_nat a + Z.of_nat b + 1)%Z by lia.
  rewrite !qz_add, qz_mul, qz_1. field. discriminate. Qed.
Lemma compute_rank_vector_ok l : compute_rank_vector l = map (average_rank l) l.
Proof.
  unfold compute_rank_vector. 
  transitivity (map (fun j => average_rank l (get l j)) (seq 1 (length l))).
  2:{ rewrite <- (map_map (get l) (average_rank l)), map_get_seq. auto. }
  apply map_ext_in. intros j Hj.
  rewrite average_rank_score. do 3 f_equal. unfold do_loop. replace (length l + 1 - 1) with (length l) by lia.
  rewrite (@fold_left_ext_in _ _ _ (fun s i => (s + sgnd (get l i) (get l j))%Z)).
  - rewrite fold_left_zsum, <- (map_map (get l) (fun x => sgnd x (get l j))), map_get_seq. reflexivity.
  - intros s i _. unfold sgnd. repeat qc_case; lia.
Qed.

(** the run loop of compute_average_ranks *)
Section RankLoop.
Variable values : list Qc.
Variable idx : list nat.
Let n := length values.
Hypothesis idx_perm : Permutation idx (seq 1 n).
Hypothesis idx_sorted : ascending (map (get values) idx).

Let sv := map (get values) idx.
Lemma sv_perm : Permutation sv values.
Proof. unfold sv. rewrite (Permutation_map _ idx_perm). rewrite map_get_seq. auto. Qed.
Lemma idx_len : length idx = n. Proof. rewrite (Permutation_length idx_perm), seq_length; auto. Qed.
Lemma sv_len : length sv = n. Proof. unfold sv. rewrite map_length. apply idx_len. Qed.
Lemma sv_get p : 1 <= p <= n -> get sv p = get values (nth (p - 1) idx 0).
Proof. intros H. unfold sv. unfold get at 1. rewrite (nth_indep _ 0%Qc (get values 0)) by (fold sv; rewrite sv_len; lia). apply map_nth. Qed.

Lemma run_end_spec s : 1 <= s <= n -> forall fuel e, s <= e <= n -> n - e <= fuel ->
  (forall p, s <= p <= e -> get sv p = get sv s) ->
  let e' := run_end_from fuel values idx n s e in
  e <= e' <= n /\ (forall p, s <= p <= e' -> get sv p = get sv s) /\ (e' < n -> get sv (e' + 1) <> get sv s).
Proof.
  intros Hs. induction fuel as [|f IH]; intros e He Hf Heq; simpl.
  - split; [lia|]. split; auto. lia.
  - destruct (Nat.ltb_spec e n) as [L|L]. 2:{ split; [lia|]. split; auto. lia. }
    assert (E1 : get sv (e + 1) = get values (nth e idx 0)). { rewrite sv_get by lia. f_equal. f_equal. lia. }
    assert (E2 : get sv s = get values (nth (s - 1) idx 0)) by (apply sv_get; lia).
    rewrite <- E1, <- E2. destruct (Qceqb_spec (get sv (e + 1)) (get sv s)) as [Q|Q].
    + destruct (IH (e + 1)) as (A & B & C); try lia.
      { intros p Hp. destruct (Nat.eq_dec p (e + 1)). subst; auto. apply Heq; lia. }
      split; [lia|]. auto.
    + split; [lia|]. auto.
Qed.

Lemma get_nth_sv p : get sv (S p) = nth p sv 0%Qc.
Proof. unfold get. f_equal. lia. Qed.

Lemma run_rank s e : 1 <= s <= e -> e <= n -> (forall p, s <= p <= e -> get sv p = get sv s) ->
  (s = 1 \/ get sv (s - 1) <> get sv s) -> (e < n -> get sv (e + 1) <> get sv s) ->
  average_rank values (get sv s) = (qz (Z.of_nat (s + e)) / 2)%Qc.
Proof.
  intros Hs He HR HL HH. set (v := get sv s).
  assert (LE : forall p q, 1 <= p <= q -> q <= n -> (get sv p <= get sv q)%Qc).
  { intros p q Hp Hq. unfold get. apply ascending_nth_le; [exact idx_sorted|lia|]. rewrite sv_len. lia. }
  assert (A : forall p, 1 <= p < s -> (get sv p < v)%Qc).
  { intros p Hp. destruct HL as [->|HL]; [lia|]. apply Qcle_lt_trans with (get sv (s - 1)). apply LE; lia.
    apply Qcnot_le_lt. intros H. apply HL. apply Qcle_antisym; auto. apply LE; lia. }
  assert (B : forall p, e < p <= n -> (v < get sv p)%Qc).
  { intros p Hp. apply Qclt_le_trans with (get sv (e + 1)). 2:{ apply LE; lia. }
    apply Qcnot_le_lt. intros H. apply (HH ltac:(lia)). apply Qcle_antisym; auto. apply LE; lia. }
  assert (Rd : forall l : list Qc, map (get l) (seq 1 (length l)) = l) by apply map_get_seq.
  assert (SPL : sv = map (get sv) (seq 1 (s - 1)) ++ map (get sv) (seq s (e + 1 - s)) ++ map (get sv) (seq (e + 1) (n - e))).
  { rewrite <- (Rd sv) at 1. rewrite sv_len. rewrite <- !map_app. f_equal.
    replace n with ((s - 1) + ((e + 1 - s) + (n - e))) at 1 by lia. rewrite seq_app, seq_app.
    replace (1 + (s - 1)) with s by lia. replace (s + (e + 1 - s)) with (e + 1) by lia. auto. }
  assert (CL : count (fun x => (x <? v)%Qc) values = s - 1).
  { rewrite <- (count_perm _ sv_perm), SPL, !count_app.
    rewrite count_all. 2:{ intros x Hx. apply in_map_iff in Hx. destruct Hx as (p & <- & Hp). apply in_seq in Hp.
      destruct (Qcltb_spec (get sv p) v) as [|N]; auto. exfalso. apply N. apply A. lia. }
    rewrite count_none. 2:{ intros x Hx. apply in_map_iff in Hx. destruct Hx as (p & <- & Hp). apply in_seq in Hp.
      rewrite HR by lia. fold v. destruct (Qcltb_spec v v); auto. exfalso; qclra. }
    rewrite count_none. 2:{ intros x Hx. apply in_map_iff in Hx. destruct Hx as (p & <- & Hp). apply in_seq in Hp.
      specialize (B p ltac:(lia)). destruct (Qcltb_spec (get sv p) v); auto. exfalso; qclra. }
    rewrite map_length, seq_length. lia. }
  assert (CE : count (fun x => (x =? v)%Qc) values = e + 1 - s).
  { rewrite <- (count_perm _ sv_perm), SPL, !count_app.
    rewrite count_none. 2:{ intros x Hx. apply in_map_iff in Hx. destruct Hx as (p & <- & Hp). apply in_seq in Hp.
      specialize (A p ltac:(lia)). destruct (Qceqb_spec (get sv p) v) as [N|N]; auto. rewrite N in A. exfalso; qclra. }
    rewrite count_all. 2:{ intros x Hx. apply in_map_iff in Hx. destruct Hx as (p & <- & Hp). apply in_seq in Hp.
      rewrite HR by lia. fold v. destruct (Qceqb_spec v v); auto. }
    rewrite count_none. 2:{ intros x Hx. apply in_map_iff in Hx. destruct Hx as (p & <- & Hp). apply in_seq in Hp.
      specialize (B p ltac:(lia)). destruct (Qceqb_spec (get sv p) v) as [N|N]; auto. rewrite N in B. exfalso; qclra. }
    rewrite map_length, seq_length. lia. }
  unfold average_rank. rewrite CL, CE.
  replace (Z.of_nat (s + e)) with (2 * Z.of_nat (s - 1) + (Z.of_nat (e + 1 - s) + 1))%Z by lia.
  rewrite !qz_add, qz_mul, qz_1. field. discriminate.
Qed.

Lemma idx_nth_bounds p : 1 <= p <= n -> 1 <= nth (p - 1) idx 0 <= n.
Proof. intros H. assert (In (nth (p - 1) idx 0) (seq 1 n)). { apply (Permutation_in _ idx_perm). apply nth_In. rewrite idx_len. lia. }
  apply in_seq in H0. lia. Qed.
Lemma idx_nth_inj p q : 1 <= p <= n -> 1 <= q <= n -> nth (p - 1) idx 0 = nth (q - 1) idx 0 -> p = q.
Proof. intros Hp Hq E. assert (N : NoDup idx) by (apply (Permutation_NoDup (Permutation_sym idx_perm)), seq_NoDup).
  rewrite (NoDup_nth idx 0) in N. specialize (N (p - 1) (q - 1)). rewrite idx_len in N. specialize (N ltac:(lia) ltac:(lia) E). lia. Qed.

Lemma fill_run_spec (avg : Qc) (e : nat) : forall (s : nat) (r : list Qc), 1 <= s -> e <= n -> n <= length r -> 
  let r' := do_loop s e (fun i r => wr r (nth (i - 1) idx 0) avg) r in
  length r' = length r /\ (forall p, 1 <= p <= n -> rd r' (nth (p - 1) idx 0) = if (s <=? p) && (p <=? e) then Some avg else rd r (nth (p - 1) idx 0)) /\
  (forall q, n < q -> rd r' q = rd r q).
Proof.
  unfold do_loop. intros s r Hs He Hr. cbn zeta. remember (e + 1 - s) as m eqn:Em. revert s r Hs Hr Em.
  induction m as [|m IH]; intros s r Hs Hr Em; cbn [seq fold_left].
  - split; auto. split; auto. intros p Hp. destruct (Nat.leb_spec s p), (Nat.leb_spec p e); auto; lia.
  - destruct (IH (S s) (wr r (nth (s - 1) idx 0) avg)) as (A & B & C). { lia. } { rewrite wr_length; auto. } { lia. }
    rewrite wr_length in A. pose proof (@idx_nth_bounds s ltac:(lia)) as HB. split; auto. split.
    + intros p Hp. rewrite B by auto. destruct (Nat.eq_dec p s).
      * subst. rewrite rd_wr_eq by lia. destruct (Nat.leb_spec (S s) s), (Nat.leb_spec s s), (Nat.leb_spec s e); auto; lia.
      * rewrite rd_wr_neq. 2:{ intros H. apply n0. symmetry. apply idx_nth_inj; auto. lia. }
        destruct (Nat.leb_spec (S s) p), (Nat.leb_spec s p), (Nat.leb_spec p e); auto; lia.
    + intros q Hq. rewrite C by auto. apply rd_wr_neq. lia.
Qed.

Lemma rank_loop_spec : forall fuel s (r : list Qc), 1 <= s <= n + 1 -> n + 1 - s < fuel -> n <= length r ->
  (forall p, 1 <= p < s -> rd r (nth (p - 1) idx 0) = Some (average_rank values (get sv p))) ->
  (s = 1 \/ s = n + 1 \/ get sv (s - 1) <> get sv s) ->
  exists r', rank_loop fuel values idx n s r = Some r' /\ length r' = length r /\
    (forall p, 1 <= p <= n -> rd r' (nth (p - 1) idx 0) = Some (average_rank values (get sv p))) /\
    (forall q, n < q -> rd r' q = rd r q).
Proof.
  induction fuel as [|f IH]; intros s r Hs Hf Hr HI HB; [lia|]. cbn [rank_loop].
  destruct (Nat.leb_spec s n) as [L|L].
  2:{ exists r. split; auto. split; auto. split; auto. intros p Hp. apply HI. lia. }
  destruct (@run_end_spec s ltac:(lia) n s ltac:(lia) ltac:(lia)) as (E1 & E2 & E3).
  { intros p Hp. assert (p = s) by lia. subst; auto. }
  set (e := run_end_from n values idx n s s) in *.
  set (avg := (qz (Z.of_nat (s + e)) / 2)%Qc).
  assert (AV : forall p, s <= p <= e -> average_rank values (get sv p) = avg).
  { intros p Hp. rewrite E2 by auto. apply run_rank; auto; try lia. destruct HB as [H|[H|H]]; auto. lia. }
  destruct (@fill_run_spec avg e s r ltac:(lia) ltac:(lia) Hr) as (F1 & F2 & F3).
  set (r1 := do_loop s e _ r) in *.
  destruct (IH (e + 1) r1) as (r' & A & B & C & D); try lia.
  - intros p Hp. rewrite F2 by lia. destruct (Nat.leb_spec s p), (Nat.leb_spec p e); simpl; try lia.
    + rewrite AV by lia. auto.
    + apply HI. lia.
  - destruct (Nat.eq_dec e n). { right; left; lia. } right; right. replace (e + 1 - 1) with e by lia.
    rewrite (E2 e) by lia. intro H. apply (E3 ltac:(lia)). auto.
  - exists r'. split; auto. split; [lia|]. split; auto. intros q Hq. rewrite D by auto. apply F3; auto.
Qed.
End RankLoop.

Lemma compute_average_ranks_ok values rank0 : length values <= length rank0 ->
  compute_average_ranks values rank0 = Some (map (average_rank values) values ++ skipn (length values) rank0).
Proof.
  intros HL. unfold compute_average_ranks. destruct (Nat.leb_spec (length values) 0) as [L|L].
  { destruct values; simpl in *; auto. lia. }
  destruct (sort_indices_ok values) as (idx & E & P & HS & _). rewrite E.
  destruct (@rank_loop_spec values idx P HS (S (length values)) 1 rank0) as (r & A & B & C & D); auto; try lia.
  rewrite A. f_equal. apply rd_ext.
  - rewrite app_length, map_length, skipn_length. lia.
  - intros i Hi. rewrite B in Hi. destruct (Nat.le_gt_cases i (length values)).
    + rewrite rd_app1 by (rewrite map_length; auto). rewrite rd_map, (@rd_get values) by lia. simpl.
      assert (I : In i idx). { apply (Permutation_in _ (Permutation_sym P)). apply in_seq; lia. }
      apply (In_nth _ _ 0) in I. destruct I as (p & Hp & Ep). rewrite (Permutation_length P), seq_length in Hp.
      specialize (C (p + 1) ltac:(lia)). replace (p + 1 - 1) with p in C by lia. rewrite Ep in C. rewrite C.
      rewrite sv_get by (auto; lia). replace (p + 1 - 1) with p by lia. rewrite Ep. auto.
    + rewrite D by auto. rewrite rd_app2 by (rewrite map_length; auto). rewrite map_length.
      rewrite <- (firstn_skipn (length values) rank0) at 1. rewrite rd_app2; rewrite firstn_length, Nat.min_l by lia; auto.
Qed.
