From Verif Require Import Base Buffer Loops VH_Model VH_Proofs VH_Proofs3 LI_Proofs TG_Model RG_Model RG_Spec RG_Proofs RG_Proofs2.
Local Open Scope nat_scope.

Lemma sum_S n f : sum (Datatypes.S n) f = (sum n f + f n)%Qc.
Proof. unfold sum. rewrite seq_S, map_app, qsum_app. simpl. ring. Qed.
Lemma sum_ext n f g : (forall i, i < n -> f i = g i) -> sum n f = sum n g.
Proof. intros H. unfold sum. apply qsum_ext. intros i I. apply in_seq in I. apply H. lia. Qed.
Lemma sum_add n f g : sum n (fun i => (f i + g i)%Qc) = (sum n f + sum n g)%Qc.
Proof. apply qsum_map_add. Qed.
Lemma sum_scale n c f : sum n (fun i => (c * f i)%Qc) = (c * sum n f)%Qc.
Proof. apply qsum_map_scale. Qed.
Lemma sum_const n c : sum n (fun _ => c) = (qz (Z.of_nat n) * c)%Qc.
Proof. unfold sum. rewrite qsum_const, seq_length. auto. Qed.
Lemma sum_nonneg n f : (forall i, i < n -> (0 <= f i)%Qc) -> (0 <= sum n f)%Qc.
Proof. intros H. apply qsum_nonneg. intros x I. apply in_map_iff in I. destruct I as [i [<- I]]. apply in_seq in I. apply H. lia. Qed.
Lemma sum_le n f g : (forall i, i < n -> (f i <= g i)%Qc) -> (sum n f <= sum n g)%Qc.
Proof. intros H. apply qsum_le. intros i I. apply in_seq in I. apply H. lia. Qed.
Lemma sum_zero n f : (forall i, i < n -> f i = 0%Qc) -> sum n f = 0%Qc.
Proof. intros H. rewrite (sum_ext n f (fun _ => 0%Qc)) by auto. rewrite sum_const. ring. Qed.
Lemma sum_swap n m (f : nat -> nat -> Qc) : sum n (fun i => sum m (fun j => f i j)) = sum m (fun j => sum n (fun i => f i j)).
Proof.
  induction n as [|n IH].
  - change (sum 0 (fun i => sum m (fun j => f i j))) with 0%Qc. symmetry. apply sum_zero. auto.
  - rewrite sum_S, IH, <- sum_add. apply sum_ext. intros j _. rewrite sum_S. auto.
Qed.
Lemma sum_tele n g : sum n (fun i => (g (i + 1)%nat - g i)%Qc) = (g n - g 0%nat)%Qc.
Proof. induction n as [|n IH]; [unfold sum; simpl; ring|]. rewrite sum_S, IH. replace (n + 1) with (Datatypes.S n) by lia. ring. Qed.
Lemma sum_pick n k f : k < n -> (forall i, i < n -> i <> k -> f i = 0%Qc) -> sum n f = f k.
Proof.
  revert k. induction n as [|n IH]; intros k K H; [lia|]. rewrite sum_S. destruct (Nat.eq_dec k n) as [->|N].
  - rewrite sum_zero; [ring|]. intros i I. apply H; lia.
  - rewrite (IH k) by (try lia; intros; apply H; lia). rewrite (H n) by lia. ring.
Qed.
Lemma qsum_nth l : qsum l = sum (length l) (fun i => nth i l 0%Qc).
Proof.
  unfold sum. f_equal. apply nth_ext_all. intros q. destruct (Nat.lt_ge_cases q (length l)) as [H|H].
  - rewrite (map_nth_error _ _ _ (nth_seq0 _ _ H)). apply nth_error_nth'. auto.
  - rewrite !(proj2 (nth_error_None _ _)); auto. rewrite map_length, seq_length. auto.
Qed.

(** * Overlap of bands *)
Definition clampq (a b x : Qc) : Qc := if Qcleb x a then a else if Qcleb b x then b else x.
Lemma common_area_clamp sn a b c d : (a <= b)%Qc -> (c <= d)%Qc -> common_area sn a b c d = (sn (clampq a b d) - sn (clampq a b c))%Qc.
Proof.
  intros ab cd. unfold common_area, clampq.
  destruct (Qcleb_spec b d) as [H1|H1], (Qcleb_spec a c) as [H2|H2], (Qcleb_spec d a) as [H3|H3], (Qcleb_spec c a) as [H4|H4], (Qcleb_spec b c) as [H5|H5]; cbn zeta iota;
  repeat match goal with H : ~ (_ <= _)%Qc |- _ => apply Qcnot_le_lt in H end;
  repeat match goal with |- context [Qcleb ?x ?y] => destruct (Qcleb_spec x y); cbn zeta iota end;
  repeat match goal with H : ~ (_ <= _)%Qc |- _ => apply Qcnot_le_lt in H end;
  try (exfalso; qclra); try ring;
  try (assert (a = b) by qclra; subst); try (assert (a = d) by qclra; subst); try (assert (a = c) by qclra; subst); try (assert (c = d) by qclra; subst); try (assert (b = d) by qclra; subst); try (assert (b = c) by qclra; subst); try ring; try (exfalso; qclra).
Qed.
Lemma common_area_sym sn a b c d : common_area sn a b c d = common_area sn c d a b.
Proof.
  unfold common_area. assert (E : (if Qcleb b d then b else d) = (if Qcleb d b then d else b)).
  { destruct (Qcleb_spec b d), (Qcleb_spec d b); auto; qclra. }
  assert (E2 : (if Qcleb a c then c else a) = (if Qcleb c a then a else c)).
  { destruct (Qcleb_spec a c), (Qcleb_spec c a); auto; qclra. }
  rewrite E, E2. reflexivity.
Qed.
Lemma overlap_common sn a b c d : lat_overlap sn (a, b) (c, d) = common_area sn a b c d.
Proof.
  unfold lat_overlap, common_area, qcmin, qcmax. cbn [fst snd]. set (u := if Qcleb b d then b else d). set (l := if Qcleb a c then c else a).
  destruct (Qcltb_spec l u), (Qcleb_spec u l); auto; exfalso; [|apply Qcnot_le_lt in n0]; qclra.
Qed.
Lemma tele_cover sn a b (g : nat -> Qc) n : (a <= b)%Qc -> (g 0%nat <= a)%Qc -> (b <= g n)%Qc -> (forall i, i < n -> (g i <= g (i + 1)%nat)%Qc) ->
  sum n (fun j => common_area sn a b (g j) (g (j + 1)%nat)) = (sn b - sn a)%Qc.
Proof.
  intros ab g0 gn M. rewrite (sum_ext n _ (fun j => (sn (clampq a b (g (j + 1)%nat)) - sn (clampq a b (g j)))%Qc)).
  - rewrite (sum_tele n (fun j => sn (clampq a b (g j)))). f_equal; f_equal; unfold clampq.
    + destruct (Qcleb_spec (g n) a); [qclra|]. destruct (Qcleb_spec b (g n)); auto. contradiction.
    + f_equal. destruct (Qcleb_spec (g 0) a); auto. contradiction.
  - intros j J. apply common_area_clamp; auto.
Qed.

(** * Latitude bounds *)
Lemma midpoints_length l : length (midpoints l) = length l - 1.
Proof. induction l as [|a [|b l] IH]; simpl; auto. simpl in IH. rewrite IH. simpl. lia. Qed.
Lemma midpoints_nth l : forall k, k + 1 < length l -> nth k (midpoints l) 0%Qc = ((nth k l 0 + nth (k + 1) l 0) / qz 2)%Qc.
Proof.
  induction l as [|a l IH]; intros k H; simpl in H; [lia|]. destruct l as [|b l]; simpl in H; [lia|]. destruct k as [|k].
  - simpl. unfold dec. rewrite qz_1. field. discriminate.
  - change (nth k (midpoints (b :: l)) 0%Qc = ((nth k (b :: l) 0 + nth (k + 1) (b :: l) 0) / qz 2)%Qc). apply IH. simpl. lia.
Qed.
Definition bound (h : Qc) (l : list Qc) (k : nat) : Qc := nth k (lat_bounds h l) 0%Qc.
Lemma lat_bounds_length h l : 0 < length l -> length (lat_bounds h l) = length l + 1.
Proof. intros H. unfold lat_bounds. simpl. rewrite app_length, midpoints_length. simpl. lia. Qed.
Lemma bound_lower h l i : i < length l -> bound h l i = lat_lower h l i.
Proof.
  intros H. unfold bound, lat_bounds, lat_lower. destruct i as [|p]; auto. cbn [nth]. rewrite app_nth1 by (rewrite midpoints_length; lia). apply midpoints_nth. lia.
Qed.
Lemma bound_upper h l i : i < length l -> bound h l (i + 1) = lat_upper h l i.
Proof.
  intros H. unfold bound, lat_bounds, lat_upper. replace (i + 1) with (Datatypes.S i) by lia. cbn [nth]. destruct (Nat.eqb_spec (Datatypes.S i) (length l)) as [E|E].
  - rewrite app_nth2 by (rewrite midpoints_length; lia). rewrite midpoints_length. replace (i - (length l - 1)) with 0 by lia. auto.
  - rewrite app_nth1 by (rewrite midpoints_length; lia). rewrite midpoints_nth by lia. replace (i + 1) with (Datatypes.S i) by lia. auto.
Qed.
Lemma half_lt (x y : Qc) : (x < y)%Qc -> (x / qz 2 < y / qz 2)%Qc.
Proof. intros H. apply Qcmult_lt_compat_r; auto; reflexivity. Qed.
Lemma bound_ascending h l i : lat_grid h l -> i < length l -> (lat_lower h l i < lat_upper h l i)%Qc.
Proof.
  intros [H0 [L [A R]]] I. unfold lat_lower, lat_upper.
  assert (N : forall k, k < length l -> nth_error l k = Some (nth k l 0%Qc)) by (intros; apply nth_error_nth'; auto).
  assert (Lt : forall p q, p < q -> q < length l -> (nth p l 0 < nth q l 0)%Qc) by (intros p q Hp Hq; apply (A p q); auto; apply N; lia).
  assert (Rg : forall k, k < length l -> (- h <= nth k l 0)%Qc /\ (nth k l 0 <= h)%Qc) by (intros; apply R, nth_In; auto).
  assert (D : forall x, (x = (x + x) / qz 2)%Qc) by (intros; replace (qz 2) with (1 + 1)%Qc by (apply Qc_is_canon; reflexivity); field; discriminate).
  destruct i as [|p]; destruct (Nat.eqb_spec (Datatypes.S p + 1) (length l)) as [E|E] || destruct (Nat.eqb_spec (0 + 1) (length l)) as [E|E].
  - qclra.
  - rewrite (D (- h)%Qc). apply half_lt. destruct (Rg 0 L) as [R1 _]. assert (X1 : (nth 0 l 0 < nth (0 + 1) l 0)%Qc) by (apply Lt; lia). set (u := nth 0 l 0%Qc) in *. set (w := nth (0 + 1) l 0%Qc) in *. clearbody u w. clear - R1 X1. qclra.
  - rewrite (D h) at 1. apply half_lt. replace (p + 1) with (Datatypes.S p) by lia. destruct (Rg (Datatypes.S p) I) as [_ R1]. assert (X1 : (nth p l 0 < nth (Datatypes.S p) l 0)%Qc) by (apply Lt; lia). set (u := nth p l 0%Qc) in *. set (w := nth (Datatypes.S p) l 0%Qc) in *. clearbody u w. clear - R1 X1. qclra.
  - apply half_lt. assert (X1 : (nth p l 0 < nth (p + 1) l 0)%Qc) by (apply Lt; lia). replace (p + 1) with (Datatypes.S p) in * by lia. assert (X2 : (nth (Datatypes.S p) l 0 < nth (Datatypes.S p + 1) l 0)%Qc) by (apply Lt; lia). set (u := nth p l 0%Qc) in *. set (w := nth (Datatypes.S p) l 0%Qc) in *. set (z := nth (Datatypes.S p + 1) l 0%Qc) in *. clearbody u w z. clear - X1 X2. qclra.
Qed.
Lemma cells_nth h l i : i < length l -> nth_error (cells_of (lat_bounds h l)) i = Some (lat_lower h l i, lat_upper h l i).
Proof.
  intros I. unfold cells_of. rewrite <- bound_lower, <- bound_upper by auto.
  assert (G : forall b : list Qc, i + 1 < length b -> nth_error (combine b (tl b)) i = Some (nth i b 0%Qc, nth (i + 1) b 0%Qc)).
  { clear. intros b. destruct b as [|x b]; simpl; [lia|]. intros H. replace (i + 1) with (Datatypes.S i) by lia. revert x b H. induction i as [|i IH]; intros x b H; destruct b as [|y b]; simpl in *; try lia; auto. apply (IH y b). lia. }
  apply G. rewrite lat_bounds_length by lia. lia.
Qed.
Lemma cells_length h l : 0 < length l -> length (cells_of (lat_bounds h l)) = length l.
Proof. intros H. unfold cells_of. rewrite combine_length. pose proof (lat_bounds_length h l H). destruct (lat_bounds h l); cbn [length tl] in *; lia. Qed.
Lemma lat_le h l i j : lat_grid h l -> i <= j -> j <= length l -> (bound h l i <= bound h l j)%Qc.
Proof.
  intros G H. induction H as [|j H IH]; intros L; [apply Qcle_refl|]. apply Qcle_trans with (bound h l j); [apply IH; lia|].
  replace (Datatypes.S j) with (j + 1) by lia. rewrite bound_upper, bound_lower by lia. apply Qclt_le_weak, bound_ascending; auto; lia.
Qed.
Lemma bound_ends h l : 0 < length l -> bound h l 0 = (- h)%Qc /\ bound h l (length l) = h.
Proof.
  intros H. split; auto. replace (length l) with (length l - 1 + 1) by lia. rewrite bound_upper by lia. unfold lat_upper. replace (length l - 1 + 1) with (length l) by lia. rewrite Nat.eqb_refl. auto.
Qed.
Lemma lat_in h l i : lat_grid h l -> i <= length l -> (- h <= bound h l i)%Qc /\ (bound h l i <= h)%Qc.
Proof.
  intros G I. destruct (bound_ends h l) as [E1 E2]; [apply G|]. rewrite <- E1 at 1. rewrite <- E2 at 4. split; apply lat_le; auto; lia.
Qed.
(** the parts of a band in all cells of a grid make up the band *)
Lemma band_cover sn h s t i : lat_grid h s -> lat_grid h t -> i < length t ->
  sum (length s) (fun j => common_area sn (lat_lower h t i) (lat_upper h t i) (lat_lower h s j) (lat_upper h s j)) = lat_area sn h t i.
Proof.
  intros Gs Gt I. unfold lat_area. rewrite (sum_ext _ _ (fun j => common_area sn (lat_lower h t i) (lat_upper h t i) (bound h s j) (bound h s (j + 1)))) by (intros; rewrite bound_lower, bound_upper; auto).
  destruct (bound_ends h s) as [E1 E2]; [apply Gs|]. apply tele_cover.
  - apply Qclt_le_weak, bound_ascending; auto.
  - rewrite E1, <- bound_lower by auto. apply lat_in; auto. lia.
  - rewrite E2, <- bound_upper by auto. apply lat_in; auto. lia.
  - intros j J. apply lat_le; auto; lia.
Qed.

(** * The weights *)
Lemma fold_qsum l : fold_left Qcplus l 0%Qc = qsum l.
Proof. rewrite <- (map_id l) at 2. rewrite <- (Qcplus_0_l (qsum _)). rewrite <- (fold_left_qsum (fun x => x) l 0%Qc). apply fold_left_ext_in. auto. Qed.
Lemma normalize_length r : length (normalize_row r) = length r.
Proof. unfold normalize_row. destruct (Qcltb _ _); apply map_length. Qed.
Lemma normalize_nth r i w : nth_error r i = Some w -> nth_error (normalize_row r) i = Some (if Qcltb tiny (qsum r) then (w / qsum r)%Qc else (1 / qz (Z.of_nat (length r)))%Qc).
Proof. intros H. unfold normalize_row. rewrite fold_qsum. destruct (Qcltb tiny (qsum r)); rewrite (map_nth_error _ _ _ H); auto. Qed.
Lemma tiny_pos : (0 < tiny)%Qc.
Proof. reflexivity. Qed.
Lemma qz_nat_neq n : 0 < n -> qz (Z.of_nat n) <> 0%Qc.
Proof. intros H E. rewrite <- qz_0 in E. apply qz_inj in E. lia. Qed.
