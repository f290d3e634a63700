From Verif Require Import Base Buffer Loops VH_Model VH_Proofs VH_Proofs3 LI_Proofs TG_Model RG_Model RG_Spec RG_Proofs RG_Proofs2 RG_Proofs3.
Local Open Scope nat_scope.

(** * Rows *)
Lemma normalize_sum r : r <> [] -> qsum (normalize_row r) = 1%Qc.
Proof.
  intros H. unfold normalize_row. rewrite fold_qsum. pose proof tiny_pos as T. destruct (Qcltb_spec tiny (qsum r)) as [L|L].
  - rewrite (qsum_ext _ (fun w => (/ qsum r * w)%Qc)) by (intros; unfold Qcdiv; ring). rewrite qsum_map_scale, map_id. rewrite Qcmult_comm. apply Qcmult_inv_r. apply Qcpos_neq. apply Qclt_trans with tiny; auto.
  - rewrite qsum_const. field. apply qz_nat_neq. destruct r; [contradiction|simpl; lia].
Qed.
Lemma normalize_nonneg r : (forall x, In x r -> (0 <= x)%Qc) -> forall w, In w (normalize_row r) -> (0 <= w)%Qc.
Proof.
  intros H w I. unfold normalize_row in I. rewrite fold_qsum in I. pose proof tiny_pos as T. destruct (Qcltb_spec tiny (qsum r)) as [L|L]; apply in_map_iff in I; destruct I as [x [<- I]].
  - apply Qcmul_nonneg; auto. apply Qclt_le_weak, Qcinv_pos. apply Qclt_trans with tiny; auto.
  - assert (0 < qz (Z.of_nat (length r)))%Qc. { rewrite <- qz_0. apply (proj2 (qz_lt _ _)). destruct r; [destruct I|simpl; lia]. }
    apply Qcmul_nonneg; [discriminate|]. apply Qclt_le_weak, Qcinv_pos. auto.
Qed.

(** * Latitude *)
Definition lat_weight (sn : Qc -> Qc) (h : Qc) (s t : list Qc) (i j : nat) : Qc :=
  if Qcltb tiny (lat_area sn h t i) then (common_area sn (lat_lower h t i) (lat_upper h t i) (lat_lower h s j) (lat_upper h s j) / lat_area sn h t i)%Qc
  else (1 / qz (Z.of_nat (length s)))%Qc.
Lemma entry_map (A B C : Type) (f : A -> B -> C) (la : list A) (lb : list B) i j a b : nth_error la i = Some a -> nth_error lb j = Some b ->
  entry (map (fun x => map (f x) lb) la) i j = Some (f a b).
Proof. intros Ha Hb. unfold entry. rewrite (map_nth_error _ _ _ Ha). apply map_nth_error. auto. Qed.
Lemma shaped_map (A B : Type) (f : A -> list B) l m : (forall a, In a l -> length (f a) = m) -> shaped (map f l) (length l) m.
Proof. intros H. split; [apply map_length|]. intros r I. apply in_map_iff in I. destruct I as [a [<- I]]. auto. Qed.
Lemma latitude_ok sn h s t : lat_grid h s -> lat_grid h t -> exists W, conservative_latitude_weights sn h s t = Some W /\ shaped W (length t) (length s) /\
  forall i j, i < length t -> j < length s -> entry W i j = Some (lat_weight sn h s t i j).
Proof.
  intros Gs Gt. pose proof Gs as [h0 [Ls [As Rs]]]. pose proof Gt as [h0' [Lt [At Rt]]].
  unfold conservative_latitude_weights. pose proof (proj2 (empty_ok _ s) Ls) as e1. pose proof (proj2 (empty_ok _ t) Lt) as e2. rewrite e1, e2. cbn [orb]. rewrite (proj2 (increasing_ok s) As), (proj2 (increasing_ok t) At). cbn [andb negb].
  eexists. split; [reflexivity|]. split.
  - rewrite <- (cells_length h t) by auto. apply shaped_map. intros c _. rewrite normalize_length, map_length. apply cells_length. auto.
  - intros i j I J. unfold entry. rewrite (map_nth_error _ _ _ (cells_nth h t i I)).
    rewrite (normalize_nth _ j _ (map_nth_error _ _ _ (cells_nth h s j J))). rewrite map_length, cells_length by auto. rewrite overlap_common.
    assert (E : qsum (map (lat_overlap sn (lat_lower h t i, lat_upper h t i)) (cells_of (lat_bounds h s))) = lat_area sn h t i).
    { rewrite <- (band_cover sn h s t i) by auto. rewrite qsum_nth, map_length, cells_length by auto. apply sum_ext. intros k K.
      erewrite nth_error_nth; [|apply map_nth_error, cells_nth; auto]. apply overlap_common. }
    rewrite E. reflexivity.
Qed.
Lemma lat_row_sum sn h s t i : lat_grid h s -> lat_grid h t -> i < length t -> sum (length s) (fun j => lat_weight sn h s t i j) = 1%Qc.
Proof.
  intros Gs Gt I. unfold lat_weight. pose proof tiny_pos as T. destruct (Qcltb_spec tiny (lat_area sn h t i)) as [L|L].
  - rewrite (sum_ext _ _ (fun j => (/ lat_area sn h t i * common_area sn (lat_lower h t i) (lat_upper h t i) (lat_lower h s j) (lat_upper h s j))%Qc)) by (intros; unfold Qcdiv; ring).
    rewrite sum_scale, band_cover by auto. rewrite Qcmult_comm. apply Qcmult_inv_r. apply Qcpos_neq. apply Qclt_trans with tiny; auto.
  - rewrite sum_const. field. apply qz_nat_neq. apply Gs.
Qed.
Lemma common_area_nonneg sn lo hi a b c d : nondecreasing_on lo hi sn -> (lo <= a)%Qc -> (b <= hi)%Qc -> (0 <= common_area sn a b c d)%Qc.
Proof.
  intros M A B. unfold common_area. set (u := if Qcleb b d then b else d). set (l := if Qcleb a c then c else a). destruct (Qcleb_spec u l) as [H|H]; [discriminate|].
  apply Qcnot_le_lt in H. assert (sn l <= sn u)%Qc; [|qclra]. apply M.
  - unfold l. destruct (Qcleb_spec a c); auto. qclra.
  - apply Qclt_le_weak. auto.
  - unfold u. destruct (Qcleb_spec b d); auto. apply Qcnot_le_lt in n. qclra.
Qed.
Lemma lat_weight_nonneg sn h s t i j : lat_grid h s -> lat_grid h t -> nondecreasing_on (- h) h sn -> i < length t -> j < length s -> (0 <= lat_weight sn h s t i j)%Qc.
Proof.
  intros Gs Gt M I J. unfold lat_weight. pose proof tiny_pos as T. destruct (Qcltb_spec tiny (lat_area sn h t i)) as [L|L].
  - apply Qcmul_nonneg; [|apply Qclt_le_weak, Qcinv_pos, Qclt_trans with tiny; auto]. rewrite <- bound_lower, <- bound_upper by auto.
    apply common_area_nonneg with (- h)%Qc h; auto; apply lat_in; auto; lia.
  - apply Qcmul_nonneg; [discriminate|]. apply Qclt_le_weak, Qcinv_pos. rewrite <- qz_0. apply (proj2 (qz_lt _ _)). destruct Gs as [_ [Ls _]]. lia.
Qed.
Lemma lat_conserve sn h s t f : lat_grid h s -> lat_grid h t -> (forall i, i < length t -> (tiny < lat_area sn h t i)%Qc) ->
  sum (length t) (fun i => (lat_area sn h t i * sum (length s) (fun j => lat_weight sn h s t i j * f j))%Qc) = sum (length s) (fun j => (lat_area sn h s j * f j)%Qc).
Proof.
  intros Gs Gt H. rewrite (sum_ext _ _ (fun i => sum (length s) (fun j => (f j * common_area sn (lat_lower h s j) (lat_upper h s j) (lat_lower h t i) (lat_upper h t i))%Qc))).
  - rewrite sum_swap. apply sum_ext. intros j J. rewrite sum_scale. rewrite band_cover by auto. ring.
  - intros i I. rewrite <- sum_scale. apply sum_ext. intros j J. unfold lat_weight. specialize (H i I). destruct (Qcltb_spec tiny (lat_area sn h t i)); [|contradiction].
    rewrite (common_area_sym sn (lat_lower h s j)). field. apply Qcpos_neq. apply Qclt_trans with tiny; auto. reflexivity.
Qed.
Lemma common_area_apart sn a b c d : (b <= c)%Qc \/ (d <= a)%Qc -> common_area sn a b c d = 0%Qc.
Proof.
  intros H. unfold common_area. destruct (Qcleb_spec b d) as [h1|h1], (Qcleb_spec a c) as [h2|h2]; cbn zeta; repeat match goal with H : ~ (_ <= _)%Qc |- _ => apply Qcnot_le_lt in H end;
  match goal with |- context [Qcleb ?x ?y] => destruct (Qcleb_spec x y) as [h3|h3] end; auto; exfalso; apply Qcnot_le_lt in h3; destruct H; qclra.
Qed.
Lemma common_area_self sn a b : (a <= b)%Qc -> common_area sn a b a b = (sn b - sn a)%Qc.
Proof.
  intros H. unfold common_area. destruct (Qcleb_spec b b) as [_|X]; [|exfalso; apply X, Qcle_refl]. destruct (Qcleb_spec a a) as [_|X]; [|exfalso; apply X, Qcle_refl]. cbn zeta.
  destruct (Qcleb_spec b a) as [X|X]; auto. assert (a = b) by (apply Qcle_antisym; auto). subst. ring.
Qed.
Lemma lat_same sn h s i j : lat_grid h s -> i < length s -> j < length s -> (tiny < lat_area sn h s i)%Qc -> lat_weight sn h s s i j = if i =? j then 1%Qc else 0%Qc.
Proof.
  intros G I J H. unfold lat_weight. destruct (Qcltb_spec tiny (lat_area sn h s i)); [|contradiction]. destruct (Nat.eqb_spec i j) as [<-|N].
  - rewrite common_area_self by (apply Qclt_le_weak, bound_ascending; auto). unfold lat_area. apply Qcmult_inv_r. apply Qcpos_neq. apply Qclt_trans with tiny; auto. reflexivity.
  - rewrite common_area_apart; [unfold Qcdiv; ring|]. rewrite <- !bound_lower, <- !bound_upper by auto.
    destruct (Nat.lt_total i j) as [L|[L|L]]; [left|lia|right]; apply lat_le; auto; lia.
Qed.
