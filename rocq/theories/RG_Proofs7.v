From Verif Require Import Base Buffer Loops VH_Model VH_Proofs VH_Proofs3 LI_Proofs TG_Model TG_Proofs2 RG_Model RG_Spec RG_Proofs RG_Proofs2 RG_Proofs3 RG_Proofs4 RG_Proofs5 RG_Proofs6.
Local Open Scope nat_scope.

(** * Longitude weights *)
Lemma longitude_ok P s t : (0 < P)%Qc -> global P s -> global P t -> narrow P s t ->
  exists W v, conservative_longitude_weights P s t = Some (Some W) /\ shaped W (length t) (length s) /\
    (forall i j, i < length t -> j < length s -> circle_common P (lon_lower P t i) (lon_upper P t i) (lon_lower P s j) (lon_upper P s j) (v i j)) /\
    (forall i j, i < length t -> j < length s -> entry W i j = Some (if Qcltb tiny (lon_width P t i) then (v i j / lon_width P t i)%Qc else (1 / qz (Z.of_nat (length s)))%Qc)).
Proof.
  intros H Gs Gt N. unfold conservative_longitude_weights.
  pose proof Gs as [Ls [As _]]. pose proof Gt as [Lt [At _]].
  pose proof (proj2 (empty_ok _ s) Ls) as e1. pose proof (proj2 (empty_ok _ t) Lt) as e2. rewrite e1, e2. cbn [orb]. rewrite (proj2 (increasing_ok s) As), (proj2 (increasing_ok t) At). cbn [andb negb].
  destruct (lon_bounds_ok P s H Gs) as [sb [Es [Lsb Ks]]]. destruct (lon_bounds_ok P t H Gt) as [tb [Et [Ltb Kt]]]. rewrite Es, Et. cbn [bind].
  set (dz := (0%Qc, 0%Qc)). set (v := fun i j => lon_overlap P (nth i tb dz) (nth j sb dz)).
  assert (C : forall i j, i < length t -> j < length s -> circle_common P (lon_lower P t i) (lon_upper P t i) (lon_lower P s j) (lon_upper P s j) (v i j)).
  { intros i j I J. unfold v. destruct (Kt i I) as [kt [Et' [t0 t1]]]. destruct (Ks j J) as [ks [Es' [s0 s1]]]. rewrite (nth_error_nth _ _ _ Et'), (nth_error_nth _ _ _ Es').
    destruct (lon_cell P t i Gt I) as [ta [tb' [tc td]]]. destruct (lon_cell P s j Gs J) as [sa [sb' [sc sd]]]. specialize (N i j I J). unfold lon_width in N.
    assert (Hp : (0 < P / qz 2)%Qc) by (apply Qcmul_pos; auto; reflexivity). pose proof (twice_half P) as T. pose proof (twice_half (P / qz 2)%Qc) as T2.
    set (x := nth i t 0%Qc) in *. set (y := nth j s 0%Qc) in *. set (zt := (qz kt * P)%Qc) in *. set (zs := (qz ks * P)%Qc) in *. set (q := (P / qz 2 / qz 2)%Qc) in *.
    set (a := lon_lower P t i) in *. set (b := lon_upper P t i) in *. set (c := lon_lower P s j) in *. set (d := lon_upper P s j) in *. set (h := (P / qz 2)%Qc) in *.
    assert (ab : (a < b)%Qc) by (apply Qclt_trans with x; auto). assert (cd : (c < d)%Qc) by (apply Qclt_trans with y; auto).
    unfold zt, zs. apply overlap_circle; auto; fold zt zs h; clearbody x y zt zs q a b c d h; clear - t0 t1 s0 s1 ta tb' tc td sa sb' sc sd Hp T T2; qclra. }
  eexists. exists v. split; [reflexivity|]. split; [|split; [exact C|]].
  - rewrite <- Ltb. apply shaped_map. intros c _. rewrite normalize_length, map_length. auto.
  - intros i j I J. unfold entry. destruct (Kt i I) as [kt [Et' _]]. destruct (Ks j J) as [ks [Es' _]]. rewrite (map_nth_error _ _ _ Et').
    rewrite (normalize_nth _ j _ (map_nth_error _ _ _ Es')). rewrite map_length, Lsb.
    assert (E : qsum (map (lon_overlap P ((lon_lower P t i + qz kt * P)%Qc, (lon_upper P t i + qz kt * P)%Qc)) sb) = lon_width P t i).
    { rewrite qsum_nth, map_length, Lsb. unfold lon_width. rewrite <- (circle_total P s _ _ (v i) H Gs); auto.
      - apply sum_ext. intros k K. unfold v. rewrite (nth_error_nth _ _ _ Et'). destruct (Ks k K) as [kk [Ek _]]. rewrite (nth_error_nth _ _ _ Ek). erewrite nth_error_nth; [reflexivity|]. apply map_nth_error. auto.
      - apply Qclt_le_weak, lon_width_pos; auto. }
    rewrite E. unfold v. rewrite (nth_error_nth _ _ _ Et'), (nth_error_nth _ _ _ Es'). reflexivity.
Qed.
Lemma lon_overlap_nonneg P t s : (0 <= lon_overlap P t s)%Qc.
Proof. destruct t, s. rewrite lon_overlap_common. apply common_nonneg. Qed.
Lemma longitude_rows P s t W : conservative_longitude_weights P s t = Some (Some W) -> forall r, In r W -> length r = length s /\ qsum r = 1%Qc /\ forall w, In w r -> (0 <= w)%Qc.
Proof.
  unfold conservative_longitude_weights. intros E r I. destruct (empty s) eqn:Es; [discriminate|]. destruct (empty t); [discriminate|]. cbn [orb] in E. destruct (is_strictly_increasing s && is_strictly_increasing t); [|discriminate]. cbn [negb] in E.
  destruct (lon_bounds P (map (reduce P) s)) as [sb|] eqn:Esb; [|discriminate]. destruct (lon_bounds P (map (reduce P) t)) as [tb|]; [|discriminate]. cbn [bind] in E. injection E as <-.
  apply in_map_iff in I. destruct I as [c [<- I]]. assert (L : length sb = length s). { unfold lon_bounds in Esb. apply mapM_length in Esb. rewrite seq_length, map_length in Esb. auto. }
  apply empty_ok in Es. split; [rewrite normalize_length, map_length; auto|]. split.
  - apply normalize_sum. intros X. apply (f_equal (@length Qc)) in X. rewrite map_length in X. simpl in X. lia.
  - apply normalize_nonneg. intros x Ix. apply in_map_iff in Ix. destruct Ix as [y [<- _]]. apply lon_overlap_nonneg.
Qed.
Lemma lon_conserve P s t (v : nat -> nat -> Qc) f : (0 < P)%Qc -> global P s -> global P t ->
  (forall i j, i < length t -> j < length s -> circle_common P (lon_lower P t i) (lon_upper P t i) (lon_lower P s j) (lon_upper P s j) (v i j)) ->
  (forall i, i < length t -> (tiny < lon_width P t i)%Qc) ->
  sum (length t) (fun i => (lon_width P t i * sum (length s) (fun j => (if Qcltb tiny (lon_width P t i) then v i j / lon_width P t i else 1 / qz (Z.of_nat (length s))) * f j))%Qc) = sum (length s) (fun j => (lon_width P s j * f j)%Qc).
Proof.
  intros H Gs Gt C Hw. rewrite (sum_ext _ _ (fun i => sum (length s) (fun j => (f j * v i j)%Qc))).
  - rewrite sum_swap. apply sum_ext. intros j J. rewrite sum_scale. rewrite (circle_total P t (lon_lower P s j) (lon_upper P s j) (fun i => v i j)); auto; [unfold lon_width; ring| |].
    + apply Qclt_le_weak, lon_width_pos; auto.
    + intros i I. apply circle_sym. auto.
  - intros i I. rewrite <- sum_scale. apply sum_ext. intros j J. specialize (Hw i I). destruct (Qcltb_spec tiny (lon_width P t i)); [|contradiction]. field. apply Qcpos_neq. apply Qclt_trans with tiny; auto. reflexivity.
Qed.
Lemma circle_self P a b v : (0 < P)%Qc -> (a <= b)%Qc -> circle_common P a b a b v -> (b - a <= v)%Qc.
Proof.
  intros H ab [K C]. rewrite (C K (le_n K)). set (g := fun k => common a b (a + qz (Z.of_nat k - Z.of_nat K) * P)%Qc (b + qz (Z.of_nat k - Z.of_nat K) * P)%Qc).
  assert (E : g K = (b - a)%Qc). { unfold g. replace (Z.of_nat K - Z.of_nat K)%Z with 0%Z by lia. rewrite qz_0. replace (a + 0 * P)%Qc with a by ring. replace (b + 0 * P)%Qc with b by ring. rewrite common_id, common_area_self; auto. }
  assert (X : (sum (2 * K + 1) (fun k => if Nat.eqb k K then (b - a)%Qc else 0%Qc) <= sum (2 * K + 1) g)%Qc).
  { apply sum_le. intros k _. destruct (Nat.eqb_spec k K) as [->|_]; [rewrite E; apply Qcle_refl|apply common_nonneg]. }
  rewrite (sum_pick _ K) in X; [rewrite Nat.eqb_refl in X; auto|lia|]. intros i _ N. destruct (Nat.eqb_spec i K); auto. contradiction.
Qed.
Lemma circle_nonneg P a b c d v : circle_common P a b c d v -> (0 <= v)%Qc.
Proof. intros [K C]. rewrite (C K (le_n K)). apply sum_nonneg. intros. apply common_nonneg. Qed.
Lemma lon_same P s (v : nat -> nat -> Qc) i j : (0 < P)%Qc -> global P s ->
  (forall i j, i < length s -> j < length s -> circle_common P (lon_lower P s i) (lon_upper P s i) (lon_lower P s j) (lon_upper P s j) (v i j)) -> i < length s -> j < length s ->
  v i j = if i =? j then lon_width P s i else 0%Qc.
Proof.
  intros H G C I J. pose proof (lon_width_pos P s i G I) as W. assert (T : sum (length s) (v i) = lon_width P s i) by (apply (circle_total P); auto; apply Qclt_le_weak; auto).
  assert (D : (lon_width P s i <= v i i)%Qc) by (apply circle_self with P; auto; apply Qclt_le_weak; auto).
  assert (NN : forall k, k < length s -> (0 <= v i k)%Qc) by (intros k Hk; exact (circle_nonneg _ _ _ _ _ _ (C i k I Hk))).
  assert (X : forall k, k < length s -> k <> i -> (v i i + v i k <= sum (length s) (v i))%Qc).
  { intros k K N. assert (Y : (sum (length s) (fun m => if Nat.eqb m i then v i i else 0%Qc) + sum (length s) (fun m => if Nat.eqb m k then v i k else 0%Qc) <= sum (length s) (v i))%Qc).
    { rewrite <- sum_add. apply sum_le. intros m M. destruct (Nat.eq_dec m i) as [->|A].
      - rewrite Nat.eqb_refl. destruct (Nat.eqb_spec i k); [congruence|]. rewrite Qcplus_0_r. apply Qcle_refl.
      - destruct (Nat.eqb_spec m i); [contradiction|]. destruct (Nat.eqb_spec m k) as [->|]; rewrite Qcplus_0_l; [apply Qcle_refl|auto]. }
    rewrite (sum_pick _ i) in Y; [|auto|intros m _ M; destruct (Nat.eqb_spec m i); auto; contradiction]. rewrite (sum_pick _ k) in Y; [|auto|intros m _ M; destruct (Nat.eqb_spec m k); auto; contradiction]. rewrite !Nat.eqb_refl in Y. auto. }
  assert (U : (v i i <= sum (length s) (v i))%Qc).
  { assert (Y : (sum (length s) (fun m => if Nat.eqb m i then v i i else 0%Qc) <= sum (length s) (v i))%Qc).
    { apply sum_le. intros m M. destruct (Nat.eqb_spec m i) as [->|]; [apply Qcle_refl|auto]. }
    rewrite (sum_pick _ i) in Y; [|auto|intros m _ M; destruct (Nat.eqb_spec m i); auto; contradiction]. rewrite !Nat.eqb_refl in Y. auto. }
  rewrite T in *. destruct (Nat.eqb_spec i j) as [<-|N]; [apply Qcle_antisym; auto|]. specialize (X j J). assert (j <> i) by auto. specialize (X H0). pose proof (NN j J). apply Qcle_antisym; auto. set (p := v i j) in *. set (q := v i i) in *. clearbody p q. clear - X D. qclra.
Qed.
