(** Scalar and gradient synthesis on the packed grid. *)
From Coq Require Import Reals List Arith Lia Lra Bool ZArith.
From Verif Require Import Base Buffer VH_Model VH_Proofs SH_Spec SH_Proofs RS_Model RS_Spec RS_Dft RS_Proofs1 RS_Proofs2.
Import ListNotations.
Local Open Scope R_scope.

Lemma series_ext N M c c' i : fst (c 0%nat) = fst (c' 0%nat) -> (forall m, (1 <= m <= Nat.min M (N / 2))%nat -> c m = c' m) ->
  series N M c i = series N M c' i.
Proof. intros H0 H. unfold series. rewrite H0. f_equal. apply sumR_ext. intros k Hk. cbv zeta. rewrite H by lia. reflexivity. Qed.

Lemma mlimit_bound T nlon : (2 * mlimit T nlon <= nlon)%nat.
Proof. unfold mlimit. pose proof (Nat.div_mod nlon 2). lia. Qed.

Lemma nth_mapd {A B} (h : A -> B) l m d d' : (m < length l)%nat -> nth m (map h l) d = h (nth m l d').
Proof. intros H. rewrite (nth_indep _ d (h d')) by (rewrite map_length; exact H). apply map_nth. Qed.

Lemma filled nlon T first cs row : (1 <= nlon)%nat -> (nlon <= length row)%nat -> length cs = mlimit T nlon ->
  exists row', fill_row nlon first cs row = Some row' /\ row_values backward nlon row' = map (series nlon T (half_c first cs)) (seq 0 nlon).
Proof.
  intros H1 H2 H3. destruct (fill_ok nlon first cs row H1 H2) as [row' (E & L & V)].
  { rewrite H3. apply mlimit_bound. }
  exists row'. split; [exact E|]. apply row_values_series; auto. lia.
Qed.

Lemma scalar_row_ok nlon T co row : (1 <= nlon)%nat -> (nlon <= length row)%nat -> length co = S (mlimit T nlon) ->
  exists row', scalar_row nlon co row = Some row' /\ row_values backward nlon row' = map (series nlon T (fun m => nth m co (0, 0))) (seq 0 nlon).
Proof.
  intros H1 H2 H3. destruct co as [|c0 cs]; [discriminate|]. cbn [scalar_row].
  destruct (filled nlon T (2 * fst c0) (map (fun c => (2 * fst c, 2 * snd c)) cs) row H1 H2) as [row' [E V]].
  { rewrite map_length. injection H3 as H3. exact H3. }
  exists row'. split; [exact E|]. rewrite V. apply map_ext_in. intros i _. apply series_ext.
  - cbn. lra.
  - intros m Hm. destruct m; [lia|]. cbn [half_c nth]. cbn [length] in H3. unfold mlimit in H3. unfold C in *.
    rewrite (nth_mapd _ _ _ _ (0, 0)) by lia. cbn [fst snd]. destruct (nth m cs (0, 0)) as [a b]. cbn [fst snd]. f_equal; lra.
Qed.

Local Open Scope nat_scope.
Lemma cleared_row_ok nlon T co row : 1 <= nlon -> nlon <= length row -> length co = S (mlimit T nlon) ->
  exists row', cleared_row nlon co row = Some row' /\ row_values backward nlon row' = map (series nlon T (fun m => nth m co (0, 0)%R)) (seq 0 nlon).
Proof.
  intros H1 H2 H3. unfold cleared_row, clear_row.
  pose (cs := @map C C (fun c : C => (2 * fst c, 2 * snd c)%R) (tl co)). set (first := (2 * fst (nth 0 co (0, 0)))%R).
  assert (Hcs : length cs = mlimit T nlon). { unfold cs. rewrite map_length. destruct co; [discriminate|]. cbn [length tl] in *. lia. }
  pose proof (mlimit_bound T nlon) as MB.
  destruct (writes_ok (fun _ => 0%R) (map (fun i => (i, 0%R)) (seq 1 nlon)) row) as [r0 (E0 & L0 & I0 & _)].
  { intros q v Hin. apply in_map_iff in Hin. destruct Hin as [i [Ei Hin]]. apply pair_equal_spec in Ei. destruct Ei as [<- <-]. apply in_seq in Hin. split; [lia|reflexivity]. }
  unfold writes in E0. rewrite foldM_map' in E0. cbn [fst snd] in E0. rewrite E0. cbn [bind].
  set (Wm := fun mc : nat * C => if fst mc =? 0 then (1, (2 * fst (snd mc))%R) :: nil else
       (2 * fst mc, (2 * fst (snd mc))%R) :: (if 2 * fst mc <? nlon then (2 * fst mc + 1, (2 * snd (snd mc))%R) :: nil else [])).
  rewrite (foldM_ext' _ (fun r x => writes (Wm x) r)).
  2:{ intros s x. unfold Wm, writes. destruct (fst x =? 0); cbn [foldM fst snd]; [destruct (wrx s _ _); reflexivity|].
      destruct (wrx s _ _) as [s1|]; cbn [bind]; [|reflexivity]. destruct (2 * fst x <? nlon); cbn [foldM fst snd]; [|reflexivity]. destruct (wrx s1 _ _); reflexivity. }
  rewrite writes_flat.
  assert (NC : forall m, 1 <= m <= mlimit T nlon -> nth (m - 1) cs (0, 0)%R = (2 * fst (nth m co (0, 0)), 2 * snd (nth m co (0, 0)))%R).
  { intros m Hm. unfold cs. destruct co as [|c0 co']; [discriminate|]. cbn [tl]. destruct m; [lia|]. replace (S m - 1) with m by lia. cbn [nth].
    cbn [length] in H3. unfold C in *. rewrite (nth_mapd _ _ _ _ (0, 0)%R) by lia. reflexivity. }
  destruct (writes_ok (row_target first cs) (flat_map Wm (combine (seq 0 (length co)) co)) r0) as [r' (E & L & I & O)].
  { intros q v Hin. apply in_flat_map in Hin. destruct Hin as [[m c] [Hm Hin]]. apply (in_combine_seq co (0, 0)%R) in Hm. destruct Hm as [Hm ->]. rewrite Nat.sub_0_r in Hin.
    unfold Wm in Hin. cbn [fst snd] in Hin. destruct (Nat.eqb_spec m 0) as [->|Hm0].
    - destruct Hin as [Hin|[]]. apply pair_equal_spec in Hin. destruct Hin as [<- <-]. split; [lia|reflexivity].
    - destruct Hin as [Hin|Hin].
      + apply pair_equal_spec in Hin. destruct Hin as [<- <-]. split; [lia|]. unfold row_target. rewrite even_double, half_double, NC by lia.
        destruct (Nat.eqb_spec (2 * m) 1); [lia|]. destruct (Nat.leb_spec m (length cs)); [reflexivity|lia].
      + destruct (Nat.ltb_spec (2 * m) nlon); [|contradiction]. destruct Hin as [Hin|[]]. apply pair_equal_spec in Hin. destruct Hin as [<- <-]. split; [lia|].
        unfold row_target. rewrite even_double_S, half_double_S, NC by lia. destruct (Nat.eqb_spec (2 * m + 1) 1); [lia|]. destruct (Nat.leb_spec m (length cs)); [reflexivity|lia]. }
  exists r'. split; [exact E|].
  rewrite (row_values_series nlon T first cs r'); auto; [|lia|].
  - apply map_ext_in. intros i _. apply series_ext.
    + unfold first. cbn. lra.
    + intros m Hm. destruct m; [lia|]. cbn [half_c]. pose proof (NC (S m)) as N1. replace (S m - 1) with m in N1 by lia. rewrite N1 by (unfold mlimit; lia).
      destruct (nth (S m) co (0, 0)%R) as [a b]. cbn [fst snd]. f_equal; lra.
  - intros q Hq. destruct (in_dec Nat.eq_dec q (map fst (flat_map Wm (combine (seq 0 (length co)) co)))) as [i|n]; [apply I; exact i|].
    rewrite O by exact n. rewrite I0 by (rewrite map_map; cbn [fst]; rewrite map_id; apply in_seq; lia). f_equal.
    symmetry. unfold row_target.
    assert (P : forall m, m < length co -> In (m, nth m co (0, 0)%R) (combine (seq 0 (length co)) co)).
    { intros m Hm. apply (in_combine_seq co (0, 0)%R). split; [lia|]. rewrite Nat.sub_0_r. reflexivity. }
    destruct (Nat.eqb_spec q 1) as [->|Hq1].
    + exfalso. apply n. apply in_map_iff. exists (1, (2 * fst (nth 0 co (0, 0)))%R). split; [reflexivity|]. apply in_flat_map.
      exists (0, nth 0 co (0, 0)%R). split; [apply P; lia|]. unfold Wm. cbn. left. reflexivity.
    + destruct (Nat.leb_spec (q / 2) (length cs)) as [X|X]; [|reflexivity]. exfalso. apply n.
      pose proof (Nat.div_mod q 2). pose proof (Nat.mod_upper_bound q 2).
      assert (Hm : 1 <= q / 2) by (apply Nat.div_le_lower_bound; lia).
      assert (B : q mod 2 = 0 \/ q mod 2 = 1) by lia. apply in_map_iff. destruct B as [B|B].
      * exists (2 * (q / 2), (2 * fst (nth (q / 2) co (0, 0)))%R). split; [cbn [fst]; lia|]. apply in_flat_map. exists (q / 2, nth (q / 2) co (0, 0)%R). split; [apply P; lia|].
        unfold Wm. cbn [fst snd]. destruct (Nat.eqb_spec (q / 2) 0); [lia|]. left. reflexivity.
      * exists (2 * (q / 2) + 1, (2 * snd (nth (q / 2) co (0, 0)))%R). split; [cbn [fst]; lia|]. apply in_flat_map. exists (q / 2, nth (q / 2) co (0, 0)%R). split; [apply P; lia|].
        unfold Wm. cbn [fst snd]. destruct (Nat.eqb_spec (q / 2) 0); [lia|]. right. destruct (Nat.ltb_spec (2 * (q / 2)) nlon); [left; reflexivity|lia].
Qed.

(** ** Common hypotheses *)
Record synthesis_ok (pl : list nat) (T : nat) (basis : list (list R)) (junk : nat -> list R) : Prop := {
  so_rows : forall j, 1 <= j <= length pl -> 1 <= row_len pl j;
  so_basis : sized (length pl) (tri T) basis;
  so_junk : forall j k, 1 <= k <= length pl -> row_len pl k <= length (junk j);
  so_parity : mirrored pl -> has_parity T (length pl) 1 basis }.

Lemma mapM_seq {A} (f : nat -> option A) (g : nat -> A) n : (forall m, m < n -> f m = Some (g m)) -> mapM f (seq 0 n) = Some (map g (seq 0 n)).
Proof.
  intros H. assert (G : forall l, (forall m, In m l -> m < n) -> mapM f l = Some (map g l)).
  { induction l as [|a l IH]; intros Hl; cbn; [reflexivity|]. rewrite H by (apply Hl; left; reflexivity). cbn. rewrite IH by (intros; apply Hl; right; assumption). reflexivity. }
  apply G. intros m Hm. apply in_seq in Hm. lia.
Qed.
Lemma nth_map_seq {A} (g : nat -> A) n m d : m < n -> nth m (map g (seq 0 n)) d = g m.
Proof. intros H. rewrite (nth_indep _ d (g 0)) by (rewrite map_length, seq_length; lia). rewrite map_nth, seq_nth by lia. reflexivity. Qed.
Lemma nth_map_seq' {A B} (h : A -> B) (g : nat -> A) n m d : m < n -> nth m (map h (map g (seq 0 n))) d = h (g m).
Proof. intros H. rewrite map_map. apply (nth_map_seq (fun x => h (g x))). exact H. Qed.

Lemma sized_row nlat len tab j : sized nlat len tab -> 1 <= j <= nlat -> rd tab j = Some (nth (j - 1) tab []) /\ length (nth (j - 1) tab []) = len.
Proof.
  intros [L H] Hj. split; [apply rd_row; lia|]. apply H. apply nth_In. lia.
Qed.

(** the sums over one row are [leg] *)
Lemma rowsum_leg T spec tab j m : (rowsum T spec (nth (j - 1) tab []) fst m (T + 1 - m), rowsum T spec (nth (j - 1) tab []) snd m (T + 1 - m)) = leg T spec tab j m.
Proof. reflexivity. Qed.
Lemma rowsum_s_leg T spec tab nlat sgn j m : (sgn = 1 \/ sgn = -1)%R -> has_parity T nlat sgn tab -> 1 <= j <= nlat -> m <= T ->
  ((sgn * rowsum_s T spec (nth (j - 1) tab []) fst m (T + 1 - m))%R, (sgn * rowsum_s T spec (nth (j - 1) tab []) snd m (T + 1 - m))%R) = leg T spec tab (nlat + 1 - j) m.
Proof.
  intros Hs HP Hj Hm. unfold leg, rowsum_s, over_n. rewrite <- !sumR_scal.
  f_equal; apply sumR_ext; intros k Hk; rewrite (HP j m (m + k)) by lia; replace (m + k - m) with k by lia; unfold coef, entry, C; ring.
Qed.

Section Scalar.
Variables (pl : list nat) (T : nat) (basis : list (list R)) (junk : nat -> list R).
Hypothesis OK : synthesis_ok pl T basis junk.

Definition scalar_values (spec : list C) (j : nat) : list R := map (series (row_len pl j) T (leg T spec basis j)) (seq 0 (row_len pl j)).

Lemma mlim_T nlon m : m < S (mlimit T nlon) -> m <= T.
Proof. unfold mlimit. lia. Qed.

Lemma scalar_row_leg spec j co row : 1 <= j <= length pl -> (forall k, 1 <= k <= length pl -> row_len pl k <= length row) ->
  co = map (leg T spec basis j) (seq 0 (S (mlimit T (row_len pl j)))) ->
  exists row', scalar_row (row_len pl j) co row = Some row' /\ row_values backward (row_len pl j) row' = scalar_values spec j.
Proof.
  intros Hj Hr ->. destruct (scalar_row_ok (row_len pl j) T (map (leg T spec basis j) (seq 0 (S (mlimit T (row_len pl j))))) row) as [r [E V]].
  - apply (so_rows _ _ _ _ OK). assumption.
  - apply Hr. assumption.
  - rewrite map_length, seq_length. reflexivity.
  - exists r. split; [exact E|]. rewrite V. apply map_ext_in. intros i _. apply series_ext.
    + rewrite nth_map_seq by lia. reflexivity.
    + intros m Hm. apply nth_map_seq. unfold mlimit. lia.
Qed.

Lemma single_values spec j : length spec = tri T -> 1 <= j <= length pl -> spectogrd_single backward junk pl T spec basis j = Some (scalar_values spec j).
Proof.
  intros Hspec Hj. unfold spectogrd_single. rewrite pl_rd by assumption. cbn [bind].
  destruct (sized_row _ _ _ j (so_basis _ _ _ _ OK) Hj) as [E L]. rewrite E. cbn [bind].
  rewrite (mapM_seq _ (leg T spec basis j)).
  2:{ intros m Hm. apply mlim_T in Hm. rewrite direct_sum_ok by assumption. reflexivity. }
  cbn [bind]. destruct (scalar_row_leg spec j _ (junk j) Hj (so_junk _ _ _ _ OK j) eq_refl) as [r [E2 V]]. rewrite E2. cbn [bind]. rewrite V. reflexivity.
Qed.

Lemma paired_values spec : length spec = tri T -> mirrored pl -> forall j, 1 <= j <= length pl / 2 ->
  spectogrd_paired backward junk pl T spec basis j = Some (scalar_values spec j, scalar_values spec (length pl + 1 - j)).
Proof.
  intros Hspec HM j Hj. assert (length pl / 2 <= length pl) by (apply Nat.div_le_upper_bound; lia).
  unfold spectogrd_paired. rewrite pl_rd by lia. cbn [bind].
  destruct (sized_row _ _ _ j (so_basis _ _ _ _ OK) ltac:(lia)) as [E L]. rewrite E. cbn [bind].
  rewrite (mapM_seq _ (fun m => (leg T spec basis j m, leg T spec basis (length pl + 1 - j) m))).
  2:{ intros m Hm. apply mlim_T in Hm. rewrite pair_sum_ok by assumption. rewrite rowsum_leg.
      rewrite <- (rowsum_s_leg T spec basis (length pl) 1%R j m) by (auto; try lia; apply (so_parity _ _ _ _ OK HM)). rewrite !Rmult_1_l. reflexivity. }
  cbn [bind]. rewrite !map_map. cbn [fst snd].
  destruct (scalar_row_leg spec j (map (leg T spec basis j) (seq 0 (S (mlimit T (row_len pl j))))) (junk j) ltac:(lia) (so_junk _ _ _ _ OK j) eq_refl) as [r [E2 V]].
  change (map (fun x => leg T spec basis j x) ?l) with (map (leg T spec basis j) l). rewrite E2. cbn [bind].
  destruct (scalar_row_leg spec (length pl + 1 - j) (map (leg T spec basis (length pl + 1 - j)) (seq 0 (S (mlimit T (row_len pl j))))) (junk (length pl - j + 1)) ltac:(lia) (so_junk _ _ _ _ OK _)) as [r2 [E3 V2]].
  { rewrite <- HM by lia. reflexivity. }
  rewrite <- (HM j) in E3, V2 by lia. change (map (fun x => leg T spec basis (length pl + 1 - j) x) ?l) with (map (leg T spec basis (length pl + 1 - j)) l).
  rewrite E3. cbn [bind]. rewrite V, V2. reflexivity.
Qed.

Lemma scalar_values_length spec j : length (scalar_values spec j) = row_len pl j.
Proof. unfold scalar_values. rewrite map_length, seq_length. reflexivity. Qed.
Lemma scalar_values_nth spec j i : i < row_len pl j -> nth i (scalar_values spec j) 0%R = series (row_len pl j) T (leg T spec basis j) i.
Proof. intros H. unfold scalar_values. apply nth_map_seq. exact H. Qed.

Definition synthesised (spec : list C) (g : list R) : Prop :=
  length g = list_sum pl /\
  forall j i, 1 <= j <= length pl -> i < row_len pl j -> point pl g j i = series (row_len pl j) T (leg T spec basis j) i.
Lemma rows_set_synth spec g : rows_set pl (fun j i => series (row_len pl j) T (leg T spec basis j) i) g (fun k => 1 <= k <= length pl) -> synthesised spec g.
Proof. intros [L P]. split; [exact L|]. intros j i Hj Hi. apply P; assumption. Qed.

Theorem spectogrd_ok spec out : length spec = tri T -> length out = list_sum pl ->
  exists g, spectogrd backward junk pl T spec basis out = Some g /\ synthesised spec g.
Proof.
  intros Hspec Hout. unfold spectogrd.
  destruct (drive_ok put (spectogrd_single backward junk pl T spec basis) (spectogrd_paired backward junk pl T spec basis) pl (scalar_values spec)
     (rows_set pl (fun j i => series (row_len pl j) T (leg T spec basis j) i))) with (out := out) as [g [E I]].
  - intros j Hj. apply single_values; assumption.
  - intros HM j Hj. apply paired_values; assumption.
  - intros s D j Hj HI. apply rows_set_put; auto using scalar_values_length. intros i Hi. apply scalar_values_nth. exact Hi.
  - intros s D D' HD. apply rows_set_mono. exact HD.
  - split; [exact Hout|]. intros j i [].
  - exists g. split; [exact E|]. apply rows_set_synth. exact I.
Qed.

(** ** Two spectra *)
Variable junk2 : nat -> list R.
Hypothesis Hjunk2 : forall j k, 1 <= k <= length pl -> row_len pl k <= length (junk2 j).

Lemma direct_sum2_ok speca specb prow m : length speca = tri T -> length specb = tri T -> length prow = tri T -> m <= T ->
  direct_sum2 T speca specb prow m =
    Some ((rowsum T speca prow fst m (T + 1 - m), rowsum T speca prow snd m (T + 1 - m)), (rowsum T specb prow fst m (T + 1 - m), rowsum T specb prow snd m (T + 1 - m))).
Proof.
  intros Ha Hb Hp Hm. unfold direct_sum2.
  pose proof (direct_run (direct_step2 speca specb prow) (fun k => ((rowsum T speca prow fst m k, rowsum T speca prow snd m k), (rowsum T specb prow fst m k, rowsum T specb prow snd m k))) (spectral_offset m T) (T + 1 - m)) as D.
  cbv beta in D. change (rowsum T speca prow fst m 0) with 0%R in D. change (rowsum T speca prow snd m 0) with 0%R in D.
  change (rowsum T specb prow fst m 0) with 0%R in D. change (rowsum T specb prow snd m 0) with 0%R in D.
  match goal with |- bind ?x _ = _ => replace x with (Some (spectral_offset m T + (T + 1 - m), ((rowsum T speca prow fst m (T + 1 - m), rowsum T speca prow snd m (T + 1 - m)), (rowsum T specb prow fst m (T + 1 - m), rowsum T specb prow snd m (T + 1 - m))))); [reflexivity|] end.
  symmetry. apply D. intros k i Hk. unfold direct_step2. cbn [fst snd]. rewrite (read_at T prow 0%R) by (auto; lia). cbn [bind].
  rewrite (read_at T speca (0, 0)%R), (read_at T specb (0, 0)%R) by (auto; lia). cbn [bind]. rewrite Nat.add_succ_r. reflexivity.
Qed.
Lemma pair_sum2_ok speca specb prow m : length speca = tri T -> length specb = tri T -> length prow = tri T -> m <= T ->
  pair_sum2 T speca specb prow m =
    Some (((rowsum T speca prow fst m (T + 1 - m), rowsum T speca prow snd m (T + 1 - m)), (rowsum T specb prow fst m (T + 1 - m), rowsum T specb prow snd m (T + 1 - m))),
          ((rowsum_s T speca prow fst m (T + 1 - m), rowsum_s T speca prow snd m (T + 1 - m)), (rowsum_s T specb prow fst m (T + 1 - m), rowsum_s T specb prow snd m (T + 1 - m)))).
Proof.
  intros Ha Hb Hp Hm. unfold pair_sum2.
  pose proof (pair_run (pair_term2 speca specb prow) (fun k => (((rowsum T speca prow fst m k, rowsum T speca prow snd m k), (rowsum T specb prow fst m k, rowsum T specb prow snd m k)), ((rowsum_s T speca prow fst m k, rowsum_s T speca prow snd m k), (rowsum_s T specb prow fst m k, rowsum_s T specb prow snd m k)))) (spectral_offset m T) (T - m)) as D.
  cbv beta in D. refine (eq_trans (D _) _); clear D.
  2:{ replace (T - m + 1) with (T + 1 - m) by lia. reflexivity. }
  intros k Hk. unfold pair_term2. cbn [fst snd]. rewrite (read_at T prow 0%R) by (auto; lia). cbn [bind].
  rewrite (read_at T speca (0, 0)%R), (read_at T specb (0, 0)%R) by (auto; lia). cbn [bind]. rewrite Nat.add_succ_r. reflexivity.
Qed.

Lemma cleared_row_leg spec j row : 1 <= j <= length pl -> (forall k, 1 <= k <= length pl -> row_len pl k <= length row) ->
  exists row', cleared_row (row_len pl j) (map (leg T spec basis j) (seq 0 (S (mlimit T (row_len pl j))))) row = Some row' /\ row_values backward (row_len pl j) row' = scalar_values spec j.
Proof.
  intros Hj Hr. destruct (cleared_row_ok (row_len pl j) T (map (leg T spec basis j) (seq 0 (S (mlimit T (row_len pl j))))) row) as [r [E V]].
  - apply (so_rows _ _ _ _ OK). assumption.
  - apply Hr. assumption.
  - rewrite map_length, seq_length. reflexivity.
  - exists r. split; [exact E|]. rewrite V. apply map_ext_in. intros i _. apply series_ext.
    + rewrite nth_map_seq by lia. reflexivity.
    + intros m Hm. apply nth_map_seq. unfold mlimit. lia.
Qed.

Lemma pair_single_values speca specb j : length speca = tri T -> length specb = tri T -> 1 <= j <= length pl ->
  spectogrd_pair_single backward junk junk2 pl T speca specb basis j = Some (scalar_values speca j, scalar_values specb j).
Proof.
  intros Ha Hb Hj. unfold spectogrd_pair_single. rewrite pl_rd by assumption. cbn [bind].
  destruct (sized_row _ _ _ j (so_basis _ _ _ _ OK) Hj) as [E L]. rewrite E. cbn [bind].
  rewrite (mapM_seq _ (fun m => (leg T speca basis j m, leg T specb basis j m))).
  2:{ intros m Hm. apply mlim_T in Hm. rewrite direct_sum2_ok by assumption. reflexivity. }
  cbn [bind]. rewrite !map_map. cbn [fst snd].
  destruct (cleared_row_leg speca j (junk j) Hj (so_junk _ _ _ _ OK j)) as [r [E2 V]].
  destruct (cleared_row_leg specb j (junk2 j) Hj (Hjunk2 j)) as [r2 [E3 V2]].
  change (map (fun x => leg T speca basis j x) ?l) with (map (leg T speca basis j) l). rewrite E2. cbn [bind].
  change (map (fun x => leg T specb basis j x) ?l) with (map (leg T specb basis j) l). rewrite E3. cbn [bind]. rewrite V, V2. reflexivity.
Qed.

Lemma scalar_row_mirror spec j row : mirrored pl -> 1 <= j <= length pl -> (forall k, 1 <= k <= length pl -> row_len pl k <= length row) ->
  exists row', scalar_row (row_len pl j) (map (leg T spec basis (length pl + 1 - j)) (seq 0 (S (mlimit T (row_len pl j))))) row = Some row' /\
    row_values backward (row_len pl j) row' = scalar_values spec (length pl + 1 - j).
Proof.
  intros HM Hj Hr. rewrite (HM j Hj). apply scalar_row_leg; [lia|assumption|reflexivity].
Qed.

Lemma pair_paired_values speca specb : length speca = tri T -> length specb = tri T -> mirrored pl -> forall j, 1 <= j <= length pl / 2 ->
  spectogrd_pair_paired backward junk junk2 pl T speca specb basis j =
    Some ((scalar_values speca j, scalar_values specb j), (scalar_values speca (length pl + 1 - j), scalar_values specb (length pl + 1 - j))).
Proof.
  intros Ha Hb HM j Hj. assert (length pl / 2 <= length pl) by (apply Nat.div_le_upper_bound; lia).
  unfold spectogrd_pair_paired. rewrite pl_rd by lia. cbn [bind].
  destruct (sized_row _ _ _ j (so_basis _ _ _ _ OK) ltac:(lia)) as [E L]. rewrite E. cbn [bind].
  rewrite (mapM_seq _ (fun m => ((leg T speca basis j m, leg T specb basis j m), (leg T speca basis (length pl + 1 - j) m, leg T specb basis (length pl + 1 - j) m)))).
  2:{ intros m Hm. apply mlim_T in Hm. rewrite pair_sum2_ok by assumption. rewrite !rowsum_leg.
      rewrite <- (rowsum_s_leg T speca basis (length pl) 1%R j m), <- (rowsum_s_leg T specb basis (length pl) 1%R j m) by (auto; try lia; apply (so_parity _ _ _ _ OK HM)). rewrite !Rmult_1_l. reflexivity. }
  cbn [bind]. rewrite !map_map. cbn [fst snd].
  destruct (scalar_row_leg speca j _ (junk j) ltac:(lia) (so_junk _ _ _ _ OK j) eq_refl) as [r1 [E1 V1]].
  destruct (scalar_row_leg specb j _ (junk2 j) ltac:(lia) (Hjunk2 j) eq_refl) as [r2 [E2 V2]].
  destruct (scalar_row_mirror speca j (junk (length pl - j + 1)) HM ltac:(lia) (so_junk _ _ _ _ OK _)) as [r3 [E3 V3]].
  destruct (scalar_row_mirror specb j (junk2 (length pl - j + 1)) HM ltac:(lia) (Hjunk2 _)) as [r4 [E4 V4]].
  change (map (fun x => leg T speca basis j x) ?l) with (map (leg T speca basis j) l). rewrite E1. cbn [bind].
  change (map (fun x => leg T specb basis j x) ?l) with (map (leg T specb basis j) l). rewrite E2. cbn [bind].
  change (map (fun x => leg T speca basis (length pl + 1 - j) x) ?l) with (map (leg T speca basis (length pl + 1 - j)) l). rewrite E3. cbn [bind].
  change (map (fun x => leg T specb basis (length pl + 1 - j) x) ?l) with (map (leg T specb basis (length pl + 1 - j)) l). rewrite E4. cbn [bind]. rewrite V1, V2, V3, V4. reflexivity.
Qed.

Theorem spectogrd_pair_ok speca specb out : length speca = tri T -> length specb = tri T ->
  length (fst out) = list_sum pl -> length (snd out) = list_sum pl ->
  exists g, spectogrd_pair backward junk junk2 pl T speca specb basis out = Some g /\ synthesised speca (fst g) /\ synthesised specb (snd g).
Proof.
  intros Ha Hb Ho1 Ho2. unfold spectogrd_pair.
  set (fa := fun j i => series (row_len pl j) T (leg T speca basis j) i). set (fb := fun j i => series (row_len pl j) T (leg T specb basis j) i).
  destruct (drive_ok put2 (spectogrd_pair_single backward junk junk2 pl T speca specb basis) (spectogrd_pair_paired backward junk junk2 pl T speca specb basis) pl
     (fun j => (scalar_values speca j, scalar_values specb j)) (fun s D => rows_set pl fa (fst s) D /\ rows_set pl fb (snd s) D)) with (out := out) as [g [E [I1 I2]]].
  - intros j Hj. apply pair_single_values; assumption.
  - intros HM j Hj. apply pair_paired_values; assumption.
  - intros [s1 s2] D j Hj [HI1 HI2]. unfold put2. cbn [fst snd] in *.
    destruct (rows_set_put pl fa s1 D j (scalar_values speca j) Hj (scalar_values_length _ _) (scalar_values_nth speca j) HI1) as [g1 [E1 I1]].
    destruct (rows_set_put pl fb s2 D j (scalar_values specb j) Hj (scalar_values_length _ _) (scalar_values_nth specb j) HI2) as [g2 [E2 I2]].
    exists (g1, g2). rewrite E1. cbn [bind]. rewrite E2. cbn [bind fst snd]. auto.
  - intros s D D' HD [H1 H2]. split; eapply rows_set_mono; eauto.
  - split; (split; [assumption|intros j i []]).
  - exists g. split; [exact E|]. split; apply rows_set_synth; assumption.
Qed.
End Scalar.
