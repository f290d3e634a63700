(** Gradient synthesis on the packed grid. *)
From Coq Require Import Reals List Arith Lia Lra Bool ZArith.
From Verif Require Import Base Buffer VH_Model VH_Proofs SH_Spec SH_Proofs RS_Model RS_Spec RS_Dft RS_Proofs1 RS_Proofs2 RS_Proofs3.
Import ListNotations.
Local Open Scope R_scope.

Lemma grad_rows_ok nlon T r s co ru rv : r <> 0 -> s <> 0 -> (1 <= nlon)%nat -> (nlon <= length ru)%nat -> (nlon <= length rv)%nat -> length co = S (mlimit T nlon) ->
  grad_rows backward nlon (1 / r) s co ru rv =
    Some (map (series nlon T (fun m => east r s m (fst (nth m co ((0, 0), (0, 0)))))) (seq 0 nlon),
          map (series nlon T (fun m => north r (snd (nth m co ((0, 0), (0, 0)))))) (seq 0 nlon)).
Proof.
  intros Hr Hs H1 H2 H3 H4. destruct co as [|c0 cs]; [discriminate|]. cbn [grad_rows]. injection H4 as H4.
  destruct (filled nlon T 0 (map (fun mc => u_entry (1 / r) s (fst mc) (snd mc)) (combine (seq 1 (length cs)) cs)) ru H1 H2) as [u [Eu Vu]].
  { rewrite map_length, combine_length, seq_length, Nat.min_id. exact H4. }
  destruct (filled nlon T (2 * (- fst (snd c0) * (1 / r))) (map (v_entry (1 / r)) cs) rv H1 H3) as [v [Ev Vv]].
  { rewrite map_length. exact H4. }
  rewrite Eu. cbn [bind]. rewrite Ev. cbn [bind]. rewrite Vu, Vv. unfold mlimit in H4. f_equal. f_equal.
  - apply map_ext_in. intros i _. apply series_ext.
    + cbn. unfold Rdiv. ring.
    + intros m Hm. destruct m; [lia|]. cbn [half_c].
      rewrite (nth_mapd _ _ _ _ (0%nat, ((0, 0), (0, 0)))) by (rewrite combine_length, seq_length; lia).
      rewrite combine_nth by (rewrite seq_length; reflexivity). rewrite seq_nth by lia. cbn [fst snd]. cbn [nth].
      unfold u_entry, east. cbn [fst snd]. unfold C. replace (1 + m)%nat with (S m) by lia. f_equal; field; auto.
  - apply map_ext_in. intros i _. apply series_ext.
    + cbn. unfold Rdiv. lra.
    + intros m Hm. destruct m; [lia|]. cbn [half_c]. rewrite (nth_mapd _ _ _ _ ((0, 0), (0, 0))) by (unfold C in *; lia). cbn [nth].
      unfold v_entry, north. cbn [fst snd]. unfold C. f_equal; field; auto.
Qed.

(** the mirror sums of the derivative terms *)
Fixpoint rowsum_m (T : nat) (spec : list C) (tab : list R) (pick : C -> R) (m k : nat) : R :=
  match k with O => 0 | S i => rowsum_m T spec tab pick m i - (-1) ^ i * (pick (nth (index T m (m + i)) spec (0, 0)) * nth (index T m (m + i)) tab 0) end.
Lemma rowsum_m_s T spec tab pick m k : rowsum_m T spec tab pick m k = -1 * rowsum_s T spec tab pick m k.
Proof. induction k; [unfold rowsum_s; cbn; ring|]. cbn [rowsum_m]. rewrite IHk. unfold rowsum_s. cbn [sumR]. ring. Qed.

Section Sums.
Variables (T : nat) (prow drow : list R).
Hypothesis Hp : length prow = tri T.
Hypothesis Hd : length drow = tri T.

Definition sums (spec : list C) (m k : nat) : C * C :=
  ((rowsum T spec prow fst m k, rowsum T spec prow snd m k), (rowsum T spec drow fst m k, rowsum T spec drow snd m k)).
Definition sums_s (spec : list C) (m k : nat) : C * C :=
  ((rowsum_s T spec prow fst m k, rowsum_s T spec prow snd m k), (rowsum_m T spec drow fst m k, rowsum_m T spec drow snd m k)).

Lemma upd_sums spec m k : grad_upd (nth (index T m (m + k)) spec (0, 0)) (nth (index T m (m + k)) prow 0) (nth (index T m (m + k)) drow 0) (sums spec m k) = sums spec m (S k).
Proof. reflexivity. Qed.
Lemma upd2_sums spec m k : grad_upd2 ((-1) ^ k) (nth (index T m (m + k)) spec (0, 0)) (nth (index T m (m + k)) prow 0) (nth (index T m (m + k)) drow 0) (sums spec m k, sums_s spec m k)
  = (sums spec m (S k), sums_s spec m (S k)).
Proof. reflexivity. Qed.

Lemma grad_sum_ok spec m : length spec = tri T -> (m <= T)%nat -> grad_sum T spec prow drow m = Some (sums spec m (T + 1 - m)).
Proof.
  intros Hs Hm. unfold grad_sum.
  pose proof (direct_run (grad_step spec prow drow) (fun k => sums spec m k) (spectral_offset m T) (T + 1 - m)) as D. cbv beta in D.
  assert (E : foldM (grad_step spec prow drow) (seq m (T + 1 - m)) (spectral_offset m T, sums spec m 0) = Some ((spectral_offset m T + (T + 1 - m))%nat, sums spec m (T + 1 - m))).
  { apply D. intros k i Hk. unfold grad_step. cbn [fst snd]. rewrite (read_at T spec (0, 0)) by (auto; lia). cbn [bind].
    rewrite (read_at T prow 0), (read_at T drow 0) by (auto; lia). cbn [bind]. rewrite Nat.add_succ_r. reflexivity. }
  refine (eq_trans (f_equal (fun x => bind x _) E) _). reflexivity.
Qed.
Lemma grad_pair_sum_ok spec m : length spec = tri T -> (m <= T)%nat -> grad_pair_sum T spec prow drow m = Some (sums spec m (T + 1 - m), sums_s spec m (T + 1 - m)).
Proof.
  intros Hs Hm. unfold grad_pair_sum.
  pose proof (pair_run (grad_term2 spec prow drow) (fun k => (sums spec m k, sums_s spec m k)) (spectral_offset m T) (T - m)) as D. cbv beta in D.
  refine (eq_trans (D _) _); clear D.
  2:{ replace (T - m + 1)%nat with (T + 1 - m)%nat by lia. reflexivity. }
  intros k Hk. unfold grad_term2. cbn [fst snd]. rewrite (read_at T spec (0, 0)) by (auto; lia). cbn [bind].
  rewrite (read_at T prow 0), (read_at T drow 0) by (auto; lia). cbn [bind]. rewrite upd2_sums, Nat.add_succ_r. reflexivity.
Qed.
Lemma grad_sum4_ok sa sb m : length sa = tri T -> length sb = tri T -> (m <= T)%nat -> grad_sum4 T sa sb prow drow m = Some (sums sa m (T + 1 - m), sums sb m (T + 1 - m)).
Proof.
  intros Ha Hb Hm. unfold grad_sum4.
  pose proof (direct_run (grad_step4 sa sb prow drow) (fun k => (sums sa m k, sums sb m k)) (spectral_offset m T) (T + 1 - m)) as D. cbv beta in D.
  assert (E : foldM (grad_step4 sa sb prow drow) (seq m (T + 1 - m)) (spectral_offset m T, (sums sa m 0, sums sb m 0)) = Some ((spectral_offset m T + (T + 1 - m))%nat, (sums sa m (T + 1 - m), sums sb m (T + 1 - m)))).
  { apply D. intros k i Hk. unfold grad_step4. cbn [fst snd]. rewrite (read_at T sa (0, 0)), (read_at T sb (0, 0)) by (auto; lia). cbn [bind].
    rewrite (read_at T prow 0), (read_at T drow 0) by (auto; lia). cbn [bind]. rewrite Nat.add_succ_r. reflexivity. }
  refine (eq_trans (f_equal (fun x => bind x _) E) _). reflexivity.
Qed.
Lemma grad_pair_sum4_ok sa sb m : length sa = tri T -> length sb = tri T -> (m <= T)%nat ->
  grad_pair_sum4 T sa sb prow drow m = Some ((sums sa m (T + 1 - m), sums_s sa m (T + 1 - m)), (sums sb m (T + 1 - m), sums_s sb m (T + 1 - m))).
Proof.
  intros Ha Hb Hm. unfold grad_pair_sum4.
  pose proof (pair_run (grad_term4 sa sb prow drow) (fun k => ((sums sa m k, sums_s sa m k), (sums sb m k, sums_s sb m k))) (spectral_offset m T) (T - m)) as D. cbv beta in D.
  refine (eq_trans (D _) _); clear D.
  2:{ replace (T - m + 1)%nat with (T + 1 - m)%nat by lia. reflexivity. }
  intros k Hk. unfold grad_term4. cbn [fst snd]. rewrite (read_at T sa (0, 0)), (read_at T sb (0, 0)) by (auto; lia). cbn [bind].
  rewrite (read_at T prow 0), (read_at T drow 0) by (auto; lia). cbn [bind]. rewrite !upd2_sums, Nat.add_succ_r. reflexivity.
Qed.
End Sums.

Local Open Scope nat_scope.
(** ** Hypotheses of the gradient routines *)
Record gradient_ok (pl : list nat) (T : nat) (basis dbasis : list (list R)) (sin_theta : list R) (r : R) : Prop := {
  go_rows : forall j, 1 <= j <= length pl -> 1 <= row_len pl j;
  go_basis : sized (length pl) (tri T) basis;
  go_dbasis : sized (length pl) (tri T) dbasis;
  go_sin : length sin_theta = length pl;
  go_sin0 : forall j, 1 <= j <= length pl -> row_value sin_theta j <> 0%R;
  go_r : r <> 0%R;
  go_parity : mirrored pl -> has_parity T (length pl) 1 basis;
  go_dparity : mirrored pl -> has_parity T (length pl) (-1) dbasis;
  go_sym : mirrored pl -> even_rows (length pl) sin_theta }.
Definition work_rows (pl : list nat) (junk : nat -> list R) : Prop := forall j k, 1 <= k <= length pl -> row_len pl k <= length (junk j).

Section Gradient.
Variables (pl : list nat) (T : nat) (basis dbasis : list (list R)) (sin_theta : list R) (r : R).
Variables (junk junk2 junk3 junk4 : nat -> list R).
Hypothesis OK : gradient_ok pl T basis dbasis sin_theta r.
Hypothesis J1 : work_rows pl junk.
Hypothesis J2 : work_rows pl junk2.
Hypothesis J3 : work_rows pl junk3.
Hypothesis J4 : work_rows pl junk4.

Definition u_coef (spec : list C) (j m : nat) : C := east r (row_value sin_theta j) m (leg T spec basis j m).
Definition v_coef (spec : list C) (j m : nat) : C := north r (leg T spec dbasis j m).
Definition u_values (spec : list C) (j : nat) : list R := map (series (row_len pl j) T (u_coef spec j)) (seq 0 (row_len pl j)).
Definition v_values (spec : list C) (j : nat) : list R := map (series (row_len pl j) T (v_coef spec j)) (seq 0 (row_len pl j)).

Lemma grad_row_values spec j ru rv co : 1 <= j <= length pl -> row_len pl j <= length ru -> row_len pl j <= length rv ->
  co = map (fun m => (leg T spec basis j m, leg T spec dbasis j m)) (seq 0 (S (mlimit T (row_len pl j)))) ->
  grad_rows backward (row_len pl j) (1 / r) (row_value sin_theta j) co ru rv = Some (u_values spec j, v_values spec j).
Proof.
  intros Hj H1 H2 ->. rewrite (grad_rows_ok _ T) by (auto; first [apply (go_r _ _ _ _ _ _ OK)|apply (go_sin0 _ _ _ _ _ _ OK); assumption|apply (go_rows _ _ _ _ _ _ OK); assumption|rewrite map_length, seq_length; reflexivity]).
  f_equal. f_equal; apply map_ext_in; intros i _; apply series_ext; try (rewrite nth_map_seq by lia; reflexivity);
  intros m Hm; rewrite nth_map_seq by (unfold mlimit; lia); reflexivity.
Qed.

Lemma sin_read j : 1 <= j <= length pl -> rd sin_theta j = Some (row_value sin_theta j).
Proof. intros H. unfold row_value. apply rd_row. rewrite (go_sin _ _ _ _ _ _ OK). assumption. Qed.

Lemma mlim_T' nlon m : m < S (mlimit T nlon) -> m <= T.
Proof. unfold mlimit. lia. Qed.

Lemma getgrad_single_ok spec j : length spec = tri T -> 1 <= j <= length pl ->
  getgrad_single backward junk junk2 pl T spec basis dbasis sin_theta r j = Some (u_values spec j, v_values spec j).
Proof.
  intros Hspec Hj. unfold getgrad_single. rewrite pl_rd by assumption. cbn [bind].
  destruct (sized_row _ _ _ j (go_basis _ _ _ _ _ _ OK) Hj) as [E L]. rewrite E. cbn [bind].
  destruct (sized_row _ _ _ j (go_dbasis _ _ _ _ _ _ OK) Hj) as [E2 L2]. rewrite E2. cbn [bind]. rewrite sin_read by assumption. cbn [bind].
  rewrite (mapM_seq _ (fun m => (leg T spec basis j m, leg T spec dbasis j m))).
  2:{ intros m Hm. apply mlim_T' in Hm. rewrite grad_sum_ok by assumption. reflexivity. }
  cbn [bind]. apply grad_row_values; auto.
Qed.

Lemma sums_s_leg spec j m : mirrored pl -> 1 <= j <= length pl -> m <= T ->
  sums_s T (nth (j - 1) basis []) (nth (j - 1) dbasis []) spec m (T + 1 - m) = (leg T spec basis (length pl + 1 - j) m, leg T spec dbasis (length pl + 1 - j) m).
Proof.
  intros HM Hj Hm. unfold sums_s. rewrite !rowsum_m_s.
  rewrite <- (rowsum_s_leg T spec basis (length pl) 1%R j m), <- (rowsum_s_leg T spec dbasis (length pl) (-1)%R j m) by (auto; first [apply (go_parity _ _ _ _ _ _ OK HM)|apply (go_dparity _ _ _ _ _ _ OK HM)]).
  rewrite !Rmult_1_l. reflexivity.
Qed.

Lemma mirror_rows spec j ru rv : mirrored pl -> 1 <= j <= length pl -> row_len pl (length pl + 1 - j) <= length ru -> row_len pl (length pl + 1 - j) <= length rv ->
  grad_rows backward (row_len pl j) (1 / r) (row_value sin_theta j) (map (fun m => (leg T spec basis (length pl + 1 - j) m, leg T spec dbasis (length pl + 1 - j) m)) (seq 0 (S (mlimit T (row_len pl j))))) ru rv
   = Some (u_values spec (length pl + 1 - j), v_values spec (length pl + 1 - j)).
Proof.
  intros HM Hj H1 H2. rewrite (HM j Hj). rewrite <- (go_sym _ _ _ _ _ _ OK HM j Hj). apply grad_row_values; auto. lia.
Qed.

Lemma getgrad_paired_ok spec : length spec = tri T -> mirrored pl -> forall j, 1 <= j <= length pl / 2 ->
  getgrad_paired backward junk junk2 pl T spec basis dbasis sin_theta r j = Some ((u_values spec j, v_values spec j), (u_values spec (length pl + 1 - j), v_values spec (length pl + 1 - j))).
Proof.
  intros Hspec HM j Hj. assert (length pl / 2 <= length pl) by (apply Nat.div_le_upper_bound; lia).
  unfold getgrad_paired. rewrite pl_rd by lia. cbn [bind].
  destruct (sized_row _ _ _ j (go_basis _ _ _ _ _ _ OK) ltac:(lia)) as [E L]. rewrite E. cbn [bind].
  destruct (sized_row _ _ _ j (go_dbasis _ _ _ _ _ _ OK) ltac:(lia)) as [E2 L2]. rewrite E2. cbn [bind]. rewrite sin_read by lia. cbn [bind].
  rewrite (mapM_seq _ (fun m => ((leg T spec basis j m, leg T spec dbasis j m), (leg T spec basis (length pl + 1 - j) m, leg T spec dbasis (length pl + 1 - j) m)))).
  2:{ intros m Hm. apply mlim_T' in Hm. rewrite grad_pair_sum_ok by assumption. rewrite sums_s_leg by (auto; lia). reflexivity. }
  cbn [bind]. rewrite !map_map. cbn [fst snd].
  rewrite (grad_row_values spec j (junk j) (junk2 j)) by (auto; try lia; first [apply J1|apply J2]; lia). cbn [bind].
  rewrite mirror_rows by (auto; try lia; first [apply J1|apply J2]; lia). reflexivity.
Qed.

Definition gradient_of (spec : list C) (g : list R * list R) : Prop :=
  length (fst g) = list_sum pl /\ length (snd g) = list_sum pl /\
  forall j i, 1 <= j <= length pl -> i < row_len pl j ->
    point pl (fst g) j i = series (row_len pl j) T (u_coef spec j) i /\ point pl (snd g) j i = series (row_len pl j) T (v_coef spec j) i.
Definition set2 (spec : list C) (s : list R * list R) (D : nat -> Prop) : Prop :=
  rows_set pl (fun j i => series (row_len pl j) T (u_coef spec j) i) (fst s) D /\ rows_set pl (fun j i => series (row_len pl j) T (v_coef spec j) i) (snd s) D.
Lemma set2_gradient spec g : set2 spec g (fun k => 1 <= k <= length pl) -> gradient_of spec g.
Proof. intros [[L1 P1] [L2 P2]]. repeat split; auto. Qed.
Lemma uv_length spec j : length (u_values spec j) = row_len pl j /\ length (v_values spec j) = row_len pl j.
Proof. unfold u_values, v_values. rewrite !map_length, !seq_length. auto. Qed.
Lemma set2_put spec s D j : 1 <= j <= length pl -> set2 spec s D ->
  exists s', put2 s (row_start pl j) (u_values spec j, v_values spec j) = Some s' /\ set2 spec s' (fun k => k = j \/ D k).
Proof.
  destruct s as [s1 s2]. intros Hj [HI1 HI2]. unfold put2. cbn [fst snd] in *. destruct (uv_length spec j) as [LU LV].
  destruct (rows_set_put pl _ s1 D j (u_values spec j) Hj LU (fun i Hi => nth_map_seq _ _ _ _ Hi) HI1) as [g1 [E1 I1]].
  destruct (rows_set_put pl _ s2 D j (v_values spec j) Hj LV (fun i Hi => nth_map_seq _ _ _ _ Hi) HI2) as [g2 [E2 I2]].
  exists (g1, g2). rewrite E1. cbn [bind]. rewrite E2. cbn [bind]. split; [reflexivity|]. split; assumption.
Qed.

Theorem getgrad_ok spec out : length spec = tri T -> length (fst out) = list_sum pl -> length (snd out) = list_sum pl ->
  exists g, getgrad backward junk junk2 pl T spec basis dbasis sin_theta r out = Some g /\ gradient_of spec g.
Proof.
  intros Hspec H1 H2. unfold getgrad.
  destruct (drive_ok put2 (getgrad_single backward junk junk2 pl T spec basis dbasis sin_theta r) (getgrad_paired backward junk junk2 pl T spec basis dbasis sin_theta r) pl
     (fun j => (u_values spec j, v_values spec j)) (set2 spec)) with (out := out) as [g [E I]].
  - intros j Hj. apply getgrad_single_ok; assumption.
  - intros HM j Hj. apply getgrad_paired_ok; assumption.
  - intros s D j Hj HI. apply set2_put; assumption.
  - intros s D D' HD [I1 I2]. split; eapply rows_set_mono; eauto.
  - split; (split; [assumption|intros j i []]).
  - exists g. split; [exact E|]. apply set2_gradient. exact I.
Qed.

(** ** Two gradients *)
Lemma getgrad_pair_single_ok sa sb j : length sa = tri T -> length sb = tri T -> 1 <= j <= length pl ->
  getgrad_pair_single backward junk junk2 junk3 junk4 pl T sa sb basis dbasis sin_theta r j = Some ((u_values sa j, v_values sa j), (u_values sb j, v_values sb j)).
Proof.
  intros Ha Hb Hj. unfold getgrad_pair_single. rewrite pl_rd by assumption. cbn [bind].
  destruct (sized_row _ _ _ j (go_basis _ _ _ _ _ _ OK) Hj) as [E L]. rewrite E. cbn [bind].
  destruct (sized_row _ _ _ j (go_dbasis _ _ _ _ _ _ OK) Hj) as [E2 L2]. rewrite E2. cbn [bind]. rewrite sin_read by assumption. cbn [bind].
  rewrite (mapM_seq _ (fun m => ((leg T sa basis j m, leg T sa dbasis j m), (leg T sb basis j m, leg T sb dbasis j m)))).
  2:{ intros m Hm. apply mlim_T' in Hm. rewrite grad_sum4_ok by assumption. reflexivity. }
  cbn [bind]. rewrite !map_map. cbn [fst snd].
  rewrite (grad_row_values sa j (junk j) (junk2 j)) by auto. cbn [bind].
  rewrite (grad_row_values sb j (junk3 j) (junk4 j)) by auto. reflexivity.
Qed.
Lemma getgrad_pair_paired_ok sa sb : length sa = tri T -> length sb = tri T -> mirrored pl -> forall j, 1 <= j <= length pl / 2 ->
  getgrad_pair_paired backward junk junk2 junk3 junk4 pl T sa sb basis dbasis sin_theta r j =
   Some (((u_values sa j, v_values sa j), (u_values sb j, v_values sb j)),
         ((u_values sa (length pl + 1 - j), v_values sa (length pl + 1 - j)), (u_values sb (length pl + 1 - j), v_values sb (length pl + 1 - j)))).
Proof.
  intros Ha Hb HM j Hj. assert (length pl / 2 <= length pl) by (apply Nat.div_le_upper_bound; lia).
  unfold getgrad_pair_paired. rewrite pl_rd by lia. cbn [bind].
  destruct (sized_row _ _ _ j (go_basis _ _ _ _ _ _ OK) ltac:(lia)) as [E L]. rewrite E. cbn [bind].
  destruct (sized_row _ _ _ j (go_dbasis _ _ _ _ _ _ OK) ltac:(lia)) as [E2 L2]. rewrite E2. cbn [bind]. rewrite sin_read by lia. cbn [bind].
  rewrite (mapM_seq _ (fun m => (((leg T sa basis j m, leg T sa dbasis j m), (leg T sa basis (length pl + 1 - j) m, leg T sa dbasis (length pl + 1 - j) m)),
                                 ((leg T sb basis j m, leg T sb dbasis j m), (leg T sb basis (length pl + 1 - j) m, leg T sb dbasis (length pl + 1 - j) m))))).
  2:{ intros m Hm. apply mlim_T' in Hm. rewrite grad_pair_sum4_ok by assumption. rewrite !sums_s_leg by (auto; lia). reflexivity. }
  cbn [bind]. rewrite !map_map. cbn [fst snd].
  rewrite (grad_row_values sa j (junk j) (junk2 j)) by (auto; try lia; first [apply J1|apply J2]; lia). cbn [bind].
  rewrite (grad_row_values sb j (junk3 j) (junk4 j)) by (auto; try lia; first [apply J3|apply J4]; lia). cbn [bind].
  rewrite (mirror_rows sa) by (auto; try lia; first [apply J1|apply J2]; lia). cbn [bind].
  rewrite (mirror_rows sb) by (auto; try lia; first [apply J3|apply J4]; lia). reflexivity.
Qed.
Theorem getgrad_pair_ok sa sb out : length sa = tri T -> length sb = tri T ->
  length (fst (fst out)) = list_sum pl -> length (snd (fst out)) = list_sum pl -> length (fst (snd out)) = list_sum pl -> length (snd (snd out)) = list_sum pl ->
  exists g, getgrad_pair backward junk junk2 junk3 junk4 pl T sa sb basis dbasis sin_theta r out = Some g /\ gradient_of sa (fst g) /\ gradient_of sb (snd g).
Proof.
  intros Ha Hb H1 H2 H3 H4. unfold getgrad_pair.
  destruct (drive_ok put4 (getgrad_pair_single backward junk junk2 junk3 junk4 pl T sa sb basis dbasis sin_theta r) (getgrad_pair_paired backward junk junk2 junk3 junk4 pl T sa sb basis dbasis sin_theta r) pl
     (fun j => ((u_values sa j, v_values sa j), (u_values sb j, v_values sb j))) (fun s D => set2 sa (fst s) D /\ set2 sb (snd s) D)) with (out := out) as [g [E [I1 I2]]].
  - intros j Hj. apply getgrad_pair_single_ok; assumption.
  - intros HM j Hj. apply getgrad_pair_paired_ok; assumption.
  - intros [s1 s2] D j Hj [HI1 HI2]. unfold put4. cbn [fst snd] in *.
    destruct (set2_put sa s1 D j Hj HI1) as [g1 [E1 I1]]. destruct (set2_put sb s2 D j Hj HI2) as [g2 [E2 I2]].
    exists (g1, g2). rewrite E1. cbn [bind]. rewrite E2. cbn [bind]. split; [reflexivity|]. split; assumption.
  - intros s D D' HD [[I1 I2] [I3 I4]]. repeat split; try (eapply rows_set_mono; eauto); destruct I1, I2, I3, I4; auto.
  - repeat split; cbn; auto; intros j i [].
  - exists g. split; [exact E|]. split; apply set2_gradient; assumption.
Qed.
End Gradient.
