(** Scalar synthesis: every row holds the values of the Fourier-Legendre
    series, whichever path computes it. *)
From Coq Require Import Reals List Arith Lia Lra Bool ZArith.
From Verif Require Import Base Buffer VH_Model VH_Proofs SH_Spec SH_Proofs RS_Model RS_Spec RS_Dft RS_Proofs1.
Import ListNotations.
Local Open Scope nat_scope.

(** ** One work row *)
Definition row_target (first : R) (cs : list C) (q : nat) : R :=
  if q =? 1 then first
  else if q / 2 <=? length cs then (if Nat.even q then fst (nth (q / 2 - 1) cs (0%R, 0%R)) else snd (nth (q / 2 - 1) cs (0%R, 0%R)))
  else 0%R.

Lemma in_combine_seq {A} (l : list A) d : forall s i x, In (i, x) (combine (seq s (length l)) l) <-> s <= i < s + length l /\ x = nth (i - s) l d.
Proof.
  induction l as [|v l IH]; intros s i x; cbn [length seq combine In]; [lia|]. rewrite IH. split.
  - intros [E|[Hi ->]].
    + injection E as <- <-. split; [lia|]. rewrite Nat.sub_diag. reflexivity.
    + split; [lia|]. replace (i - s) with (S (i - S s)) by lia. reflexivity.
  - intros [Hi ->]. destruct (Nat.eq_dec i s) as [->|].
    + left. rewrite Nat.sub_diag. reflexivity.
    + right. split; [lia|]. replace (i - s) with (S (i - S s)) by lia. reflexivity.
Qed.

Lemma even_double m : Nat.even (2 * m) = true.
Proof. rewrite Nat.even_mul. reflexivity. Qed.
Lemma even_double_S m : Nat.even (2 * m + 1) = false.
Proof. rewrite Nat.even_add, even_double. reflexivity. Qed.
Lemma half_double m : 2 * m / 2 = m.
Proof. rewrite Nat.mul_comm. apply Nat.div_mul. lia. Qed.
Lemma half_double_S m : (2 * m + 1) / 2 = m.
Proof. symmetry. apply (Nat.div_unique _ 2 m 1); lia. Qed.

Lemma fill_ok nlon first cs row : 1 <= nlon -> nlon <= length row -> 2 * length cs <= nlon ->
  exists row', fill_row nlon first cs row = Some row' /\ length row' = length row /\
    forall q, 1 <= q <= nlon -> rd row' q = Some (row_target first cs q).
Proof.
  intros H1 H2 H3.
  set (Wm := fun mc : nat * C => (2 * fst mc, fst (snd mc)) :: (if 2 * fst mc <? nlon then [(2 * fst mc + 1, snd (snd mc))] else [])).
  set (W := (1, first) :: flat_map Wm (combine (seq 1 (length cs)) cs)
            ++ map (fun i => (i, 0%R)) (seq (2 * length cs + 2) (nlon + 1 - (2 * length cs + 2)))).
  assert (EW : fill_row nlon first cs row = writes W row).
  { unfold fill_row, W. change ((1, first) :: ?l) with ([(1, first)] ++ l). rewrite writes_app. unfold writes at 1. cbn [foldM fst snd].
    destruct (wrx row 1 first) as [r1|]; cbn [bind]; [|reflexivity]. rewrite writes_app, <- writes_flat.
    rewrite (foldM_ext' _ (fun r x => writes (Wm x) r)).
    - destruct (foldM _ _ r1) as [r2|]; cbn [bind]; [|reflexivity]. unfold writes. rewrite foldM_map'. reflexivity.
    - intros s x. unfold Wm, writes. cbn [foldM fst snd]. destruct (wrx s (2 * fst x) (fst (snd x))) as [s1|]; cbn [bind]; [|reflexivity].
      destruct (2 * fst x <? nlon); cbn [foldM fst snd]; [|reflexivity]. destruct (wrx s1 _ _); reflexivity. }
  destruct (writes_ok (row_target first cs) W row) as [row' (E & L & I & _)].
  { intros q v Hin. unfold W in Hin. destruct Hin as [Hin|Hin]; [apply pair_equal_spec in Hin; destruct Hin as [<- <-]; split; [lia|reflexivity]|].
    apply in_app_iff in Hin. destruct Hin as [Hin|Hin].
    - apply in_flat_map in Hin. destruct Hin as [[m c] [Hm Hin]]. apply (in_combine_seq cs (0%R, 0%R)) in Hm. destruct Hm as [Hm ->].
      unfold Wm in Hin. cbn [fst snd] in Hin. destruct Hin as [Hin|Hin].
      + apply pair_equal_spec in Hin; destruct Hin as [<- <-]. split; [lia|]. unfold row_target. rewrite even_double, half_double.
        destruct (Nat.eqb_spec (2 * m) 1); [lia|]. destruct (Nat.leb_spec m (length cs)); [reflexivity|lia].
      + destruct (Nat.ltb_spec (2 * m) nlon); [|contradiction]. destruct Hin as [Hin|[]]. apply pair_equal_spec in Hin; destruct Hin as [<- <-]. split; [lia|].
        unfold row_target. rewrite even_double_S, half_double_S. destruct (Nat.eqb_spec (2 * m + 1) 1); [lia|].
        destruct (Nat.leb_spec m (length cs)); [reflexivity|lia].
    - apply in_map_iff in Hin. destruct Hin as [i [Ei Hin]]. injection Ei as <- <-. apply in_seq in Hin. split; [lia|].
      unfold row_target. destruct (Nat.eqb_spec i 1); [lia|]. destruct (Nat.leb_spec (i / 2) (length cs)) as [X|X]; [|reflexivity].
      assert (length cs + 1 <= i / 2) by (apply Nat.div_le_lower_bound; lia). lia. }
  exists row'. rewrite EW. split; [exact E|]. split; [exact L|]. intros q Hq. apply I.
  unfold W. cbn [map fst]. destruct (Nat.eq_dec q 1) as [->|Hq1]; [left; reflexivity|]. right. rewrite map_app, in_app_iff.
  destruct (le_lt_dec (2 * length cs + 2) q) as [X|X].
  - right. rewrite map_map. cbn [fst]. rewrite map_id. apply in_seq. lia.
  - left. apply in_map_iff. pose proof (Nat.div_mod q 2) as DM. pose proof (Nat.mod_upper_bound q 2) as MU.
    exists (q, row_target first cs q). split; [reflexivity|]. apply in_flat_map.
    assert (Hm : 1 <= q / 2 <= length cs).
    { split; [apply Nat.div_le_lower_bound; lia|]. apply Nat.lt_succ_r. apply Nat.div_lt_upper_bound; lia. }
    exists (q / 2, nth (q / 2 - 1) cs (0%R, 0%R)). split.
    + apply (in_combine_seq cs (0%R, 0%R)). split; [lia|reflexivity].
    + unfold Wm. cbn [fst snd]. unfold row_target. destruct (Nat.eqb_spec q 1); [contradiction|].
      destruct (Nat.leb_spec (q / 2) (length cs)); [|lia].
      assert (B : q mod 2 = 0 \/ q mod 2 = 1) by lia. destruct B as [B|B].
      * left. replace (Nat.even q) with true by (replace q with (2 * (q / 2)) by lia; rewrite even_double; reflexivity). f_equal. lia.
      * right. replace (Nat.even q) with false by (replace q with (2 * (q / 2) + 1) by lia; rewrite even_double_S; reflexivity).
        destruct (Nat.ltb_spec (2 * (q / 2)) nlon); [|lia]. left. f_equal. lia.
Qed.

Local Open Scope R_scope.
Lemma sumR_extend n p f : (n <= p)%nat -> sumR n f = sumR p (fun k => if (k <? n)%nat then f k else 0).
Proof.
  intros H. replace p with (n + (p - n))%nat by lia. rewrite sumR_split. 
  rewrite (sumR_0 (p - n)). - rewrite Rplus_0_r. apply sumR_ext. intros k Hk. destruct (Nat.ltb_spec k n); [reflexivity|lia].
  - intros k _. destruct (Nat.ltb_spec (n + k) n); [lia|reflexivity].
Qed.
Lemma nyquist_sin N i : (0 < N)%nat -> forall m, (2 * m = N)%nat -> sin (angle N m i) = 0.
Proof.
  intros HN m Hm. unfold angle. apply sin_eq_0_1. exists (Z.of_nat i). rewrite <- INR_IZR_INZ.
  assert (E : INR N = 2 * INR m) by (rewrite <- Hm, mult_INR; simpl; lra).
  pose proof (INR_pos N HN). rewrite E in *. field. lra.
Qed.

(** half of the backward transform of a filled row is a series *)
Definition half_c (first : R) (cs : list C) (m : nat) : R * R :=
  match m with O => (first / 2, 0) | S k => (fst (nth k cs (0, 0)) / 2, snd (nth k cs (0, 0)) / 2) end.
Lemma row_values_series nlon M first cs row : (1 <= nlon)%nat -> length cs = Nat.min M (nlon / 2) -> (nlon <= length row)%nat ->
  (forall q, (1 <= q <= nlon)%nat -> rd row q = Some (row_target first cs q)) ->
  row_values backward nlon row = map (series nlon M (half_c first cs)) (seq 0 nlon).
Proof.
  intros HN HL Hlen H. unfold row_values, backward. rewrite map_map. apply map_ext_in. intros i Hi.
  assert (G : forall q, (q < nlon)%nat -> nth q (firstn nlon row) 0 = row_target first cs (S q)).
  { intros q Hq. specialize (H (S q) ltac:(lia)). cbn [rd] in H.
    rewrite <- (firstn_skipn nlon row), nth_error_app1 in H by (rewrite firstn_length; lia).
    apply nth_error_nth. exact H. }
  pose proof (Nat.div_mod nlon 2) as DM. pose proof (Nat.mod_upper_bound nlon 2) as MU.
  pose proof (Nat.div_mod (nlon - 1) 2) as DM1. pose proof (Nat.mod_upper_bound (nlon - 1) 2) as MU1.
  assert (HK : (length cs <= nlon / 2)%nat) by lia.
  unfold series. rewrite <- HL. rewrite (sumR_extend (length cs) (nlon / 2)) by lia.
  set (F := fun k : nat => if (k <? length cs)%nat then (if (2 * S k =? nlon)%nat then 1 else 2) *
       (fst (half_c first cs (S k)) * cos (angle nlon (S k) i) - snd (half_c first cs (S k)) * sin (angle nlon (S k) i)) else 0).
  match goal with |- context [sumR (nlon / 2) ?f] => change (sumR (nlon / 2) f) with (sumR (nlon / 2) F) end.
  assert (E1 : sumR ((nlon - 1) / 2) (fun k => 2 * (nth (2 * S k - 1) (firstn nlon row) 0 * cos (angle nlon (S k) i) - nth (2 * S k) (firstn nlon row) 0 * sin (angle nlon (S k) i)))
     = 2 * sumR ((nlon - 1) / 2) F).
  { rewrite <- sumR_scal. apply sumR_ext. intros k Hk. assert (2 * S k < nlon)%nat by lia.
    rewrite !G by lia. replace (S (2 * S k - 1)) with (2 * S k)%nat by lia. replace (S (2 * S k)) with (2 * S k + 1)%nat by lia.
    unfold row_target, F. rewrite even_double, even_double_S, half_double, half_double_S.
    destruct (Nat.eqb_spec (2 * S k) 1); [lia|]. destruct (Nat.eqb_spec (2 * S k + 1) 1); [lia|].
    destruct (Nat.eqb_spec (2 * S k) nlon); [lia|].
    destruct (Nat.leb_spec (S k) (length cs)); destruct (Nat.ltb_spec k (length cs)); try lia; [|lra].
    unfold half_c. replace (S k - 1)%nat with k by lia. cbn [fst snd]. lra. }
  cbv zeta. rewrite E1. rewrite G by lia. change (row_target first cs 1) with first. cbn [half_c fst].
  destruct (Nat.even nlon) eqn:EV.
  - apply Nat.even_spec in EV. destruct EV as [h Hh].
    assert (E2 : (nlon / 2 = S ((nlon - 1) / 2))%nat) by lia.
    rewrite E2. cbn [sumR].
    assert (E3 : nth (nlon - 1) (firstn nlon row) 0 * cos (angle nlon (S ((nlon - 1) / 2)) i) = 2 * F ((nlon - 1) / 2)%nat).
    { rewrite G by lia. replace (S (nlon - 1)) with (2 * S ((nlon - 1) / 2))%nat by lia.
      unfold row_target, F. rewrite even_double, half_double. destruct (Nat.eqb_spec (2 * S ((nlon - 1) / 2)) 1); [lia|].
      destruct (Nat.eqb_spec (2 * S ((nlon - 1) / 2)) nlon); [|lia].
      rewrite (nyquist_sin nlon i ltac:(lia)) by lia.
      destruct (Nat.leb_spec (S ((nlon - 1) / 2)) (length cs)); destruct (Nat.ltb_spec ((nlon - 1) / 2) (length cs)); try lia; [|lra].
      unfold half_c. replace (S ((nlon - 1) / 2) - 1)%nat with ((nlon - 1) / 2)%nat by lia. cbn [fst snd]. lra. }
    rewrite E3. lra.
  - assert (E2 : (nlon / 2 = (nlon - 1) / 2)%nat).
    { assert (Nat.odd nlon = true) by (unfold Nat.odd; rewrite EV; reflexivity). apply Nat.odd_spec in H0. destruct H0 as [h Hh]. lia. }
    rewrite E2. lra.
Qed.

(** ** Loops over the degrees *)
Lemma direct_run {X} (step : nat * X -> nat -> option (nat * X)) (V : nat -> X) o L :
  (forall k i, (k < L)%nat -> step (o + k, V k)%nat i = Some (o + S k, V (S k))%nat) ->
  forall a, foldM step (seq a L) (o, V 0%nat) = Some (o + L, V L)%nat.
Proof.
  intros H a. assert (G : forall n, (n <= L)%nat -> foldM step (seq a n) (o, V 0%nat) = Some (o + n, V n)%nat).
  { induction n; intros Hn; [rewrite Nat.add_0_r; reflexivity|]. rewrite seq_S, foldM_app', IHn by lia. cbn [bind foldM]. rewrite H by lia. reflexivity. }
  apply G. lia.
Qed.
Lemma pow_sign_even k : (-1) ^ (2 * k) = 1.
Proof. apply pow_1_even. Qed.
Lemma pow_sign_odd k : (-1) ^ S (2 * k) = -1.
Proof. apply pow_1_odd. Qed.
Lemma pair_run {X} (stp : R -> nat * X -> option (nat * X)) (V : nat -> X) o d :
  (forall k, (k < d + 1)%nat -> stp ((-1) ^ k) (o + k, V k)%nat = Some (o + S k, V (S k))%nat) ->
  (let* st := foldM (fun st (_ : nat) => let* st1 := stp 1 st in stp (-1) st1) (seq 0 ((d + 1) / 2)) (o, V 0%nat) in
   let* st := if (d mod 2 =? 0)%nat then stp 1 st else Some st in Some (snd st)) = Some (V (d + 1)%nat).
Proof.
  intros H.
  assert (G : forall n, (2 * n <= d + 1)%nat -> foldM (fun st (_ : nat) => let* st1 := stp 1 st in stp (-1) st1) (seq 0 n) (o, V 0%nat) = Some (o + 2 * n, V (2 * n))%nat).
  { induction n; intros Hn; [rewrite Nat.add_0_r; reflexivity|]. rewrite seq_S, foldM_app', IHn by lia. cbn [bind foldM].
    pose proof (H (2 * n)%nat ltac:(lia)) as A. rewrite pow_sign_even in A. rewrite A. cbn [bind].
    pose proof (H (S (2 * n)) ltac:(lia)) as B. rewrite pow_sign_odd in B. rewrite B. cbn [bind].
    do 2 f_equal; [lia|]. f_equal. lia. }
  pose proof (Nat.div_mod (d + 1) 2). pose proof (Nat.mod_upper_bound (d + 1) 2). pose proof (Nat.div_mod d 2). pose proof (Nat.mod_upper_bound d 2).
  rewrite G by lia. cbn [bind]. destruct (Nat.eqb_spec (d mod 2) 0) as [E|E].
  - pose proof (H (2 * ((d + 1) / 2))%nat ltac:(lia)) as A. rewrite pow_sign_even in A. rewrite A. cbn [bind snd]. do 2 f_equal. lia.
  - cbn [bind snd]. do 2 f_equal. lia.
Qed.

(** ** The Legendre sums *)
Section Legendre.
Variables (T : nat) (spec : list C) (prow : list R).
Hypothesis Hspec : length spec = tri T.
Hypothesis Hprow : length prow = tri T.

Definition rowsum (tab : list R) (pick : C -> R) (m k : nat) : R := sumR k (fun i => pick (nth (index T m (m + i)) spec (0, 0)) * nth (index T m (m + i)) tab 0).
Definition rowsum_s (tab : list R) (pick : C -> R) (m k : nat) : R := sumR k (fun i => (-1) ^ i * (pick (nth (index T m (m + i)) spec (0, 0)) * nth (index T m (m + i)) tab 0)).

Lemma read_at {A} (l : list A) d m k : length l = tri T -> (m + k <= T)%nat -> rd l (S (spectral_offset m T + k)) = Some (nth (index T m (m + k)) l d).
Proof.
  clear Hspec Hprow. intros HL Hk. cbn [rd]. pose proof (offset_index T m (m + k) ltac:(lia)) as E. replace (m + k - m)%nat with k in E by lia. rewrite E.
  apply nth_error_nth'. rewrite HL. apply index_lt. lia.
Qed.

Lemma direct_sum_ok m : (m <= T)%nat ->
  direct_sum T spec prow m = Some (rowsum prow fst m (T + 1 - m), rowsum prow snd m (T + 1 - m)).
Proof.
  intros Hm. unfold direct_sum.
  pose proof (direct_run (direct_step spec prow) (fun k => (rowsum prow fst m k, rowsum prow snd m k)) (spectral_offset m T) (T + 1 - m)) as D.
  cbn [rowsum sumR] in D. change (rowsum prow fst m 0) with 0 in D. change (rowsum prow snd m 0) with 0 in D.
  rewrite D; [reflexivity|]. intros k i Hk. unfold direct_step. cbn [fst snd]. rewrite (read_at prow 0) by (auto; lia). cbn [bind].
  rewrite (read_at spec (0, 0)) by (auto; lia). cbn [bind]. rewrite Nat.add_succ_r. reflexivity.
Qed.

Lemma pair_sum_ok m : (m <= T)%nat ->
  pair_sum T spec prow m = Some ((rowsum prow fst m (T + 1 - m), rowsum prow snd m (T + 1 - m)),
                                 (rowsum_s prow fst m (T + 1 - m), rowsum_s prow snd m (T + 1 - m))).
Proof.
  intros Hm. unfold pair_sum.
  pose proof (pair_run (pair_term spec prow) (fun k => ((rowsum prow fst m k, rowsum prow snd m k), (rowsum_s prow fst m k, rowsum_s prow snd m k))) (spectral_offset m T) (T - m)) as D. cbv beta in D.
  change (rowsum prow fst m 0) with 0 in D. change (rowsum prow snd m 0) with 0 in D.
  change (rowsum_s prow fst m 0) with 0 in D. change (rowsum_s prow snd m 0) with 0 in D.
  refine (eq_trans (D _) _); clear D.
  2:{ replace (T - m + 1)%nat with (T + 1 - m)%nat by lia. reflexivity. }
  intros k Hk. unfold pair_term. cbn [fst snd]. rewrite (read_at prow 0) by (auto; lia). cbn [bind].
  rewrite (read_at spec (0, 0)) by (auto; lia). cbn [bind]. rewrite Nat.add_succ_r. reflexivity.
Qed.
End Legendre.
