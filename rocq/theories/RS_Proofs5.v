(** Scalar analysis on the packed grid. *)
From Coq Require Import Reals List Arith Lia Lra Bool ZArith.
From Verif Require Import Base Buffer VH_Model VH_Proofs SH_Spec SH_Proofs RS_Model RS_Spec RS_Dft RS_Proofs1 RS_Proofs2 RS_Proofs3.
Import ListNotations.
Local Open Scope nat_scope.

(** ** The transform of one row *)
Lemma row_fft_ok pl grid j : length grid = list_sum pl -> 1 <= j <= length pl ->
  row_fft forward grid (row_start pl j) (row_len pl j) = Some (forward (row_len pl j) (map (point pl grid j) (seq 0 (row_len pl j)))).
Proof.
  intros HG Hj. unfold row_fft. rewrite <- seq_shift. pose proof (row_end pl j Hj) as E.
  assert (M : mapM (fun i => rd grid (row_start pl j + i)) (map S (seq 0 (row_len pl j))) = Some (map (point pl grid j) (seq 0 (row_len pl j)))).
  { rewrite mapM_map. apply mapM_seq. intros m Hm. rewrite Nat.add_succ_r. cbn [rd]. unfold point. apply nth_error_nth'. lia. }
  rewrite M. reflexivity.
Qed.

Lemma forward_nth N x q : q < N -> rd (forward N x) (S q) = Some ((fun q => let m := S q / 2 in
                if andb (Nat.even q) (negb (q =? 0)) then (- sumR N (fun i => nth i x 0 * sin (angle N m i)))%R
                else sumR N (fun i => nth i x 0 * cos (angle N m i))%R) q).
Proof.
  intros H. cbn [rd]. unfold forward. rewrite (nth_error_nth' _ 0%R) by (rewrite map_length, seq_length; exact H).
  f_equal. refine (eq_trans (nth_map_seq _ N q 0%R H) _). reflexivity.
Qed.

Definition values (N : nat) (f : nat -> R) : list R := map f (seq 0 N).
Lemma sum_values N f g : sumR N (fun i => nth i (values N f) 0 * g i)%R = sumR N (fun i => f i * g i)%R.
Proof. apply sumR_ext. intros k Hk. unfold values. rewrite nth_map_seq by exact Hk. reflexivity. Qed.

Lemma fwd_mean N f : 1 <= N -> rd (forward N (values N f)) 1 = Some (INR N * fst (dft N f 0))%R.
Proof.
  intros H. rewrite forward_nth by lia. cbn [Nat.even Nat.eqb negb andb]. f_equal. cbv zeta. rewrite sum_values.
  unfold dft. cbn [fst]. replace (1 / 2) with 0 by reflexivity. field. pose proof (INR_pos N H). lra.
Qed.
Lemma fwd_cos N f m : 1 <= m -> 2 * m <= N -> rd (forward N (values N f)) (2 * m) = Some (INR N * fst (dft N f m))%R.
Proof.
  intros H1 H2. replace (2 * m) with (S (2 * m - 1)) by lia. rewrite forward_nth by lia.
  assert (E : Nat.even (2 * m - 1) = false).
  { replace (2 * m - 1) with (2 * (m - 1) + 1) by lia. apply even_double_S. }
  rewrite E. cbn [andb]. f_equal. cbv zeta. rewrite sum_values. replace (S (2 * m - 1)) with (2 * m) by lia. rewrite half_double.
  unfold dft. cbn [fst]. field. pose proof (INR_pos N ltac:(lia)). lra.
Qed.
Lemma fwd_sin N f m : 1 <= m -> 2 * m < N -> rd (forward N (values N f)) (2 * m + 1) = Some (INR N * snd (dft N f m))%R.
Proof.
  intros H1 H2. replace (2 * m + 1) with (S (2 * m)) by lia. rewrite forward_nth by lia. rewrite even_double.
  destruct (Nat.eqb_spec (2 * m) 0); [lia|]. cbn [andb negb]. f_equal. cbv zeta. rewrite sum_values. replace (S (2 * m)) with (2 * m + 1) by lia. rewrite half_double_S.
  unfold dft. cbn [snd]. field. pose proof (INR_pos N ltac:(lia)). lra.
Qed.
Lemma dft_nyquist N f m : 0 < N -> 2 * m = N -> snd (dft N f m) = 0%R.
Proof.
  intros HN H. unfold dft. cbn [snd]. rewrite (sumR_0 N). - unfold Rdiv. rewrite Ropp_0. ring.
  - intros i _. rewrite (nyquist_sin N i HN m H). ring.
Qed.
Lemma dft_mean_sin N f : snd (dft N f 0) = 0%R.
Proof.
  unfold dft. cbn [snd]. rewrite (sumR_0 N). - unfold Rdiv. rewrite Ropp_0. ring.
  - intros i _. unfold angle. replace (2 * PI * INR 0 * INR i / INR N)%R with 0%R by (cbn; unfold Rdiv; ring). rewrite sin_0. ring.
Qed.

Lemma row_cos_ok N f m : 1 <= m -> 2 * m <= N -> row_cos (forward N (values N f)) N m = Some (fst (dft N f m)).
Proof.
  intros H1 H2. unfold row_cos. rewrite fwd_cos by assumption. cbn [bind]. f_equal. field. pose proof (INR_pos N ltac:(lia)). lra.
Qed.
Lemma row_sin_ok sg N f m : 1 <= m -> 2 * m <= N -> row_sin sg (forward N (values N f)) N m = Some (sg * snd (dft N f m))%R.
Proof.
  intros H1 H2. unfold row_sin. destruct (Nat.ltb_spec (2 * m) N).
  - rewrite fwd_sin by assumption. cbn [bind]. f_equal. field. pose proof (INR_pos N ltac:(lia)). lra.
  - rewrite dft_nyquist by lia. rewrite Rmult_0_r. reflexivity.
Qed.

Lemma mapM_seq1 {A} (f : nat -> option A) (g : nat -> A) n : (forall m, 1 <= m <= n -> f m = Some (g m)) -> mapM f (seq 1 n) = Some (map g (seq 1 n)).
Proof.
  intros H. rewrite <- seq_shift, mapM_map, map_map. apply mapM_seq. intros m Hm. apply H. lia.
Qed.
Lemma overlay_rd new old q : 1 <= q <= length new -> rd (overlay new old) q = rd new q.
Proof. intros H. unfold overlay. apply rd_app1. lia. Qed.
Lemma rd_cons_seq {A} (x : A) (g : nat -> A) n m : m <= n -> rd (x :: map g (seq 1 n)) (S m) = Some (if m =? 0 then x else g m).
Proof.
  intros H. cbn [rd]. destruct m; [reflexivity|]. cbn [nth_error Nat.eqb].
  rewrite (nth_error_nth' _ x) by (rewrite map_length, seq_length; lia). f_equal. rewrite (nth_mapd _ _ _ _ 0) by (rewrite seq_length; lia). rewrite seq_nth by lia. reflexivity.
Qed.

Lemma scalar_coeffs_ok pl T grid oc os j : length grid = list_sum pl -> 1 <= j <= length pl -> 1 <= row_len pl j ->
  length oc = length pl -> length os = length pl ->
  exists c, scalar_coeffs forward pl T grid oc os j = Some c /\
    forall m, m <= mlimit T (row_len pl j) -> rd (fst c) (S m) = Some (fst (row_dft pl grid j m)) /\ rd (snd c) (S m) = Some (snd (row_dft pl grid j m)).
Proof.
  intros HG Hj HR Hoc Hos. unfold scalar_coeffs. rewrite pl_rd by assumption. cbn [bind]. rewrite offsets_rd by lia. cbn [bind].
  rewrite row_fft_ok by assumption. cbn [bind]. set (N := row_len pl j) in *. fold (values N (point pl grid j)).
  rewrite fwd_mean by assumption. cbn [bind]. pose proof (mlimit_bound T N).
  rewrite (mapM_seq1 _ (fun m => fst (dft N (point pl grid j) m))) by (intros m Hm; apply row_cos_ok; lia). cbn [bind].
  rewrite (mapM_seq1 _ (fun m => (1 * snd (dft N (point pl grid j) m))%R)) by (intros m Hm; apply row_sin_ok; lia). cbn [bind].
  rewrite (rd_row oc [] j) by lia. cbn [bind]. rewrite (rd_row os [] j) by lia. cbn [bind].
  eexists. split; [reflexivity|]. cbn [fst snd]. intros m Hm. unfold row_dft. fold N.
  rewrite !overlay_rd by (cbn [length]; rewrite map_length, seq_length; lia). rewrite !rd_cons_seq by lia.
  destruct (Nat.eqb_spec m 0) as [->|].
  - split; f_equal; [|symmetry; apply dft_mean_sin]. field. pose proof (INR_pos N HR). lra.
  - split; f_equal. lra.
Qed.

(** ** Walking over the degrees of one order *)
Lemma index_inj T m n m' n' : m <= n <= T -> m' <= n' <= T -> index T m n = index T m' n' -> m = m' /\ n = n'.
Proof.
  intros H H' E. pose proof (nth_pairs T m n H) as A. rewrite E, (nth_pairs T m' n' H') in A. injection A. auto.
Qed.

Fixpoint upds (T m : nat) (f : nat -> C -> C) (spec : list C) (k : nat) : list C :=
  match k with O => spec | S i => wr (upds T m f spec i) (S (index T m (m + i))) (f (m + i) (coef T spec m (m + i))) end.
Lemma upds_length T m f spec k : length (upds T m f spec k) = length spec.
Proof. induction k; cbn [upds]; [reflexivity|]. rewrite wr_length. assumption. Qed.
Lemma coef_wr_same T l m n v : m <= n <= T -> length l = tri T -> coef T (wr l (S (index T m n)) v) m n = v.
Proof.
  intros H HL. unfold coef. cbn [wr]. apply nth_error_nth. apply nth_error_upd0_eq. rewrite HL. apply index_lt. assumption.
Qed.
Lemma coef_wr_other T l m n v m' n' : m <= n <= T -> m' <= n' <= T -> (m <> m' \/ n <> n') -> coef T (wr l (S (index T m n)) v) m' n' = coef T l m' n'.
Proof.
  intros H H' D. unfold coef. cbn [wr]. rewrite <- !nth_default_eq. unfold nth_default. rewrite nth_error_upd0_neq; [reflexivity|].
  intros E. apply index_inj in E; auto. lia.
Qed.
Lemma upds_ok T m f spec : m <= T -> length spec = tri T -> forall k, k <= T + 1 - m ->
  (forall i, i < k -> coef T (upds T m f spec k) m (m + i) = f (m + i) (coef T spec m (m + i))) /\
  (forall i, k <= i -> m + i <= T -> coef T (upds T m f spec k) m (m + i) = coef T spec m (m + i)) /\
  (forall m' n', m' <= n' <= T -> m' <> m -> coef T (upds T m f spec k) m' n' = coef T spec m' n').
Proof.
  intros Hm HL. induction k; intros Hk; [repeat split; auto; lia|]. destruct (IHk ltac:(lia)) as (I1 & I2 & I3). cbn [upds].
  split; [|split].
  - intros i Hi. destruct (Nat.eq_dec i k) as [->|N].
    + apply coef_wr_same; [lia|]. rewrite upds_length. assumption.
    + rewrite coef_wr_other by lia. apply I1. lia.
  - intros i Hi HT. rewrite coef_wr_other by lia. apply I2; lia.
  - intros m' n' H Hn. rewrite coef_wr_other by lia. apply I3; assumption.
Qed.
Definition updated (T m : nat) (f : nat -> C -> C) (spec spec' : list C) : Prop :=
  length spec' = tri T /\ (forall n, m <= n <= T -> coef T spec' m n = f n (coef T spec m n)) /\
  (forall m' n', m' <= n' <= T -> m' <> m -> coef T spec' m' n' = coef T spec m' n').
Lemma upds_all T m f spec : m <= T -> length spec = tri T -> updated T m f spec (upds T m f spec (T + 1 - m)).
Proof.
  intros Hm HL. destruct (upds_ok T m f spec Hm HL (T + 1 - m) ltac:(lia)) as (I1 & _ & I3). split; [rewrite upds_length; assumption|]. split; [|exact I3].
  intros n Hn. replace n with (m + (n - m)) by lia. apply I1. lia.
Qed.

Lemma accumulate_ok T prow w cr ci m spec : m <= T -> length spec = tri T -> length prow = tri T ->
  exists spec', accumulate T prow w cr ci m spec = Some spec' /\
    updated T m (fun n c => (fst c + cr * (w * nth (index T m n) prow 0), snd c + ci * (w * nth (index T m n) prow 0))%R) spec spec'.
Proof.
  intros Hm HL HP. set (f := fun n (c : C) => (fst c + cr * (w * nth (index T m n) prow 0), snd c + ci * (w * nth (index T m n) prow 0))%R).
  exists (upds T m f spec (T + 1 - m)). split; [|apply upds_all; assumption]. unfold accumulate.
  match goal with |- bind (foldM ?st _ _) _ = _ => pose proof (direct_run st (fun k => upds T m f spec k) (spectral_offset m T) (T + 1 - m)) as D end.
  cbv beta in D. cbn [upds] in D. rewrite D; [reflexivity|]. clear D.
  intros k _ Hk. cbn [fst snd]. rewrite (read_at T prow 0%R) by (auto; lia). cbn [bind].
  rewrite (read_at T _ (0, 0)%R) by (rewrite ?upds_length; auto; lia). cbn [bind].
  rewrite wrx_in.
  - cbn [bind]. rewrite Nat.add_succ_r. f_equal. f_equal. cbn [upds].
    pose proof (offset_index T m (m + k) ltac:(lia)) as E. replace (m + k - m) with k in E by lia. rewrite E. f_equal.
    change (nth (index T m (m + k)) (upds T m f spec k) (0%R, 0%R)) with (coef T (upds T m f spec k) m (m + k)).
    destruct (upds_ok T m f spec Hm HL k ltac:(lia)) as (_ & I2 & _). rewrite I2 by lia. reflexivity.
  - rewrite upds_length, HL. pose proof (offset_index T m (m + k) ltac:(lia)) as E. replace (m + k - m) with k in E by lia. rewrite E. pose proof (index_lt T m (m + k) ltac:(lia)). lia.
Qed.
Lemma store_acc_ok T pick a m spec : m <= T -> length spec = tri T ->
  exists spec', store_acc T m pick a spec = Some spec' /\ updated T m (fun n _ => pick (a n)) spec spec'.
Proof.
  intros Hm HL. set (f := fun n (_ : C) => pick (a n)).
  exists (upds T m f spec (T + 1 - m)). split; [|apply upds_all; assumption]. unfold store_acc.
  set (step := fun (st : nat * list C) n => let nm := S (fst st) in let* s := wrx (snd st) nm (pick (a n)) in Some (nm, s)).
  assert (G : forall k, k <= T + 1 - m -> foldM step (seq m k) (spectral_offset m T, spec) = Some (spectral_offset m T + k, upds T m f spec k)).
  { induction k; intros Hk; [rewrite Nat.add_0_r; reflexivity|]. rewrite seq_S, foldM_app', IHk by lia. cbn [bind foldM]. unfold step. cbn [fst snd].
    pose proof (offset_index T m (m + k) ltac:(lia)) as E. replace (m + k - m) with k in E by lia. rewrite E.
    rewrite wrx_in.
    - cbn [bind]. cbn [upds]. f_equal. f_equal. lia.
    - rewrite upds_length, HL. pose proof (index_lt T m (m + k) ltac:(lia)). lia. }
  rewrite G by lia. reflexivity.
Qed.

(** ** Scalar analysis *)
Record analysis_ok (pl : list nat) (T : nat) (grid weights : list R) (basis : list (list R)) : Prop := {
  ao_rows : forall j, 1 <= j <= length pl -> 1 <= row_len pl j;
  ao_grid : length grid = list_sum pl;
  ao_weights : length weights = length pl;
  ao_basis : sized (length pl) (tri T) basis }.

Lemma coef_repeat T m n k : coef T (repeat (0, 0)%R k) m n = (0, 0)%R.
Proof. unfold coef. apply nth_repeat. Qed.

(** quadrature sums of one order over the rows 1..J *)
Definition part_rows (pl : list nat) (m : nat) (f : nat -> R) (J : nat) : R := sumR J (fun k => if resolves pl m (S k) then f (S k) else 0%R).

Section Analysis.
Variables (pl : list nat) (T : nat) (grid weights : list R) (basis old_cos old_sin : list (list R)).
Hypothesis OK : analysis_ok pl T grid weights basis.
Hypothesis Hoc : length old_cos = length pl.
Hypothesis Hos : length old_sin = length pl.

Definition term (m n : nat) (pick : C -> R) (j : nat) : R := (pick (row_dft pl grid j m) * (row_value weights j * entry T basis j m n))%R.

Theorem grdtospec_ok : exists spec, grdtospec forward pl T grid weights basis old_cos old_sin = Some spec /\ length spec = tri T /\
  forall m n, m <= n <= T -> coef T spec m n = (over_rows pl m (term m n fst), over_rows pl m (term m n snd)).
Proof.
  unfold grdtospec.
  assert (CO : exists co, mapM (scalar_coeffs forward pl T grid old_cos old_sin) (seq 1 (length pl)) = Some co /\
    forall j, 1 <= j <= length pl -> exists c, rd co j = Some c /\
       forall m, m <= mlimit T (row_len pl j) -> rd (fst c) (S m) = Some (fst (row_dft pl grid j m)) /\ rd (snd c) (S m) = Some (snd (row_dft pl grid j m))).
  { assert (S0 : forall x, In x (seq 1 (length pl)) -> exists c, scalar_coeffs forward pl T grid old_cos old_sin x = Some c).
    { intros x Hx. apply in_seq in Hx. destruct (scalar_coeffs_ok pl T grid old_cos old_sin x) as [c [E _]]; eauto; try lia; [apply (ao_grid _ _ _ _ _ OK)|apply (ao_rows _ _ _ _ _ OK); lia]. }
    destruct (mapM_some _ _ _ _ S0) as [co E]. exists co. split; [exact E|]. intros j Hj.
    pose proof (mapM_length _ _ _ _ _ E) as L. rewrite seq_length in L.
    assert (Lj : 1 <= j <= length co) by lia. destruct (rd_Some co Lj) as [c Ec]. exists c. split; [exact Ec|].
    destruct (scalar_coeffs_ok pl T grid old_cos old_sin j) as [c' [E' P]]; auto; [apply (ao_grid _ _ _ _ _ OK)|apply (ao_rows _ _ _ _ _ OK); lia|].
    assert (X : scalar_coeffs forward pl T grid old_cos old_sin j = Some c).
    { destruct (mapM_nth _ _ _ _ _ (j - 1) j E) as [y [Ey Ny]].
      - rewrite (nth_error_nth' _ 0) by (rewrite seq_length; lia). rewrite seq_nth by lia. f_equal. lia.
      - destruct j; [lia|]. cbn [rd] in Ec. replace (S j - 1) with j in Ny by lia. congruence. }
    rewrite X in E'. injection E' as <-. exact P. }
  destruct CO as [co [ECO PCO]]. rewrite ECO. cbn [bind].
  (* one order *)
  assert (ORD : forall m spec, m <= T -> length spec = tri T -> forall J, J <= length pl ->
    exists spec', foldM (fun spec j =>
          let* nlon := rd pl j in
          if 2 * m <=? nlon then
            let* c := rd co j in
            let* cr := rd (fst c) (S m) in
            let* ci := rd (snd c) (S m) in
            let* w := rd weights j in
            let* prow := rd basis j in
            accumulate T prow w cr ci m spec
          else Some spec) (seq 1 J) spec = Some spec' /\
      updated T m (fun n c => (fst c + part_rows pl m (term m n fst) J, snd c + part_rows pl m (term m n snd) J)%R) spec spec').
  { intros m spec Hm HL. induction J; intros HJ.
    - exists spec. split; [reflexivity|]. repeat split; auto. intros n Hn. unfold part_rows. cbn [sumR]. rewrite !Rplus_0_r. destruct (coef T spec m n); reflexivity.
    - destruct (IHJ ltac:(lia)) as [s1 (E1 & L1 & U1 & O1)]. rewrite seq_S, foldM_app', E1. cbn [bind foldM Nat.add].
      rewrite pl_rd by lia. cbn [bind]. change (2 * m <=? row_len pl (S J)) with (resolves pl m (S J)).
      destruct (resolves pl m (S J)) eqn:RS.
      + destruct (PCO (S J) ltac:(lia)) as [c [Ec Pc]]. rewrite Ec. cbn [bind].
        assert (Hml : m <= mlimit T (row_len pl (S J))).
        { unfold resolves in RS. apply Nat.leb_le in RS. unfold mlimit. apply Nat.min_glb; [assumption|]. apply Nat.div_le_lower_bound; lia. }
        destruct (Pc m Hml) as [Er Ei]. rewrite Er. cbn [bind]. rewrite Ei. cbn [bind].
        rewrite (rd_row weights 0%R (S J)) by (rewrite (ao_weights _ _ _ _ _ OK); lia). cbn [bind].
        destruct (sized_row _ _ _ (S J) (ao_basis _ _ _ _ _ OK) ltac:(lia)) as [EB LB]. rewrite EB. cbn [bind].
        destruct (accumulate_ok T (nth (S J - 1) basis []) (nth (S J - 1) weights 0%R) (fst (row_dft pl grid (S J) m)) (snd (row_dft pl grid (S J) m)) m s1 Hm L1 LB) as [s2 (E2 & L2 & U2 & O2)].
        rewrite E2. cbn [bind]. exists s2. split; [reflexivity|]. split; [exact L2|]. split.
        * intros n Hn. rewrite U2, U1 by assumption. cbn [fst snd]. unfold part_rows. cbn [sumR]. rewrite RS. unfold term, entry, row_value. f_equal; ring.
        * intros m' n' H' Hne. rewrite O2, O1 by assumption. reflexivity.
      + exists s1. split; [reflexivity|]. split; [exact L1|]. split; [|exact O1].
        intros n Hn. rewrite U1 by assumption. unfold part_rows. cbn [sumR]. rewrite RS, !Rplus_0_r. reflexivity. }
  (* all orders *)
  match goal with |- exists spec, foldM ?body _ ?z = _ /\ _ => 
  assert (ALL : forall k, k <= S T -> exists spec, foldM body (seq 0 k) z = Some spec /\ length spec = tri T /\
      (forall m n, m < k -> m <= n <= T -> coef T spec m n = (over_rows pl m (term m n fst), over_rows pl m (term m n snd))) /\
      (forall m n, k <= m -> m <= n <= T -> coef T spec m n = (0, 0)%R)) end.
  { induction k; intros Hk.
    - eexists. split; [reflexivity|]. split; [rewrite repeat_length; reflexivity|]. split; [lia|]. intros m n _ _. apply coef_repeat.
    - destruct (IHk ltac:(lia)) as [s1 (E1 & L1 & D1 & Z1)]. rewrite seq_S, foldM_app', E1. cbn [bind foldM Nat.add].
      destruct (ORD k s1 ltac:(lia) L1 (length pl) ltac:(lia)) as [s2 (E2 & L2 & U2 & O2)]. rewrite E2. cbn [bind].
      exists s2. split; [reflexivity|]. split; [exact L2|]. split.
      + intros m n Hm Hn. destruct (Nat.eq_dec m k) as [->|N].
        * rewrite U2, Z1 by lia. cbn [fst snd]. rewrite !Rplus_0_l. reflexivity.
        * rewrite O2 by lia. apply D1; lia.
      + intros m n Hm Hn. rewrite O2 by lia. apply Z1; lia. }
  destruct (ALL (S T) ltac:(lia)) as [spec (E & L & D & _)]. exists spec. split; [exact E|]. split; [exact L|]. intros m n Hn. apply D; lia.
Qed.
End Analysis.
