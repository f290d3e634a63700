(** The assembled matrices are the operators of GB_Spec. *)
From Coq Require Import Reals List Lra Lia Arith.
From Verif Require Import Base Buffer Loops VH_Model VH_Proofs GB_Model GB_Spec GB_Real GB_Proofs1.
Import ListNotations.
Local Open Scope R_scope.
Local Open Scope nat_scope.

Lemma rd_at1 (l : list R) n : 1 <= n <= length l -> rd l n = Some (at1 l n).
Proof.
  intros H. destruct (rd l n) eqn:E.
  - unfold rd in E. unfold at1. destruct n; [lia|]. replace (S n - 1) with n by lia.
    rewrite (nth_error_nth _ _ 0%R E). reflexivity.
  - exfalso. unfold rd in E. destruct n; [lia|]. apply nth_error_None in E. lia.
Qed.
Lemma rd_mapseq (A : Type) (g : nat -> A) m n : 1 <= n <= m -> rd (map g (seq 1 m)) n = Some (g n).
Proof.
  intros H. unfold rd. destruct n; [lia|]. rewrite nth_error_map. rewrite (nth_error_nth' _ 0) by (rewrite seq_length; lia).
  cbn. rewrite seq_nth by lia. reflexivity.
Qed.

(** * Tridiagonal rows *)
Lemma tri_sum (d r : R) (l x : nat -> R) (n : nat) : 1 <= n -> forall M,
  sumN (fun j => ((if n =? j then d else if n =? j + 1 then l j else if j =? n + 1 then r else 0) * x j)%R) M =
  ((if n <=? M then d * x n else 0) + (if (2 <=? n) && (n <=? M + 1) then l (n - 1)%nat * x (n - 1)%nat else 0) + (if n + 1 <=? M then r * x (n + 1)%nat else 0))%R.
Proof.
  intros Hn. induction M as [|M IH].
  - cbn [sumN]. destruct (Nat.leb_spec n 0); [lia|]. destruct (Nat.leb_spec (n + 1) 0); [lia|].
    destruct (Nat.leb_spec 2 n), (Nat.leb_spec n (0 + 1)); cbn; try lia; lra.
  - cbn [sumN]. rewrite IH.
    destruct (Nat.eqb_spec n (S M)), (Nat.eqb_spec n (S M + 1)), (Nat.eqb_spec (S M) (n + 1)), (Nat.leb_spec n M), (Nat.leb_spec n (S M)),
      (Nat.leb_spec 2 n), (Nat.leb_spec n (M + 1)), (Nat.leb_spec n (S M + 1)), (Nat.leb_spec (n + 1) M), (Nat.leb_spec (n + 1) (S M)); try lia; cbn [andb];
      repeat match goal with
      | H : n = S M |- _ => rewrite <- H in *; clear H
      | H : S M = n + 1 |- _ => rewrite H in *; clear H
      | H : n = S M + 1 |- _ => replace (n - 1) with (S M) in * by lia; clear H
      end; try lra.
Qed.
Lemma tri_row N (d r : R) (l x : nat -> R) n : 1 <= n <= N ->
  sumN (fun j => ((if n =? j then d else if n =? j + 1 then l j else if j =? n + 1 then r else 0) * x j)%R) N =
  (d * ext N x n + l (n - 1)%nat * ext N x (n - 1) + r * ext N x (n + 1))%R.
Proof.
  intros H. rewrite tri_sum by lia. rewrite (ext_in N x n) by auto.
  destruct (Nat.leb_spec n N); [|lia].
  destruct (Nat.leb_spec 2 n); cbn [andb].
  - destruct (Nat.leb_spec n (N + 1)); [|lia]. rewrite (ext_in N x (n - 1)) by lia.
    destruct (Nat.leb_spec (n + 1) N); [rewrite ext_in by lia|rewrite ext_out by lia]; ring.
  - replace (n - 1) with 0 by lia. rewrite ext_0.
    destruct (Nat.leb_spec (n + 1) N); [rewrite ext_in by lia|rewrite ext_out by lia]; ring.
Qed.

Lemma mv_map (e : nat -> nat -> R) N x n : 1 <= n <= N ->
  mv (map (fun i => map (e i) (seq 1 N)) (seq 1 N)) x n = sumN (fun j => e n j * x j)%R N.
Proof.
  intros H. unfold mv. rewrite map_length, seq_length. apply sumN_ext. intros j Hj. f_equal.
  assert (X : nth (n - 1) (map (fun i => map (e i) (seq 1 N)) (seq 1 N)) [] = map (e n) (seq 1 N)).
  { apply nth_error_nth. rewrite nth_error_map, (nth_error_nth' _ 0) by (rewrite seq_length; lia). cbn. rewrite seq_nth by lia. do 3 f_equal. lia. }
  rewrite X. apply nth_error_nth. rewrite nth_error_map, (nth_error_nth' _ 0) by (rewrite seq_length; lia). cbn. rewrite seq_nth by lia. do 2 f_equal. lia.
Qed.

(** the coefficient arrays hold these numbers *)
Definition coefs_are (N : nat) (c : coefs R) (d l r bd' bl' br : nat -> R) : Prop :=
  c = {| ad := map d (seq 1 N); al := map l (seq 1 (N - 1)); au := map r (seq 1 (N - 1));
         bd := map bd' (seq 1 N); bl := map bl' (seq 1 (N - 1)); bu := map br (seq 1 (N - 1)) |}.

Lemma matrix_some N (e : nat -> nat -> option R) (g : nat -> nat -> R) :
  (forall i j, 1 <= i <= N -> 1 <= j <= N -> e i j = Some (g i j)) ->
  matrix N e = Some (map (fun i => map (g i) (seq 1 N)) (seq 1 N)).
Proof.
  intros H. unfold matrix. apply mapM_Some_map. intros i Hi. apply in_seq in Hi.
  apply mapM_Some_map. intros j Hj. apply in_seq in Hj. apply H; lia.
Qed.

Section Assemble.
Variables (N : nat) (c w beta : nat -> R) (u : list R).
Hypothesis HN : 1 <= N.
Hypothesis Hu : length u = N.
Variables (cf : coefs R) (d l r bd' bl' br : nat -> R).
Hypothesis Hcf : coefs_are N cf d l r bd' bl' br.
Hypothesis Hw : forall n, 1 <= n <= N -> w n <> 0%R.
Hypothesis Hd : forall n, 1 <= n <= N -> d n = (beta n - at1 u n * (c (n - 1)%nat + c n) / w n - lap N c w (at1 u) n)%R.
Hypothesis Hl : forall n, 1 <= n < N -> l n = (at1 u (n + 1) * c n / w (n + 1)%nat)%R.
Hypothesis Hr : forall n, 1 <= n < N -> r n = (at1 u n * c n / w n)%R.
Hypothesis Hbd : forall n, 1 <= n <= N -> bd' n = (- (c (n - 1)%nat + c n) / w n)%R.
Hypothesis Hbl : forall n, 1 <= n < N -> bl' n = (c n / w (n + 1)%nat)%R.
Hypothesis Hbr : forall n, 1 <= n < N -> br n = (c n / w n)%R.

Lemma assembled k : exists A B,
  matrix (length u) (a_entry Rops u cf k) = Some A /\ matrix (length u) (b_entry Rops cf k) = Some B /\
  length A = N /\ (k = 0%R -> zero_matrix A) /\
  forall x n, 1 <= n <= N -> mv A x n = opA N c w beta (at1 u) k x n /\ mv B x n = opB N c w k x n.
Proof.
  rewrite Hu.
  set (ga := fun i j => (if i =? j then k * d i - k * k * k * at1 u i else if i =? j + 1 then k * l j else if j =? i + 1 then k * r i else 0)%R).
  set (gb := fun i j => (if i =? j then bd' i - k * k else if i =? j + 1 then bl' j else if j =? i + 1 then br i else 0)%R).
  exists (map (fun i => map (ga i) (seq 1 N)) (seq 1 N)), (map (fun i => map (gb i) (seq 1 N)) (seq 1 N)).
  split; [|split; [|split; [|split]]].
  - apply matrix_some. intros i j Hi Hj. unfold a_entry, ga. rewrite Hcf. cbn [ad al au].
    destruct (Nat.eqb_spec i j) as [->|]; [rewrite rd_mapseq by auto; rewrite rd_at1 by lia; reflexivity|].
    destruct (Nat.eqb_spec i (j + 1)); [rewrite rd_mapseq by lia; reflexivity|].
    destruct (Nat.eqb_spec j (i + 1)); [rewrite rd_mapseq by lia; reflexivity|reflexivity].
  - apply matrix_some. intros i j Hi Hj. unfold b_entry, gb. rewrite Hcf. cbn [bd bl bu].
    destruct (Nat.eqb_spec i j) as [->|]; [rewrite rd_mapseq by auto; reflexivity|].
    destruct (Nat.eqb_spec i (j + 1)); [rewrite rd_mapseq by lia; reflexivity|].
    destruct (Nat.eqb_spec j (i + 1)); [rewrite rd_mapseq by lia; reflexivity|reflexivity].
  - rewrite map_length. apply seq_length.
  - intros -> row x Hrow Hx. apply in_map_iff in Hrow. destruct Hrow as [i [<- _]]. apply in_map_iff in Hx. destruct Hx as [j [<- _]].
    unfold ga. destruct (i =? j); [ring|]. destruct (i =? j + 1); [ring|]. destruct (j =? i + 1); ring.
  - intros x n Hn. rewrite !mv_map by auto. unfold ga, gb.
    rewrite (tri_row N (k * d n - k * k * k * at1 u n) (k * r n) (fun j => k * l j)%R x n Hn).
    rewrite (tri_row N (bd' n - k * k) (br n) bl' x n Hn).
    assert (W := Hw n Hn).
    assert (L1 : (l (n - 1)%nat * ext N x (n - 1) = at1 u n * c (n - 1)%nat / w n * ext N x (n - 1))%R).
    { destruct (Nat.eq_dec n 1) as [->|]; [replace (1 - 1) with 0 by lia; rewrite ext_0; ring|]. rewrite Hl by lia. replace (n - 1 + 1) with n by lia. reflexivity. }
    assert (L2 : (bl' (n - 1)%nat * ext N x (n - 1) = c (n - 1)%nat / w n * ext N x (n - 1))%R).
    { destruct (Nat.eq_dec n 1) as [->|]; [replace (1 - 1) with 0 by lia; rewrite ext_0; ring|]. rewrite Hbl by lia. replace (n - 1 + 1) with n by lia. reflexivity. }
    assert (R1 : (r n * ext N x (n + 1) = at1 u n * c n / w n * ext N x (n + 1))%R).
    { destruct (Nat.eq_dec n N) as [E|]; [rewrite ext_out by lia; ring|]. rewrite Hr by lia. reflexivity. }
    assert (R2 : (br n * ext N x (n + 1) = c n / w n * ext N x (n + 1))%R).
    { destruct (Nat.eq_dec n N) as [E|]; [rewrite ext_out by lia; ring|]. rewrite Hbr by lia. reflexivity. }
    split.
    + replace ((k * d n - k * k * k * at1 u n) * ext N x n + k * l (n - 1)%nat * ext N x (n - 1) + k * r n * ext N x (n + 1))%R
        with ((k * d n - k * k * k * at1 u n) * ext N x n + k * (l (n - 1)%nat * ext N x (n - 1)) + k * (r n * ext N x (n + 1)))%R by ring.
      rewrite L1, R1, Hd by auto. unfold opA, pvgrad. rewrite <- (ext_in N x n Hn). set (LU := lap N c w (at1 u) n).
      unfold lap. field. auto.
    + rewrite L2, R2, Hbd by auto. unfold opB. rewrite <- (ext_in N x n Hn). unfold lap. field. auto.
Qed.
End Assemble.

(** * The latitude grid *)
Lemma deg_pos : (0 < deg)%R. Proof. unfold deg. assert (X := PI_RGT_0). lra. Qed.
Lemma gap_pos lat n : lat_ok lat -> 1 <= n < length lat -> (0 < gap lat n)%R.
Proof.
  intros [I B] Hn. unfold gap. assert (D := deg_pos). assert (X := I n Hn). assert (B1 := B n ltac:(lia)). assert (B2 := B (n + 1) ltac:(lia)).
  assert (E : (0 < earth)%R) by (unfold earth; lra).
  apply Rmult_lt_0_compat; [apply Rmult_lt_0_compat; [apply Rmult_lt_0_compat|]; lra|].
  assert (DP : (deg * 180 = PI)%R) by (unfold deg; field).
  apply cos_gt_0.
  - replace (- (PI / 2))%R with (deg * (-90))%R by lra. apply Rmult_lt_compat_l; lra.
  - replace (PI / 2)%R with (deg * 90)%R by lra. apply Rmult_lt_compat_l; lra.
Qed.
Lemma lat_w_pos lat n : lat_ok lat -> 3 <= length lat -> 1 <= n <= length lat -> (0 < lat_w lat n)%R.
Proof.
  intros H L Hn. unfold lat_w. destruct (Nat.eqb_spec n 1); [apply gap_pos; auto; lia|].
  destruct (Nat.eqb_spec n (length lat)); [apply gap_pos; auto; lia|].
  destruct H as [I _]. assert (X := I (n - 1) ltac:(lia)). assert (Y := I n ltac:(lia)). replace (n - 1 + 1) with n in X by lia.
  assert (D := deg_pos). unfold earth. apply Rmult_lt_0_compat; [apply Rmult_lt_0_compat; lra|lra].
Qed.
Lemma lat_c_pos lat n : lat_ok lat -> 3 <= length lat -> n <= length lat -> (0 < lat_c lat n)%R.
Proof.
  intros H L Hn. unfold lat_c. apply Rinv_0_lt_compat. apply gap_pos; auto.
  destruct (Nat.eqb_spec n 0); [lia|]. destruct (Nat.eqb_spec n (length lat)); lia.
Qed.

Lemma rd_map (A B : Type) (f : A -> B) l n : rd (map f l) n = option_map f (rd l n).
Proof. unfold rd. destruct n; [reflexivity|]. apply nth_error_map. Qed.

Definition barot_geo (lat : list R) : geometry R :=
  {| dy := map (gap lat) (seq 1 (length lat - 1));
     dy2 := map (fun n => earth * deg * ((at1 lat (n + 2) - at1 lat n) / 2))%R (seq 1 (length lat - 2));
     y1 := gap lat 1; y2 := gap lat (length lat - 1);
     beta_arr := map (lat_beta lat) (seq 1 (length lat)) |}.

Lemma map_as_seq (f : R -> R) (l : list R) (g : nat -> R) : (forall n, 1 <= n <= length l -> f (at1 l n) = g n) -> map f l = map g (seq 1 (length l)).
Proof.
  intros H. apply rd_ext; rewrite !map_length; [rewrite seq_length; reflexivity|].
  intros i Hi. rewrite rd_mapseq by auto. rewrite rd_map, rd_at1 by auto. cbn. f_equal. auto.
Qed.

Lemma dist_gap lat n : 1 <= n < length lat ->
  dist_at Rops cos (PI / 180)%R lat (map (fun l => PI / 180 * l * radius Rops)%R lat) n = Some (gap lat n).
Proof.
  intros H. unfold dist_at. rewrite !rd_map. rewrite !rd_at1 by lia. cbn [option_map bind]. f_equal. cbn [fz fadd fsub fmul fdiv Rops].
  unfold gap, radius, earth, deg. cbn [fz Rops]. ring.
Qed.
Lemma barot_geometry_is lat : 3 <= length lat -> barot_geometry Rops cos (PI / 180)%R lat = Some (barot_geo lat).
Proof.
  intros L. unfold barot_geometry. cbv zeta.
  set (N := length lat). set (y := map _ lat).
  assert (Y : forall n, 1 <= n <= N -> rd y n = Some (PI / 180 * at1 lat n * radius Rops)%R).
  { intros n Hn. unfold y. rewrite rd_map, rd_at1 by auto. reflexivity. }
  assert (D1 : mapM (fun n => let* b := rd y (n + 1) in let* a := rd y n in Some (fdiv Rops (fadd Rops b a) (fz Rops 2))) (seq 1 (N - 1)) =
     Some (map (fun n => earth * deg * ((at1 lat (n + 1) + at1 lat n) / 2))%R (seq 1 (N - 1)))).
  { apply mapM_Some_map. intros n Hn. apply in_seq in Hn. rewrite !Y by lia. cbn. f_equal. unfold radius, earth, deg. cbn. field. }
  rewrite D1. cbn [bind].
  assert (D2 : forall dy1, dy1 = map (fun n => earth * deg * ((at1 lat (n + 1) + at1 lat n) / 2))%R (seq 1 (N - 1)) ->
     mapM (fun n => let* b := rd dy1 (n + 1) in let* a := rd dy1 n in Some (fsub Rops b a)) (seq 1 (N - 2)) = Some (dy2 (barot_geo lat))).
  { intros dy1 ->. apply mapM_Some_map. intros n Hn. apply in_seq in Hn. rewrite !rd_mapseq by lia. cbn. f_equal.
    replace (n + 1 + 1) with (n + 2) by lia. field. }
  rewrite (D2 _ eq_refl). cbn [bind].
  assert (D3 : mapM (dist_at Rops cos (PI / 180)%R lat y) (seq 1 (N - 1)) = Some (dy (barot_geo lat))).
  { apply mapM_Some_map. intros n Hn. apply in_seq in Hn. apply dist_gap. fold N. lia. }
  assert (DG : forall n, 1 <= n < N -> dist_at Rops cos (PI / 180)%R lat y n = Some (gap lat n)) by exact (dist_gap lat).
  rewrite D3. cbn [bind]. rewrite (DG 1) by (fold N; lia). cbn [bind]. rewrite (DG (N - 1)) by (fold N; lia). cbn [bind].
  unfold barot_geo. f_equal. f_equal.
  apply map_as_seq. intros n Hn. unfold lat_beta, omega, radius, spin, earth, deg. cbn. reflexivity.
Qed.

Lemma lat_c_0 lat : lat_c lat 0 = (/ gap lat 1)%R. Proof. reflexivity. Qed.
Lemma lat_c_N lat : 1 <= length lat -> lat_c lat (length lat) = (/ gap lat (length lat - 1))%R.
Proof. intros H. unfold lat_c. rewrite Nat.eqb_refl. destruct (Nat.eqb_spec (length lat) 0); [lia|reflexivity]. Qed.
Lemma lat_c_in lat n : 1 <= n < length lat -> lat_c lat n = (/ gap lat n)%R.
Proof. intros H. unfold lat_c. destruct (Nat.eqb_spec n 0); [lia|]. destruct (Nat.eqb_spec n (length lat)); [lia|reflexivity]. Qed.
Lemma lat_w_1 lat : lat_w lat 1 = gap lat 1. Proof. reflexivity. Qed.
Lemma lat_w_N lat : 2 <= length lat -> lat_w lat (length lat) = gap lat (length lat - 1).
Proof. intros H. unfold lat_w. destruct (Nat.eqb_spec (length lat) 1); [lia|]. rewrite Nat.eqb_refl. reflexivity. Qed.
Lemma lat_w_in lat n : 1 < n < length lat -> lat_w lat n = (earth * deg * ((at1 lat (n + 1) - at1 lat (n - 1)) / 2))%R.
Proof. intros H. unfold lat_w. destruct (Nat.eqb_spec n 1); [lia|]. destruct (Nat.eqb_spec n (length lat)); [lia|reflexivity]. Qed.

(** the diagonals in terms of the grid *)
Definition diag_of (N : nat) (c w beta u : nat -> R) (n : nat) : R :=
  (beta n - u n * (c (n - 1)%nat + c n) / w n - lap N c w u n)%R.

Lemma barot_coefs_are lat u : lat_ok lat -> 3 <= length lat -> length u = length lat ->
  let N := length lat in let c := lat_c lat in let w := lat_w lat in
  exists cf, barot_coefs Rops (barot_geo lat) u = Some cf /\
    coefs_are N cf (diag_of N c w (lat_beta lat) (at1 u))
      (fun n => at1 u (n + 1) * c n / w (n + 1)%nat)%R (fun n => at1 u n * c n / w n)%R
      (fun n => - (c (n - 1)%nat + c n) / w n)%R (fun n => c n / w (n + 1)%nat)%R (fun n => c n / w n)%R.
Proof.
  intros H L Hu N c w. eexists. split; [|reflexivity]. unfold barot_coefs. rewrite Hu. fold N. cbv zeta.
  assert (G : forall n, 1 <= n < N -> gap lat n <> 0%R) by (intros n Hn; apply Rgt_not_eq, gap_pos; auto).
  assert (W : forall n, 1 < n < N -> (earth * deg * ((at1 lat (n + 1) - at1 lat (n - 1)) / 2) <> 0)%R).
  { intros n Hn. rewrite <- lat_w_in by auto. apply Rgt_not_eq, lat_w_pos; auto. fold N. lia. }
  assert (RU : forall n, 1 <= n <= N -> rd u n = Some (at1 u n)) by (intros; apply rd_at1; lia).
  assert (RD : forall n, 1 <= n < N -> rd (dy (barot_geo lat)) n = Some (gap lat n)) by (intros; apply rd_mapseq; fold N; lia).
  assert (RW : forall n, 1 < n < N -> rd (dy2 (barot_geo lat)) (n - 1) = Some (lat_w lat n)).
  { intros n Hn. cbn [dy2 barot_geo]. rewrite rd_mapseq by (fold N; lia). rewrite lat_w_in by auto. replace (n - 1 + 2) with (n + 1) by lia. reflexivity. }
  assert (RB : forall n, 1 <= n <= N -> rd (beta_arr (barot_geo lat)) n = Some (lat_beta lat n)) by (intros; apply rd_mapseq; auto).
  assert (WN : lat_w lat N = gap lat (N - 1)) by (apply lat_w_N; lia).
  assert (CN : lat_c lat N = (/ gap lat (N - 1))%R) by (apply lat_c_N; lia).
  assert (X0 : forall (o : option R) (v : R), o = Some v -> o = Some v) by auto.
  assert (AD : mapM (barot_ad Rops (barot_geo lat) u) (seq 1 N) = Some (map (diag_of N c w (lat_beta lat) (at1 u)) (seq 1 N))).
  { apply mapM_Some_map. intros n Hn. apply in_seq in Hn. unfold barot_ad. rewrite Hu. fold N. rewrite RB, RU by lia. cbn [bind].
    unfold diag_of, c, w. destruct (Nat.eqb_spec n 1) as [->|N1].
    - rewrite RU, RD by lia. cbn [bind]. f_equal. unfold lap. replace (1 - 1) with 0 by lia. rewrite ext_0, !ext_in by lia.
      rewrite lat_c_0, lat_c_in, lat_w_1 by (fold N; lia). cbn. field. apply G. lia.
    - destruct (Nat.eqb_spec n N) as [->|N2].
      + rewrite RU, RD by lia. cbn [bind]. f_equal. unfold lap. rewrite (ext_out N _ (N + 1)), !ext_in by lia.
        rewrite CN, lat_c_in, WN by (fold N; lia). cbn. fold N. field. apply G. lia.
      + rewrite !RU, RW, !RD by lia. cbn [bind]. f_equal. unfold lap. rewrite !ext_in by lia.
        rewrite !lat_c_in, lat_w_in by (fold N; lia). cbn. assert (G1 := G n ltac:(lia)). assert (G2 := G (n - 1) ltac:(lia)). assert (W1 := W n ltac:(lia)).
        set (ww := (earth * deg * ((at1 lat (n + 1) - at1 lat (n - 1)) / 2))%R) in *. field. auto. }
  assert (BD : mapM (barot_bd Rops (barot_geo lat) N) (seq 1 N) = Some (map (fun n => - (c (n - 1)%nat + c n) / w n)%R (seq 1 N))).
  { apply mapM_Some_map. intros n Hn. apply in_seq in Hn. unfold barot_bd, c, w.
    destruct (Nat.eqb_spec n 1) as [->|N1].
    - rewrite RD by lia. cbn [bind]. f_equal. replace (1 - 1) with 0 by lia. rewrite lat_c_0, lat_c_in, lat_w_1 by (fold N; lia). cbn. field. apply G. lia.
    - destruct (Nat.eqb_spec n N) as [->|N2].
      + rewrite RD by lia. cbn [bind]. f_equal. rewrite CN, lat_c_in, WN by (fold N; lia). cbn. fold N. field. apply G. lia.
      + rewrite RW, !RD by lia. cbn [bind]. f_equal. rewrite !lat_c_in, lat_w_in by (fold N; lia). cbn. assert (G1 := G n ltac:(lia)). assert (G2 := G (n - 1) ltac:(lia)). assert (W1 := W n ltac:(lia)).
        set (ww := (earth * deg * ((at1 lat (n + 1) - at1 lat (n - 1)) / 2))%R) in *. field. auto. }
  assert (LO : forall num (v : nat -> R), (forall n, 1 <= n <= N -> num n = Some (v n)) ->
     mapM (barot_low Rops (barot_geo lat) N num) (seq 1 (N - 1)) = Some (map (fun n => v (n + 1)%nat * c n / w (n + 1)%nat)%R (seq 1 (N - 1)))).
  { intros num v Hv. apply mapM_Some_map. intros n Hn. apply in_seq in Hn. unfold barot_low, c, w. rewrite Hv, RD by lia. cbn [bind].
    destruct (Nat.eqb_spec (n + 1) N) as [E|E].
    - rewrite E, WN, lat_c_in by (fold N; lia). cbn. fold N. replace n with (N - 1) by lia. f_equal. field. apply G. lia.
    - replace n with (n + 1 - 1) at 1 by lia. rewrite RW by lia. cbn [bind]. f_equal. rewrite lat_c_in, lat_w_in by (fold N; lia). cbn.
      assert (G1 := G n ltac:(lia)). assert (W1 := W (n + 1) ltac:(lia)). set (ww := (earth * deg * ((at1 lat (n + 1 + 1) - at1 lat (n + 1 - 1)) / 2))%R) in *. field. auto. }
  assert (UP : forall num (v : nat -> R), (forall n, 1 <= n <= N -> num n = Some (v n)) ->
     mapM (barot_up Rops (barot_geo lat) num) (seq 1 (N - 1)) = Some (map (fun n => v n * c n / w n)%R (seq 1 (N - 1)))).
  { intros num v Hv. apply mapM_Some_map. intros n Hn. apply in_seq in Hn. unfold barot_up, c, w. rewrite Hv, RD by lia. cbn [bind].
    destruct (Nat.eqb_spec n 1) as [->|E].
    - rewrite lat_w_1, lat_c_in by (fold N; lia). cbn. f_equal. field. apply G. lia.
    - rewrite RW by lia. cbn [bind]. f_equal. rewrite lat_c_in, lat_w_in by (fold N; lia). cbn.
      assert (G1 := G n ltac:(lia)). assert (W1 := W n ltac:(lia)). set (ww := (earth * deg * ((at1 lat (n + 1) - at1 lat (n - 1)) / 2))%R) in *. field. auto. }
  rewrite AD. cbn [bind]. rewrite (LO _ (at1 u)) by auto. cbn [bind]. rewrite (UP _ (at1 u)) by auto. cbn [bind].
  rewrite BD. cbn [bind]. rewrite (LO _ (fun _ => 1%R)) by auto. cbn [bind]. rewrite (UP _ (fun _ => 1%R)) by auto. cbn [bind].
  f_equal. f_equal; apply map_ext; intros n; unfold Rdiv; ring.
Qed.

(** * The pressure grid *)
Definition baroc_col (theta p t : list R) (f beta : R) : column R :=
  {| dz2 := map (lev_w p) (seq 1 (length p)); nz := map (static theta p t) (seq 1 (length p - 1)); f2 := (f * f)%R; cbeta := beta |}.
Lemma baroc_column_is theta p t f beta : 3 <= length p -> length theta = length p -> length t = length p ->
  baroc_column Rops theta p t f beta = Some (baroc_col theta p t f beta).
Proof.
  intros L Ht Hl. unfold baroc_column. cbv zeta. set (N := length p) in *.
  assert (RP : forall n, 1 <= n <= N -> rd p n = Some (at1 p n)) by (intros; apply rd_at1; auto).
  assert (D1 : mapM (fun n => let* b := rd p (n + 1) in let* a := rd p n in Some (fdiv Rops (fadd Rops b a) (fz Rops 2))) (seq 1 (N - 1)) =
     Some (map (fun n => (at1 p (n + 1) + at1 p n) / 2)%R (seq 1 (N - 1)))).
  { apply mapM_Some_map. intros n Hn. apply in_seq in Hn. rewrite !RP by lia. reflexivity. }
  rewrite D1. cbn [bind].
  match goal with |- bind (mapM ?g (seq 1 N)) _ = _ => assert (D2 : mapM g (seq 1 N) = Some (map (lev_w p) (seq 1 N))) end.
  { apply mapM_Some_map. intros n Hn. apply in_seq in Hn. unfold lev_w. fold N.
    destruct (Nat.eqb_spec n 1) as [->|N1]; [rewrite !RP by lia; reflexivity|].
    destruct (Nat.eqb_spec n N) as [->|N2]; [rewrite !RP by lia; reflexivity|].
    rewrite !rd_mapseq by lia. cbn. f_equal. replace (n - 1 + 1) with n by lia. field. }
  rewrite D2. cbn [bind].
  match goal with |- bind (mapM ?g (seq 1 N)) _ = _ => assert (D3 : mapM g (seq 1 N) = Some (map (fun n => at1 p n / (28704 / 100 * at1 t n))%R (seq 1 N))) end.
  { apply mapM_Some_map. intros n Hn. apply in_seq in Hn. rewrite RP, rd_at1 by lia. reflexivity. }
  rewrite D3. cbn [bind].
  match goal with |- bind (mapM ?g (seq 1 (N - 1))) _ = _ => assert (D4 : mapM g (seq 1 (N - 1)) = Some (map (static theta p t) (seq 1 (N - 1)))) end.
  { apply mapM_Some_map. intros n Hn. apply in_seq in Hn. rewrite !(rd_at1 theta) by lia. rewrite rd_mapseq by lia. cbn. f_equal.
    unfold static, Rdiv. ring. }
  rewrite D4. reflexivity.
Qed.

Lemma lev_w_pos theta p t n : column_ok theta p t -> 3 <= length p -> 1 <= n <= length p -> (0 < lev_w p n)%R.
Proof.
  intros [I _] L Hn. unfold lev_w.
  destruct (Nat.eqb_spec n 1) as [->|]; [specialize (I 1 ltac:(lia)); cbn [Nat.add] in I; lra|].
  destruct (Nat.eqb_spec n (length p)) as [E|]; [specialize (I (n - 1) ltac:(lia)); replace (n - 1 + 1) with n in I by lia; lra|].
  assert (X := I (n - 1) ltac:(lia)). assert (Y := I n ltac:(lia)). replace (n - 1 + 1) with n in X by lia. lra.
Qed.
Lemma lev_c_in theta p t f n : 1 <= n < length p -> lev_c theta p t f n = (f * f / static theta p t n)%R.
Proof. intros H. unfold lev_c. destruct (Nat.eqb_spec n 0); [lia|]. destruct (Nat.eqb_spec n (length p)); [lia|reflexivity]. Qed.
Lemma lev_c_N theta p t f : lev_c theta p t f (length p) = 0%R.
Proof. unfold lev_c. rewrite Nat.eqb_refl. destruct (length p =? 0); reflexivity. Qed.

Lemma baroc_coefs_are theta p t f beta u : column_ok theta p t -> 3 <= length p -> length u = length p ->
  let N := length p in let c := lev_c theta p t f in let w := lev_w p in
  exists cf, baroc_coefs Rops (baroc_col theta p t f beta) u = Some cf /\
    coefs_are N cf (diag_of N c w (fun _ => beta) (at1 u))
      (fun n => at1 u (n + 1) * c n / w (n + 1)%nat)%R (fun n => at1 u n * c n / w n)%R
      (fun n => - (c (n - 1)%nat + c n) / w n)%R (fun n => c n / w (n + 1)%nat)%R (fun n => c n / w n)%R.
Proof.
  intros H L Hu N c w. eexists. split; [|reflexivity]. unfold baroc_coefs. rewrite Hu. fold N. cbv zeta.
  assert (G : forall n, 1 <= n < N -> static theta p t n <> 0%R) by (intros n Hn; apply H; auto).
  assert (W : forall n, 1 <= n <= N -> lev_w p n <> 0%R) by (intros n Hn; apply Rgt_not_eq, (lev_w_pos theta p t); auto).
  assert (RU : forall n, 1 <= n <= N -> rd u n = Some (at1 u n)) by (intros; apply rd_at1; lia).
  assert (RD : forall n, 1 <= n < N -> rd (nz (baroc_col theta p t f beta)) n = Some (static theta p t n)) by (intros; apply rd_mapseq; fold N; lia).
  assert (RW : forall n, 1 <= n <= N -> rd (dz2 (baroc_col theta p t f beta)) n = Some (lev_w p n)) by (intros; apply rd_mapseq; fold N; lia).
  assert (C0 : lev_c theta p t f 0 = 0%R) by reflexivity.
  assert (CN : lev_c theta p t f N = 0%R) by apply lev_c_N.
  assert (AD : mapM (baroc_ad Rops (baroc_col theta p t f beta) u) (seq 1 N) = Some (map (diag_of N c w (fun _ => beta) (at1 u)) (seq 1 N))).
  { apply mapM_Some_map. intros n Hn. apply in_seq in Hn. unfold baroc_ad. rewrite Hu. fold N. rewrite RU, RW by lia. cbn [bind].
    unfold diag_of, c, w. assert (W1 := W n ltac:(lia)). destruct (Nat.eqb_spec n 1) as [->|N1].
    - rewrite RU, RD by lia. cbn [bind]. f_equal. unfold lap. replace (1 - 1) with 0 by lia. rewrite ext_0, !ext_in by lia.
      rewrite C0, lev_c_in by (fold N; lia). cbn. field. split; auto. apply G. lia.
    - destruct (Nat.eqb_spec n N) as [->|N2].
      + rewrite RU, RD by lia. cbn [bind]. f_equal. unfold lap. rewrite (ext_out N _ (N + 1)), !ext_in by lia.
        rewrite CN, lev_c_in by (fold N; lia). cbn. field. split; auto. apply G. lia.
      + rewrite !RU, !RD by lia. cbn [bind]. f_equal. unfold lap. rewrite !ext_in by lia.
        rewrite !lev_c_in by (fold N; lia). cbn. assert (G1 := G n ltac:(lia)). assert (G2 := G (n - 1) ltac:(lia)). field. auto. }
  assert (BD : mapM (baroc_bd Rops (baroc_col theta p t f beta) N) (seq 1 N) = Some (map (fun n => - (c (n - 1)%nat + c n) / w n)%R (seq 1 N))).
  { apply mapM_Some_map. intros n Hn. apply in_seq in Hn. unfold baroc_bd, c, w. rewrite RW by lia. cbn [bind]. assert (W1 := W n ltac:(lia)).
    destruct (Nat.eqb_spec n 1) as [->|N1].
    - rewrite RD by lia. cbn [bind]. f_equal. replace (1 - 1) with 0 by lia. rewrite C0, lev_c_in by (fold N; lia). cbn. field. split; auto. apply G. lia.
    - destruct (Nat.eqb_spec n N) as [->|N2].
      + rewrite RD by lia. cbn [bind]. f_equal. rewrite CN, lev_c_in by (fold N; lia). cbn. field. split; auto. apply G. lia.
      + rewrite !RD by lia. cbn [bind]. f_equal. rewrite !lev_c_in by (fold N; lia). cbn. assert (G1 := G n ltac:(lia)). assert (G2 := G (n - 1) ltac:(lia)). field. auto. }
  assert (LO : forall (num : nat -> option R) (v : nat -> R) sh, sh <= 1 -> (forall n, 1 <= n <= N -> num n = Some (v n * (f * f))%R) ->
     mapM (fun m => baroc_off Rops (baroc_col theta p t f beta) num (m + sh) m) (seq 1 (N - 1)) = Some (map (fun n => v (n + sh)%nat * c n / w (n + sh)%nat)%R (seq 1 (N - 1)))).
  { intros num v sh Hs Hv. apply mapM_Some_map. intros n Hn. apply in_seq in Hn. unfold baroc_off, c, w. rewrite Hv, RW, RD by lia. cbn [bind]. f_equal.
    rewrite lev_c_in by (fold N; lia). cbn. assert (G1 := G n ltac:(lia)). assert (W1 := W (n + sh) ltac:(lia)). field. auto. }
  rewrite AD. cbn [bind].
  assert (Z : forall (num : nat -> option R) l, mapM (fun m => baroc_off Rops (baroc_col theta p t f beta) num m m) l = mapM (fun m => baroc_off Rops (baroc_col theta p t f beta) num (m + 0) m) l).
  { intros num l. apply mapM_ext_in. intros x _. rewrite Nat.add_0_r. reflexivity. }
  rewrite (LO _ (at1 u) 1) by (auto; intros n Hn; rewrite RU by lia; reflexivity). cbn [bind].
  rewrite Z, (LO _ (at1 u) 0) by (auto; intros n Hn; rewrite RU by lia; reflexivity). cbn [bind].
  rewrite BD. cbn [bind].
  rewrite (LO _ (fun _ => 1%R) 1) by (auto; intros n Hn; cbn; f_equal; ring). cbn [bind].
  rewrite Z, (LO _ (fun _ => 1%R) 0) by (auto; intros n Hn; cbn; f_equal; ring). cbn [bind].
  f_equal. f_equal; apply map_ext; intros n; rewrite ?Nat.add_0_r; unfold Rdiv; ring.
Qed.
