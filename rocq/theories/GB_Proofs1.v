(** Stability criteria for the three-point operator. *)
From Coq Require Import Reals List Lra Lia Arith.
From Verif Require Import GB_Spec.
Import ListNotations.
Local Open Scope R_scope.

(** * Sums *)
Lemma sumN_ext f g n : (forall i, (1 <= i <= n)%nat -> f i = g i) -> sumN f n = sumN g n.
Proof. induction n as [|n IH]; intros H; cbn; auto. rewrite IH by (intros; apply H; lia). rewrite (H (S n)) by lia. reflexivity. Qed.
Lemma sumN_le f g n : (forall i, (1 <= i <= n)%nat -> f i <= g i) -> sumN f n <= sumN g n.
Proof.
  induction n as [|n IH]; intros H; cbn; [lra|].
  assert (sumN f n <= sumN g n) by (apply IH; intros; apply H; lia). specialize (H (S n) ltac:(lia)). lra.
Qed.
Lemma sumN_add f g n : sumN (fun i => f i + g i) n = sumN f n + sumN g n.
Proof. induction n as [|n IH]; cbn; [lra|rewrite IH; lra]. Qed.
Lemma sumN_sub f g n : sumN (fun i => f i - g i) n = sumN f n - sumN g n.
Proof. induction n as [|n IH]; cbn; [lra|rewrite IH; lra]. Qed.
Lemma sumN_scal k f n : sumN (fun i => k * f i) n = k * sumN f n.
Proof. induction n as [|n IH]; cbn; [lra|rewrite IH; lra]. Qed.
Lemma sumN_0 f n : (forall i, (1 <= i <= n)%nat -> f i = 0) -> sumN f n = 0.
Proof. intros H. rewrite (sumN_ext f (fun _ => 0) n H). induction n as [|n IH]; cbn; [lra|]. rewrite IH; [lra|]. intros; apply H; lia. Qed.
Lemma sumN_nonneg f n : (forall i, (1 <= i <= n)%nat -> 0 <= f i) -> 0 <= sumN f n.
Proof. induction n as [|n IH]; intros H; cbn; [lra|]. assert (0 <= sumN f n) by (apply IH; intros; apply H; lia). specialize (H (S n) ltac:(lia)). lra. Qed.
Lemma sumN_zero_all f n : (forall i, (1 <= i <= n)%nat -> 0 <= f i) -> sumN f n = 0 -> forall i, (1 <= i <= n)%nat -> f i = 0.
Proof.
  induction n as [|n IH]; intros H E i Hi; [lia|]. cbn in E.
  assert (0 <= sumN f n) by (apply sumN_nonneg; intros; apply H; lia). assert (Hn := H (S n) ltac:(lia)).
  destruct (Nat.eq_dec i (S n)) as [->|]; [lra|]. apply IH; [intros; apply H; lia|lra|lia].
Qed.
Lemma sumN_pos f n i : (forall i, (1 <= i <= n)%nat -> 0 <= f i) -> (1 <= i <= n)%nat -> 0 < f i -> 0 < sumN f n.
Proof.
  intros H Hi Hp. destruct (Rle_lt_or_eq_dec _ _ (sumN_nonneg f n H)) as [|E]; auto.
  assert (f i = 0) by (apply (sumN_zero_all f n H); auto). lra.
Qed.
Lemma sumN_pred f n : (forall i, (1 <= i <= n)%nat -> 0 <= f i) -> sumN f (n - 1) <= sumN f n.
Proof. intros H. destruct n as [|n]; [cbn; lra|]. replace (S n - 1)%nat with n by lia. cbn. specialize (H (S n) ltac:(lia)). lra. Qed.
Lemma sumN_abs f n : Rabs (sumN f n) <= sumN (fun i => Rabs (f i)) n.
Proof. induction n as [|n IH]; cbn; [rewrite Rabs_R0; lra|]. eapply Rle_trans; [apply Rabs_triang|lra]. Qed.
Lemma sumN_shift f n : sumN f (S n) = f 1%nat + sumN (fun i => f (S i)) n.
Proof. induction n as [|n IH]; [cbn; lra|]. change (sumN f (S (S n))) with (sumN f (S n) + f (S (S n))). rewrite IH. cbn. lra. Qed.

Lemma some_pos (f : nat -> R) : forall N, (exists n, (1 <= n <= N)%nat /\ 0 < f n) \/ forall n, (1 <= n <= N)%nat -> f n <= 0.
Proof.
  induction N as [|M IH]; [right; intros; lia|].
  destruct IH as [[n [Hn X]]|IH]; [left; exists n; split; [lia|auto]|].
  destruct (Rle_dec (f (S M)) 0) as [L|L].
  - right. intros n Hn. destruct (Nat.eq_dec n (S M)) as [->|]; auto. apply IH; lia.
  - left. exists (S M). split; [lia|lra].
Qed.

(** * The zero continuation *)
Lemma ext_in N x n : (1 <= n <= N)%nat -> ext N x n = x n.
Proof. intros H. unfold ext. destruct (Nat.leb_spec 1 n); [|lia]. destruct (Nat.leb_spec n N); [reflexivity|lia]. Qed.
Lemma ext_0 N x : ext N x 0 = 0. Proof. reflexivity. Qed.
Lemma ext_out N x n : (N < n)%nat -> ext N x n = 0.
Proof. intros H. unfold ext. destruct (Nat.leb_spec n N); [lia|]. destruct (Nat.leb 1 n); reflexivity. Qed.

Section Operator.
Variables (N : nat) (c w : nat -> R).
Hypothesis Hw : forall n, (1 <= n <= N)%nat -> 0 < w n.
Hypothesis Hc : forall n, (n <= N)%nat -> 0 <= c n.

Definition grad2 (x y : nat -> R) (n : nat) : R := c n * ((ext N x (S n) - ext N x n) * (ext N y (S n) - ext N y n)).
(** flux between n and n+1 *)
Definition flux (a b : nat -> R) (n : nat) : R := c n * (ext N a n * ext N b (S n) - ext N b n * ext N a (S n)).

Lemma lap_w x n : (1 <= n <= N)%nat -> w n * lap N c w x n = c (n - 1)%nat * (ext N x (n - 1) - ext N x n) - c n * (ext N x n - ext N x (n + 1)).
Proof. intros H. unfold lap. specialize (Hw n H). field. lra. Qed.

(** Green's identity, cell by cell *)
Lemma flux_step a b n : (1 <= n <= N)%nat ->
  w n * (a n * lap N c w b n - b n * lap N c w a n) = flux a b n - flux a b (n - 1).
Proof.
  intros H. replace (w n * (a n * lap N c w b n - b n * lap N c w a n)) with (a n * (w n * lap N c w b n) - b n * (w n * lap N c w a n)) by ring.
  rewrite !lap_w by auto. unfold flux. replace (S (n - 1)) with n by lia. replace (n + 1)%nat with (S n) by lia.
  rewrite <- (ext_in N a n H), <- (ext_in N b n H) at 1. rewrite !(ext_in N a n H), !(ext_in N b n H). ring.
Qed.
Lemma flux_0 a b : flux a b 0 = 0.
Proof. unfold flux. rewrite !ext_0. ring. Qed.
Lemma flux_N a b : flux a b N = 0.
Proof. unfold flux. rewrite !(ext_out N _ (S N)) by lia. ring. Qed.
Lemma flux_sum a b m : (m <= N)%nat -> sumN (fun n => w n * (a n * lap N c w b n - b n * lap N c w a n)) m = flux a b m.
Proof.
  induction m as [|m IH]; intros H; cbn [sumN]; [rewrite flux_0; reflexivity|].
  rewrite IH by lia. rewrite flux_step by lia. replace (S m - 1)%nat with m by lia. ring.
Qed.
Lemma green a b : sumN (fun n => w n * (a n * lap N c w b n - b n * lap N c w a n)) N = 0.
Proof. rewrite flux_sum by lia. apply flux_N. Qed.

(** summation by parts *)
Lemma parts_to x m : (m <= N)%nat ->
  sumN (fun n => w n * (x n * lap N c w x n)) m =
  - c 0%nat * (ext N x 1 * ext N x 1) - sumN (grad2 x x) m + c m * (ext N x (S m) * (ext N x (S m) - ext N x m)) * (if (m =? 0)%nat then 0 else 1)
  + (if (m =? 0)%nat then c 0%nat * (ext N x 1 * ext N x 1) else 0).
Proof.
  induction m as [|m IH]; intros H; [cbn; ring|].
  cbn [sumN]. rewrite IH by lia.
  replace (w (S m) * (x (S m) * lap N c w x (S m))) with (x (S m) * (w (S m) * lap N c w x (S m))) by ring.
  rewrite lap_w by lia. replace (S m - 1)%nat with m by lia. replace (S m + 1)%nat with (S (S m)) by lia.
  rewrite <- (ext_in N x (S m)) by lia. unfold grad2. cbn [Nat.eqb].
  destruct m as [|m]; cbn [Nat.eqb]; [rewrite ext_0|]; ring.
Qed.
Lemma parts x : sumN (fun n => w n * (x n * lap N c w x n)) N = - (c 0%nat * (ext N x 1 * ext N x 1)) - sumN (grad2 x x) N.
Proof.
  rewrite parts_to by lia. rewrite (ext_out N x (S N)) by lia. destruct N as [|M]; cbn [Nat.eqb]; [|ring].
  rewrite !(ext_out 0 x 1) by lia. cbn. ring.
Qed.

Definition energy (k : R) (a b : nat -> R) : R :=
  c 0%nat * (ext N a 1 * ext N a 1 + ext N b 1 * ext N b 1) + sumN (fun n => grad2 a a n + grad2 b b n) N
  + k * k * sumN (fun n => w n * (a n * a n + b n * b n)) N.
Lemma energy_sum k a b :
  energy k a b = - sumN (fun n => w n * (a n * opB N c w k a n + b n * opB N c w k b n)) N.
Proof.
  unfold energy, opB.
  rewrite (sumN_ext (fun n => w n * (a n * (lap N c w a n - k * k * a n) + b n * (lap N c w b n - k * k * b n)))
            (fun n => (w n * (a n * lap N c w a n) + w n * (b n * lap N c w b n)) - k * k * (w n * (a n * a n + b n * b n)))) by (intros; ring).
  rewrite sumN_sub, (sumN_add (fun n => w n * (a n * lap N c w a n))), (parts a), (parts b), sumN_scal, sumN_add. ring.
Qed.
Lemma grad2_nonneg x n : (n <= N)%nat -> 0 <= grad2 x x n.
Proof. intros H. unfold grad2. apply Rmult_le_pos; [apply Hc; auto|apply Rle_0_sqr]. Qed.
Lemma energy_pos k a b n : k <> 0 -> (1 <= n <= N)%nat -> (a n <> 0 \/ b n <> 0) -> 0 < energy k a b.
Proof.
  intros Hk Hn Hab. unfold energy.
  assert (0 <= c 0%nat * (ext N a 1 * ext N a 1 + ext N b 1 * ext N b 1)).
  { apply Rmult_le_pos; [apply Hc; lia|]. pose proof (Rle_0_sqr (ext N a 1)). pose proof (Rle_0_sqr (ext N b 1)). unfold Rsqr in *. lra. }
  assert (0 <= sumN (fun n => grad2 a a n + grad2 b b n) N).
  { apply sumN_nonneg. intros i Hi. assert (0 <= grad2 a a i) by (apply grad2_nonneg; lia). assert (0 <= grad2 b b i) by (apply grad2_nonneg; lia). lra. }
  assert (0 < k * k) by (apply Rlt_0_sqr in Hk; exact Hk).
  assert (0 < sumN (fun n => w n * (a n * a n + b n * b n)) N).
  { apply (sumN_pos _ N n); auto.
    - intros i Hi. specialize (Hw i Hi). pose proof (Rle_0_sqr (a i)). pose proof (Rle_0_sqr (b i)). unfold Rsqr in *. apply Rmult_le_pos; lra.
    - specialize (Hw n Hn). apply Rmult_lt_0_compat; auto. pose proof (Rle_0_sqr (a n)). pose proof (Rle_0_sqr (b n)).
      destruct Hab as [X|X]; apply Rlt_0_sqr in X; unfold Rsqr in *; lra. }
  assert (0 < k * k * sumN (fun n => w n * (a n * a n + b n * b n)) N) by (apply Rmult_lt_0_compat; auto). lra.
Qed.

(** ** Eigenpairs *)
Variables (beta u : nat -> R) (k : R).
Let q := pvgrad N c w beta u.
Let P (x : nat -> R) := opB N c w k x.

(** the eigenvalue equation row by row: (k u - s - i t) (P + i Q) + k q (a + i b) = 0 *)
Definition row_eq (s t : R) (a b : nat -> R) : Prop := forall n, (1 <= n <= N)%nat ->
  (k * u n - s) * P a n + t * P b n + k * q n * a n = 0 /\ (k * u n - s) * P b n - t * P a n + k * q n * b n = 0.
Lemma rows_of a b s t :
  (forall n, (1 <= n <= N)%nat ->
     opA N c w beta u k a n = s * opB N c w k a n - t * opB N c w k b n /\
     opA N c w beta u k b n = s * opB N c w k b n + t * opB N c w k a n) <-> row_eq s t a b.
Proof.
  unfold row_eq, P, opA, opB, q. split; intros H n Hn; destruct (H n Hn) as [H1 H2]; split; lra.
Qed.

Lemma solve_row s t a b n : row_eq s t a b -> (1 <= n <= N)%nat -> t <> 0 ->
  let D := (k * u n - s) * (k * u n - s) + t * t in
  0 < D /\ P a n = - (k * q n) * ((k * u n - s) * a n - t * b n) / D /\ P b n = - (k * q n) * ((k * u n - s) * b n + t * a n) / D.
Proof.
  intros H Hn Ht D. destruct (H n Hn) as [H1 H2].
  assert (0 < D). { subst D. apply Rlt_0_sqr in Ht. unfold Rsqr in Ht. pose proof (Rle_0_sqr (k * u n - s)). unfold Rsqr in *. lra. }
  repeat split; auto.
  - apply (Rmult_eq_reg_l D); [|lra]. replace (D * (- (k * q n) * ((k * u n - s) * a n - t * b n) / D)) with (- (k * q n) * ((k * u n - s) * a n - t * b n)) by (field; lra).
    assert (E : D * P a n = (k * u n - s) * ((k * u n - s) * P a n + t * P b n) - t * ((k * u n - s) * P b n - t * P a n)) by (subst D; ring).
    rewrite E. replace ((k * u n - s) * P a n + t * P b n) with (- (k * q n * a n)) by lra. replace ((k * u n - s) * P b n - t * P a n) with (- (k * q n * b n)) by lra. ring.
  - apply (Rmult_eq_reg_l D); [|lra]. replace (D * (- (k * q n) * ((k * u n - s) * b n + t * a n) / D)) with (- (k * q n) * ((k * u n - s) * b n + t * a n)) by (field; lra).
    assert (E : D * P b n = (k * u n - s) * ((k * u n - s) * P b n - t * P a n) + t * ((k * u n - s) * P a n + t * P b n)) by (subst D; ring).
    rewrite E. replace ((k * u n - s) * P a n + t * P b n) with (- (k * q n * a n)) by lra. replace ((k * u n - s) * P b n - t * P a n) with (- (k * q n * b n)) by lra. ring.
Qed.

(** the weight |psi|^2 / |k u - lambda|^2 *)
Definition dens (s t : R) (a b : nat -> R) (n : nat) : R := w n * (a n * a n + b n * b n) / ((k * u n - s) * (k * u n - s) + t * t).

Lemma rayleigh_sum s t a b : row_eq s t a b -> t <> 0 -> k * sumN (fun n => q n * dens s t a b n) N = 0.
Proof.
  intros H Ht. assert (G := green a b).
  assert (E : sumN (fun n => w n * (a n * lap N c w b n - b n * lap N c w a n)) N = - t * (k * sumN (fun n => q n * dens s t a b n) N)).
  { rewrite <- sumN_scal, <- sumN_scal. apply sumN_ext. intros n Hn. destruct (solve_row s t a b n H Hn Ht) as [HD [Ea Eb]].
    replace (a n * lap N c w b n - b n * lap N c w a n) with (a n * P b n - b n * P a n) by (unfold P, opB; ring).
    rewrite Ea, Eb. unfold dens. field. lra. }
  rewrite G in E. destruct (Rmult_integral (- t) (k * sumN (fun n => q n * dens s t a b n) N)) as [X|X]; lra.
Qed.

Lemma fjortoft_sum s t a b U : row_eq s t a b -> t <> 0 ->
  energy k a b = k * k * sumN (fun n => q n * (u n - U) * dens s t a b n) N.
Proof.
  intros H Ht. rewrite energy_sum. assert (Y := rayleigh_sum s t a b H Ht).
  rewrite (sumN_ext (fun n => w n * (a n * opB N c w k a n + b n * opB N c w k b n))
     (fun n => - (k * k) * (q n * (u n - U) * dens s t a b n) + (k * (s - k * U)) * (q n * dens s t a b n))).
  - rewrite sumN_add, !sumN_scal. replace (k * (s - k * U) * sumN (fun n => q n * dens s t a b n) N) with ((s - k * U) * (k * sumN (fun n => q n * dens s t a b n) N)) by ring.
    rewrite Y. ring.
  - intros n Hn. destruct (solve_row s t a b n H Hn Ht) as [HD [Ea Eb]]. fold (P a n) (P b n). rewrite Ea, Eb. unfold dens. field. lra.
Qed.

Lemma dens_nonneg s t a b n : (1 <= n <= N)%nat -> t <> 0 -> 0 <= dens s t a b n.
Proof.
  intros Hn Ht. unfold dens. specialize (Hw n Hn).
  assert (0 < (k * u n - s) * (k * u n - s) + t * t) by (apply Rlt_0_sqr in Ht; pose proof (Rle_0_sqr (k * u n - s)); unfold Rsqr in *; lra).
  apply Rmult_le_pos; [|apply Rlt_le, Rinv_0_lt_compat; auto].
  pose proof (Rle_0_sqr (a n)). pose proof (Rle_0_sqr (b n)). unfold Rsqr in *. apply Rmult_le_pos; lra.
Qed.

Lemma fjortoft_op s t : k <> 0 -> eigenvalue N (opA N c w beta u k) (opB N c w k) s t -> t <> 0 ->
  forall U, exists n, (1 <= n <= N)%nat /\ 0 < q n * (u n - U).
Proof.
  intros Hk [a [b [[m [Hm Hab]] E]]] Ht U. apply rows_of in E.
  assert (F := fjortoft_sum s t a b U E Ht). assert (Pos := energy_pos k a b m Hk Hm Hab).
  assert (Kp : 0 < k * k) by (apply Rlt_0_sqr in Hk; exact Hk).
  destruct (Rle_dec (sumN (fun n => q n * (u n - U) * dens s t a b n) N) 0) as [L|L].
  { exfalso. assert (k * k * sumN (fun n => q n * (u n - U) * dens s t a b n) N <= 0); [|lra].
    replace 0 with (k * k * 0) by ring. apply Rmult_le_compat_l; lra. }
  assert (D : (exists n, (1 <= n <= N)%nat /\ 0 < q n * (u n - U)) \/ forall n, (1 <= n <= N)%nat -> q n * (u n - U) <= 0).
  { apply (some_pos (fun n => q n * (u n - U)) N). }
  destruct D as [D|D]; auto. exfalso. apply L.
  rewrite <- (sumN_0 (fun _ => 0) N) by auto. apply sumN_le. intros n Hn.
  assert (0 <= dens s t a b n) by (apply dens_nonneg; auto). specialize (D n Hn).
  assert (0 <= (- (q n * (u n - U))) * dens s t a b n) by (apply Rmult_le_pos; lra). lra.
Qed.

(** ** The shear bound *)
Lemma shear_sum s t a b : row_eq s t a b -> t * energy k a b = k * sumN (fun n => (u (S n) - u n) * flux a b n) (N - 1).
Proof.
  intros H.
  (* Im of the summed equation *)
  assert (Z : sumN (fun n => w n * (a n * ((k * u n - s) * P b n - t * P a n) - b n * ((k * u n - s) * P a n + t * P b n))) N = 0).
  { apply sumN_0. intros n Hn. destruct (H n Hn) as [H1 H2].
    replace ((k * u n - s) * P b n - t * P a n) with (- (k * q n * b n)) by lra. replace ((k * u n - s) * P a n + t * P b n) with (- (k * q n * a n)) by lra. ring. }
  assert (Z2 : sumN (fun n => w n * (a n * ((k * u n - s) * P b n - t * P a n) - b n * ((k * u n - s) * P a n + t * P b n))) N =
    k * sumN (fun n => u n * (flux a b n - flux a b (n - 1))) N - s * 0 + t * energy k a b).
  { transitivity (sumN (fun n => (k * (u n * (flux a b n - flux a b (n - 1))) + (- s) * (w n * (a n * lap N c w b n - b n * lap N c w a n)))
       + (- t) * (w n * (a n * opB N c w k a n + b n * opB N c w k b n))) N).
    - apply sumN_ext. intros n Hn. rewrite <- flux_step by auto. unfold P, opB. ring.
    - rewrite sumN_add, sumN_add, !sumN_scal, green, energy_sum. ring. }
  rewrite Z in Z2.
  assert (T : forall m, (m <= N)%nat -> sumN (fun n => u n * (flux a b n - flux a b (n - 1))) m =
     (if (m =? 0)%nat then 0 else u m * flux a b m) - sumN (fun n => (u (S n) - u n) * flux a b n) (m - 1)).
  { induction m as [|m IH]; intros Hm; [cbn; ring|]. cbn [sumN]. rewrite IH by lia. replace (S m - 1)%nat with m by lia. cbn [Nat.eqb].
    destruct m as [|m]; cbn [Nat.eqb]; [cbn; rewrite flux_0; ring|]. replace (S m - 1)%nat with m by lia. cbn [sumN]. ring. }
  rewrite T in Z2 by lia. rewrite flux_N in Z2. destruct (N =? 0)%nat; lra.
Qed.

Lemma bound_term M du cn wn a1 b1 a2 b2 : 0 <= M -> 0 <= cn -> 0 < wn -> du * du * cn <= M * M * wn ->
  Rabs (k * (du * (cn * (a1 * b2 - b1 * a2)))) <=
  M / 2 * (cn * ((a2 - a1) * (a2 - a1)) + cn * ((b2 - b1) * (b2 - b1)) + k * k * (wn * (a1 * a1 + b1 * b1))).
Proof.
  intros HM Hcn Hwn HS.
  set (da := a2 - a1). set (db := b2 - b1).
  replace (a1 * b2 - b1 * a2) with (a1 * db - b1 * da) by (subst da db; ring).
  set (R2 := a1 * a1 + b1 * b1). set (S2 := da * da + db * db).
  assert (HR : 0 <= R2) by (subst R2; pose proof (Rle_0_sqr a1); pose proof (Rle_0_sqr b1); unfold Rsqr in *; lra).
  assert (HS2 : 0 <= S2) by (subst S2; pose proof (Rle_0_sqr da); pose proof (Rle_0_sqr db); unfold Rsqr in *; lra).
  assert (CS : (a1 * db - b1 * da) * (a1 * db - b1 * da) <= R2 * S2).
  { subst R2 S2. assert (X := Rle_0_sqr (a1 * da + b1 * db)). unfold Rsqr in X. lra. }
  replace (cn * (da * da) + cn * (db * db) + k * k * (wn * R2)) with (cn * S2 + k * k * (wn * R2)) by (subst S2; ring).
  set (X := cn * S2). set (Y := k * k * (wn * R2)).
  assert (HX : 0 <= X) by (apply Rmult_le_pos; auto).
  assert (HY : 0 <= Y) by (apply Rmult_le_pos; [exact (Rle_0_sqr k)|apply Rmult_le_pos; lra]).
  apply Rsqr_incr_0_var; [|apply Rmult_le_pos; lra]. rewrite <- Rsqr_abs. unfold Rsqr.
  apply Rle_trans with (M * M * (X * Y)).
  - replace (k * (du * (cn * (a1 * db - b1 * da))) * (k * (du * (cn * (a1 * db - b1 * da)))))
      with ((du * du * cn) * (k * k * cn * ((a1 * db - b1 * da) * (a1 * db - b1 * da)))) by ring.
    replace (M * M * (X * Y)) with ((M * M * wn) * (k * k * cn * (R2 * S2))) by (subst X Y; ring).
    assert (KC : 0 <= k * k * cn) by (apply Rmult_le_pos; [exact (Rle_0_sqr k)|auto]).
    apply Rmult_le_compat; auto.
    + apply Rmult_le_pos; [exact (Rle_0_sqr du)|auto].
    + apply Rmult_le_pos; [auto|exact (Rle_0_sqr (a1 * db - b1 * da))].
    + apply Rmult_le_compat_l; auto.
  - replace (M / 2 * (X + Y) * (M / 2 * (X + Y))) with (M * M * ((X + Y) * (X + Y) / 4)) by field.
    apply Rmult_le_compat_l; [exact (Rle_0_sqr M)|]. pose proof (Rle_0_sqr (X - Y)) as Z. unfold Rsqr in Z. lra.
Qed.

Lemma shear_bound_op M s t : k <> 0 -> 0 <= M ->
  (forall n, (1 <= n < N)%nat -> (u (S n) - u n) * (u (S n) - u n) * c n <= M * M * w n) ->
  eigenvalue N (opA N c w beta u k) (opB N c w k) s t -> Rabs t <= M / 2.
Proof.
  intros Hk HM HS [a [b [[m [Hm Hab]] E]]]. apply rows_of in E.
  assert (Pos := energy_pos k a b m Hk Hm Hab). assert (T := shear_sum s t a b E).
  apply (Rmult_le_reg_r (energy k a b)); auto.
  rewrite <- (Rabs_pos_eq (energy k a b)) at 1 by lra. rewrite <- Rabs_mult, T, <- sumN_scal.
  eapply Rle_trans; [apply sumN_abs|].
  apply Rle_trans with (sumN (fun n => M / 2 * (grad2 a a n + grad2 b b n + k * k * (w n * (a n * a n + b n * b n)))) (N - 1)).
  { apply sumN_le. intros n Hn. unfold flux, grad2.
    rewrite !(ext_in N a n), !(ext_in N b n) by lia.
    apply (bound_term M (u (S n) - u n) (c n) (w n) (a n) (b n) (ext N a (S n)) (ext N b (S n))); auto; [apply Hc; lia|apply Hw; lia|apply HS; lia]. }
  rewrite sumN_scal. apply Rmult_le_compat_l; [lra|]. rewrite sumN_add. rewrite sumN_scal. unfold energy.
  assert (A0 : 0 <= c 0%nat * (ext N a 1 * ext N a 1 + ext N b 1 * ext N b 1)).
  { apply Rmult_le_pos; [apply Hc; lia|]. pose proof (Rle_0_sqr (ext N a 1)). pose proof (Rle_0_sqr (ext N b 1)). unfold Rsqr in *. lra. }
  assert (L1 := sumN_pred (fun n => grad2 a a n + grad2 b b n) N). assert (L2 := sumN_pred (fun n => w n * (a n * a n + b n * b n)) N). cbv beta in L1, L2.
  assert (X1 : sumN (fun n => grad2 a a n + grad2 b b n) (N - 1) <= sumN (fun n => grad2 a a n + grad2 b b n) N).
  { apply L1. intros i Hi. assert (0 <= grad2 a a i) by (apply grad2_nonneg; lia). assert (0 <= grad2 b b i) by (apply grad2_nonneg; lia). lra. }
  assert (X2 : k * k * sumN (fun n => w n * (a n * a n + b n * b n)) (N - 1) <= k * k * sumN (fun n => w n * (a n * a n + b n * b n)) N).
  { apply Rmult_le_compat_l; [exact (Rle_0_sqr k)|]. apply L2. intros i Hi. specialize (Hw i Hi). pose proof (Rle_0_sqr (a i)). pose proof (Rle_0_sqr (b i)). unfold Rsqr in *. apply Rmult_le_pos; lra. }
  lra.
Qed.

End Operator.

(** * Consequences and symmetries *)
Lemma upper_bound (f : nat -> R) : forall N, exists U, forall n, (1 <= n <= N)%nat -> f n <= U.
Proof.
  induction N as [|M [U HU]]; [exists 0; intros; lia|].
  exists (Rmax U (f (S M))). intros n Hn. destruct (Nat.eq_dec n (S M)) as [->|]; [apply Rmax_r|].
  eapply Rle_trans; [apply HU; lia|apply Rmax_l].
Qed.
Lemma lower_bound (f : nat -> R) N : exists U, forall n, (1 <= n <= N)%nat -> U <= f n.
Proof. destruct (upper_bound (fun n => - f n) N) as [U H]. exists (- U). intros n Hn. specialize (H n Hn). lra. Qed.

Lemma rayleigh_op N c w beta u k s t :
  (forall n, (1 <= n <= N)%nat -> 0 < w n) -> (forall n, (n <= N)%nat -> 0 <= c n) -> k <> 0 ->
  eigenvalue N (opA N c w beta u k) (opB N c w k) s t -> t <> 0 ->
  (exists n, (1 <= n <= N)%nat /\ 0 < pvgrad N c w beta u n) /\ (exists n, (1 <= n <= N)%nat /\ pvgrad N c w beta u n < 0).
Proof.
  intros Hw Hc Hk E Ht. split.
  - destruct (lower_bound u N) as [U HU]. destruct (fjortoft_op N c w Hw Hc beta u k s t Hk E Ht U) as [n [Hn X]].
    exists n. split; auto. specialize (HU n Hn). destruct (Rle_dec (pvgrad N c w beta u n) 0) as [L|L]; [|lra].
    assert (0 <= (- pvgrad N c w beta u n) * (u n - U)) by (apply Rmult_le_pos; lra). lra.
  - destruct (upper_bound u N) as [U HU]. destruct (fjortoft_op N c w Hw Hc beta u k s t Hk E Ht U) as [n [Hn X]].
    exists n. split; auto. specialize (HU n Hn). destruct (Rle_dec 0 (pvgrad N c w beta u n)) as [L|L]; [|lra].
    assert (0 <= pvgrad N c w beta u n * (U - u n)) by (apply Rmult_le_pos; lra). lra.
Qed.

(** at k = 0 the left operator vanishes; with walls the right one is definite *)
Lemma opA_0 N c w beta u x n : opA N c w beta u 0 x n = 0.
Proof. unfold opA. ring. Qed.
Lemma rest_op N c w beta u s t :
  (forall n, (1 <= n <= N)%nat -> 0 < w n) -> (forall n, (n <= N)%nat -> 0 < c n) ->
  eigenvalue N (opA N c w beta u 0) (opB N c w 0) s t -> t = 0.
Proof.
  intros Hw Hc [a [b [[m [Hm Hab]] E]]]. destruct (Req_dec t 0) as [|Ht]; auto. exfalso.
  assert (Hc' : forall n, (n <= N)%nat -> 0 <= c n) by (intros; apply Rlt_le; auto).
  assert (Z : forall n, (1 <= n <= N)%nat -> opB N c w 0 a n = 0 /\ opB N c w 0 b n = 0).
  { intros n Hn. destruct (E n Hn) as [E1 E2]. rewrite opA_0 in E1, E2.
    assert (Q : 0 < s * s + t * t) by (apply Rlt_0_sqr in Ht; pose proof (Rle_0_sqr s); unfold Rsqr in *; lra).
    set (p := opB N c w 0 a n) in *. set (r := opB N c w 0 b n) in *.
    assert (X1 : (s * s + t * t) * p = 0).
    { replace ((s * s + t * t) * p) with (s * (s * p - t * r) + t * (s * r + t * p)) by ring. rewrite <- E1, <- E2. ring. }
    assert (X2 : (s * s + t * t) * r = 0).
    { replace ((s * s + t * t) * r) with (s * (s * r + t * p) - t * (s * p - t * r)) by ring. rewrite <- E1, <- E2. ring. }
    split; [destruct (Rmult_integral _ _ X1)|destruct (Rmult_integral _ _ X2)]; lra. }
  assert (Vanish : forall x, (forall n, (1 <= n <= N)%nat -> opB N c w 0 x n = 0) -> forall n, (n <= N)%nat -> ext N x n = 0).
  { intros x Hx. assert (S0 := parts N c w Hw Hc' x).
    rewrite sumN_0 in S0. 2:{ intros i Hi. specialize (Hx i Hi). unfold opB in Hx. replace (lap N c w x i) with 0 by lra. ring. }
    assert (G0 : forall i, (1 <= i <= N)%nat -> 0 <= grad2 N c x x i) by (intros i Hi; apply grad2_nonneg; auto; lia).
    assert (S1 := sumN_nonneg _ N G0).
    assert (C0 : 0 <= c 0%nat * (ext N x 1 * ext N x 1)) by (apply Rmult_le_pos; [apply Hc'; lia|exact (Rle_0_sqr _)]).
    assert (S2 : sumN (grad2 N c x x) N = 0) by lra. assert (C1 : c 0%nat * (ext N x 1 * ext N x 1) = 0) by lra.
    assert (Z1 : ext N x 1 = 0).
    { assert (H0 := Hc 0%nat ltac:(lia)). destruct (Rmult_integral _ _ C1) as [|X]; [lra|]. destruct (Rmult_integral _ _ X); auto. }
    induction n as [|n IHn]; intros Hn; [apply ext_0|]. destruct n as [|n]; [exact Z1|].
    assert (Y := sumN_zero_all _ N G0 S2 (S n) ltac:(lia)). unfold grad2 in Y. assert (H0 := Hc (S n) ltac:(lia)).
    rewrite IHn in Y by lia. destruct (Rmult_integral _ _ Y) as [|X]; [lra|]. destruct (Rmult_integral _ _ X); lra. }
  assert (Va := Vanish a (fun n Hn => proj1 (Z n Hn)) m ltac:(lia)). assert (Vb := Vanish b (fun n Hn => proj2 (Z n Hn)) m ltac:(lia)).
  rewrite ext_in in Va, Vb by auto. destruct Hab; auto.
Qed.

(** complex eigenvalues come in conjugate pairs *)
Lemma lap_scal N c w m x n : lap N c w (fun i => m * x i) n = m * lap N c w x n.
Proof.
  assert (E : forall i, ext N (fun i => m * x i) i = m * ext N x i) by (intros i; unfold ext; destruct (andb _ _); ring).
  unfold lap. rewrite !E. unfold Rdiv. ring.
Qed.
Lemma lap_add N c w x y n : lap N c w (fun i => x i + y i) n = lap N c w x n + lap N c w y n.
Proof.
  assert (E : forall i, ext N (fun i => x i + y i) i = ext N x i + ext N y i) by (intros i; unfold ext; destruct (andb _ _); ring).
  unfold lap. rewrite !E. unfold Rdiv. ring.
Qed.
Lemma lap_ext N c w x y n : (1 <= n <= N)%nat -> (forall i, (1 <= i <= N)%nat -> x i = y i) -> lap N c w x n = lap N c w y n.
Proof.
  intros Hn H. assert (E : forall i, ext N x i = ext N y i).
  { intros i. unfold ext. destruct (Nat.leb_spec 1 i); destruct (Nat.leb_spec i N); cbn; auto. }
  unfold lap. rewrite !E. reflexivity.
Qed.
Lemma conjugate_op N c w beta u k s t :
  eigenvalue N (opA N c w beta u k) (opB N c w k) s t -> eigenvalue N (opA N c w beta u k) (opB N c w k) s (- t).
Proof.
  intros [a [b [[m [Hm Hab]] E]]]. exists a, (fun i => -1 * b i). split.
  - exists m. split; auto. destruct Hab; [left|right]; lra.
  - intros n Hn. destruct (E n Hn) as [E1 E2]. unfold opA, opB in *. rewrite !lap_scal. split; lra.
Qed.

(** a frame moving with speed U, no walls *)
Lemma lap_const N c w U n : (1 <= n <= N)%nat -> c 0%nat = 0 -> c N = 0 -> lap N c w (fun _ => U) n = 0.
Proof.
  intros Hn H0 HN. unfold lap. rewrite (ext_in N _ n) by auto.
  assert (L : c (n - 1)%nat * (ext N (fun _ => U) (n - 1) - U) = 0).
  { destruct (Nat.eq_dec n 1) as [->|]; [cbn; rewrite H0; ring|]. rewrite ext_in by lia. ring. }
  assert (Rr : c n * (U - ext N (fun _ => U) (n + 1)) = 0).
  { destruct (Nat.eq_dec n N) as [->|]; [rewrite HN; ring|]. rewrite ext_in by lia. ring. }
  rewrite L, Rr. unfold Rdiv. ring.
Qed.
Lemma shift_op N c w beta u k U x n : (1 <= n <= N)%nat -> c 0%nat = 0 -> c N = 0 ->
  opA N c w beta (fun i => u i + U) k x n = opA N c w beta u k x n + k * U * opB N c w k x n.
Proof.
  intros Hn H0 HN. unfold opA, opB, pvgrad. rewrite (lap_add N c w u (fun _ => U)). rewrite lap_const by auto. ring.
Qed.
Lemma galilean_op N c w beta u k U s t : c 0%nat = 0 -> c N = 0 ->
  eigenvalue N (opA N c w beta (fun i => u i + U) k) (opB N c w k) (s + k * U) t <->
  eigenvalue N (opA N c w beta u k) (opB N c w k) s t.
Proof.
  intros H0 HN. split; intros [a [b [X E]]]; exists a, b; split; auto; intros n Hn; destruct (E n Hn) as [E1 E2];
    rewrite !shift_op in * by auto; split; lra.
Qed.

(** without walls every number is an eigenvalue of the k = 0 problem *)
Lemma singular_op N c w beta u s t : (1 <= N)%nat -> c 0%nat = 0 -> c N = 0 ->
  eigenvalue N (opA N c w beta u 0) (opB N c w 0) s t.
Proof.
  intros HN H0 HcN. exists (fun _ => 1), (fun _ => 0). split; [exists 1%nat; split; [lia|left; lra]|].
  intros n Hn. rewrite !opA_0. unfold opB. rewrite !lap_const by auto. split; ring.
Qed.

(** reflecting the domain *)
Definition mirror (N : nat) (f : nat -> R) (n : nat) : R := f (N + 1 - n)%nat.
Definition mirrorc (N : nat) (c : nat -> R) (n : nat) : R := c (N - n)%nat.
Lemma lap_mirror N c w x n : (1 <= n <= N)%nat ->
  lap N (mirrorc N c) (mirror N w) (mirror N x) n = lap N c w x (N + 1 - n).
Proof.
  intros Hn.
  assert (E : forall i, (i <= N + 1)%nat -> ext N (mirror N x) i = ext N x (N + 1 - i)).
  { intros i Hi. unfold ext, mirror. destruct (Nat.leb_spec 1 i), (Nat.leb_spec i N), (Nat.leb_spec 1 (N + 1 - i)), (Nat.leb_spec (N + 1 - i) N); cbn; auto; lia. }
  unfold lap. rewrite !E by lia. unfold mirrorc, mirror.
  replace (N + 1 - (n - 1))%nat with (N + 1 - n + 1)%nat by lia. replace (N + 1 - (n + 1))%nat with (N + 1 - n - 1)%nat by lia.
  replace (N - (n - 1))%nat with (N + 1 - n)%nat by lia. replace (N - n)%nat with (N + 1 - n - 1)%nat by lia.
  unfold Rdiv. ring.
Qed.
Lemma mirror_op N c w beta u k s t :
  eigenvalue N (opA N c w beta u k) (opB N c w k) s t ->
  eigenvalue N (opA N (mirrorc N c) (mirror N w) (mirror N beta) (mirror N u) k) (opB N (mirrorc N c) (mirror N w) k) s t.
Proof.
  intros [a [b [[m [Hm Hab]] E]]]. exists (mirror N a), (mirror N b). split.
  - exists (N + 1 - m)%nat. split; [lia|]. unfold mirror. replace (N + 1 - (N + 1 - m))%nat with m by lia. auto.
  - intros n Hn. destruct (E (N + 1 - n)%nat ltac:(lia)) as [E1 E2].
    unfold opA, opB, pvgrad in *. rewrite !lap_mirror by auto. unfold mirror. split; auto.
Qed.

(** only the values on 1..N matter *)
Lemma op_ext N c w beta u c' w' beta' u' k x n :
  (1 <= n <= N)%nat -> (forall i, (i <= N)%nat -> c i = c' i) -> (forall i, (1 <= i <= N)%nat -> w i = w' i /\ beta i = beta' i /\ u i = u' i) ->
  opA N c w beta u k x n = opA N c' w' beta' u' k x n /\ opB N c w k x n = opB N c' w' k x n.
Proof.
  intros Hn Hc H. destruct (H n Hn) as [Hw [Hb Hu]].
  assert (L : forall y, lap N c w y n = lap N c' w' y n) by (intros y; unfold lap; rewrite !Hc, Hw by lia; reflexivity).
  unfold opA, opB, pvgrad. rewrite !L, Hb, Hu.
  rewrite (lap_ext N c' w' u u' n Hn) by (intros i Hi; apply H; auto). auto.
Qed.
Lemma eigenvalue_ext N A B A' B' s t :
  (forall x n, (1 <= n <= N)%nat -> A x n = A' x n /\ B x n = B' x n) -> eigenvalue N A B s t <-> eigenvalue N A' B' s t.
Proof.
  intros H. split; intros [a [b [X E]]]; exists a, b; split; auto; intros n Hn; destruct (E n Hn) as [E1 E2];
    destruct (H a n Hn) as [Aa Ba], (H b n Hn) as [Ab Bb]; rewrite ?Aa, ?Ab, ?Ba, ?Bb in *; auto.
Qed.
