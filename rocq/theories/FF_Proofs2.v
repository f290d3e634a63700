(** Cosine and sine sums, the decimation of a sum of length ip * ido into ip
    sums of length ido, and the half-complex packing. *)
From Coq Require Import Reals List Arith Lia Lra Bool.
From Verif Require Import RS_Spec RS_Dft.
Import ListNotations.
Local Open Scope R_scope.

Definition th (N m : nat) : R := 2 * PI * INR m / INR N.
Definition Cs (N : nat) (y : nat -> R) (p : nat) : R := sumR N (fun j => y j * cos (th N (j * p))).
Definition Sn (N : nat) (y : nat -> R) (p : nat) : R := sumR N (fun j => y j * sin (th N (j * p))).

Lemma INR_nz n : (0 < n)%nat -> INR n <> 0.
Proof. intros. apply not_0_INR. lia. Qed.
Lemma th_0 N : th N 0 = 0.
Proof. unfold th. cbn [INR]. unfold Rdiv. ring. Qed.
Lemma th_add N a b : th N (a + b) = th N a + th N b.
Proof. unfold th. rewrite plus_INR. unfold Rdiv. ring. Qed.
Lemma th_sub N a b : (b <= a)%nat -> th N (a - b) = th N a - th N b.
Proof. intros. unfold th. rewrite minus_INR by lia. unfold Rdiv. ring. Qed.
Lemma th_scale c N m : (0 < c)%nat -> (0 < N)%nat -> th (c * N) (c * m) = th N m.
Proof. intros. unfold th. rewrite !mult_INR. field. split; apply INR_nz; auto. Qed.
Lemma th_turn N k : (0 < N)%nat -> th N (N * k) = 2 * INR k * PI.
Proof. intros. unfold th. rewrite mult_INR. field. apply INR_nz; auto. Qed.
Lemma cos_th_turn N k m : (0 < N)%nat -> cos (th N (N * k + m)) = cos (th N m).
Proof. intros. rewrite th_add, th_turn by auto. rewrite Rplus_comm. apply cos_period. Qed.
Lemma sin_th_turn N k m : (0 < N)%nat -> sin (th N (N * k + m)) = sin (th N m).
Proof. intros. rewrite th_add, th_turn by auto. rewrite Rplus_comm. apply sin_period. Qed.
Lemma cos_th_back N k m : (0 < N)%nat -> (m <= N * k)%nat -> cos (th N (N * k - m)) = cos (th N m).
Proof.
  intros. rewrite th_sub, th_turn by auto. replace (2 * INR k * PI - th N m) with (- th N m + 2 * INR k * PI) by ring.
  rewrite cos_period. apply cos_neg.
Qed.
Lemma sin_th_back N k m : (0 < N)%nat -> (m <= N * k)%nat -> sin (th N (N * k - m)) = - sin (th N m).
Proof.
  intros. rewrite th_sub, th_turn by auto. replace (2 * INR k * PI - th N m) with (- th N m + 2 * INR k * PI) by ring.
  rewrite sin_period. apply sin_neg.
Qed.

Lemma sumR_grid a b f : sumR (a * b) f = sumR a (fun s => sumR b (fun j => f (s + a * j)%nat)).
Proof.
  induction b.
  - rewrite Nat.mul_0_r. cbn. symmetry. apply sumR_0. auto.
  - replace (a * S b)%nat with (a * b + a)%nat by lia. rewrite sumR_split, IHb. cbn [sumR].
    rewrite sumR_plus. f_equal. apply sumR_ext. intros. f_equal. lia.
Qed.

Lemma Cs_turn N y a q : (0 < N)%nat -> Cs N y (N * a + q) = Cs N y q.
Proof.
  intros. apply sumR_ext. intros j _. f_equal. replace (j * (N * a + q))%nat with (N * (j * a) + j * q)%nat by nia.
  apply cos_th_turn; auto.
Qed.
Lemma Sn_turn N y a q : (0 < N)%nat -> Sn N y (N * a + q) = Sn N y q.
Proof.
  intros. apply sumR_ext. intros j _. f_equal. replace (j * (N * a + q))%nat with (N * (j * a) + j * q)%nat by nia.
  apply sin_th_turn; auto.
Qed.
Lemma Cs_back N y a q : (0 < N)%nat -> (q <= N * a)%nat -> Cs N y (N * a - q) = Cs N y q.
Proof.
  intros. apply sumR_ext. intros j _. f_equal.
  replace (j * (N * a - q))%nat with (N * (j * a) - j * q)%nat by (rewrite Nat.mul_sub_distr_l; nia).
  apply cos_th_back; nia.
Qed.
Lemma Sn_back N y a q : (0 < N)%nat -> (q <= N * a)%nat -> Sn N y (N * a - q) = - Sn N y q.
Proof.
  intros. unfold Sn. rewrite <- sumR_opp. apply sumR_ext. intros j _.
  replace (j * (N * a - q))%nat with (N * (j * a) - j * q)%nat by (rewrite Nat.mul_sub_distr_l; nia).
  rewrite sin_th_back by nia. ring.
Qed.
Lemma Sn_0 N y : Sn N y 0 = 0.
Proof. apply sumR_0. intros. rewrite Nat.mul_0_r, th_0, sin_0. ring. Qed.
Lemma Sn_half N y h : N = (2 * h)%nat -> Sn N y h = 0.
Proof.
  intros ->. apply sumR_0. intros j _. destruct h; [rewrite (Nat.mul_0_r j), th_0, sin_0; ring|].
  replace (th (2 * S h) (j * S h)) with (INR j * PI).
  - replace (sin (INR j * PI)) with 0; [ring|]. symmetry. apply sin_eq_0_1. exists (Z.of_nat j). now rewrite <- INR_IZR_INZ.
  - unfold th. rewrite !mult_INR. change (INR 2) with 2. field. apply INR_nz; lia.
Qed.

(** ** Decimation *)
Section Decimation.
Variables ip ido : nat.
Hypothesis Hip : (0 < ip)%nat.
Hypothesis Hido : (0 < ido)%nat.
Variable y : nat -> R.
Definition sub (s : nat) : nat -> R := fun j => y (s + ip * j)%nat.
Let N := (ip * ido)%nat.
Lemma th_split s j p : th N ((s + ip * j) * p) = th N (s * p) + th ido (j * p).
Proof.
  replace ((s + ip * j) * p)%nat with (s * p + ip * (j * p))%nat by nia. rewrite th_add. f_equal.
  apply th_scale; auto.
Qed.
Lemma Cs_dec p : Cs N y p = sumR ip (fun s => cos (th N (s * p)) * Cs ido (sub s) p - sin (th N (s * p)) * Sn ido (sub s) p).
Proof.
  unfold Cs, Sn, N. rewrite sumR_grid. apply sumR_ext. intros s _. rewrite <- !sumR_scal, <- sumR_minus.
  apply sumR_ext. intros j _. fold N. rewrite th_split, cos_plus. unfold sub. ring.
Qed.
Lemma Sn_dec p : Sn N y p = sumR ip (fun s => sin (th N (s * p)) * Cs ido (sub s) p + cos (th N (s * p)) * Sn ido (sub s) p).
Proof.
  unfold Cs, Sn, N. rewrite sumR_grid. apply sumR_ext. intros s _. rewrite <- !sumR_scal, <- sumR_plus.
  apply sumR_ext. intros j _. fold N. rewrite th_split, sin_plus. unfold sub. ring.
Qed.

(** Twisted coefficient of order q of the s-th subsequence *)
Definition TR (q s : nat) : R := cos (th N (s * q)) * Cs ido (sub s) q - sin (th N (s * q)) * Sn ido (sub s) q.
Definition TI (q s : nat) : R := - (cos (th N (s * q)) * Sn ido (sub s) q + sin (th N (s * q)) * Cs ido (sub s) q).

Lemma th_block m : th N (ido * m) = th ip m.
Proof. unfold N. rewrite (Nat.mul_comm ip ido). apply th_scale; auto. Qed.
Lemma Cs_plus a q : Cs N y (ido * a + q) = sumR ip (fun s => cos (th ip (s * a)) * TR q s + sin (th ip (s * a)) * TI q s).
Proof.
  rewrite Cs_dec. apply sumR_ext. intros s _. rewrite Cs_turn, Sn_turn by auto.
  replace (s * (ido * a + q))%nat with (ido * (s * a) + s * q)%nat by nia. rewrite th_add.
  rewrite th_block. rewrite cos_plus, sin_plus. unfold TR, TI. ring.
Qed.
Lemma Sn_plus a q : - Sn N y (ido * a + q) = sumR ip (fun s => cos (th ip (s * a)) * TI q s - sin (th ip (s * a)) * TR q s).
Proof.
  rewrite Sn_dec, <- sumR_opp. apply sumR_ext. intros s _. rewrite Cs_turn, Sn_turn by auto.
  replace (s * (ido * a + q))%nat with (ido * (s * a) + s * q)%nat by nia. rewrite th_add.
  rewrite th_block. rewrite cos_plus, sin_plus. unfold TR, TI. ring.
Qed.
Lemma th_minus s a q : (q <= ido * a)%nat -> th N (s * (ido * a - q)) = th ip (s * a) - th N (s * q).
Proof.
  intros. rewrite Nat.mul_sub_distr_l, th_sub by nia. f_equal.
  replace (s * (ido * a))%nat with (ido * (s * a))%nat by nia. unfold N. rewrite (Nat.mul_comm ip ido).
  apply th_scale; auto.
Qed.
Lemma Cs_minus a q : (q <= ido * a)%nat ->
  Cs N y (ido * a - q) = sumR ip (fun s => cos (th ip (s * a)) * TR q s - sin (th ip (s * a)) * TI q s).
Proof.
  intros. rewrite Cs_dec. apply sumR_ext. intros s _. rewrite Cs_back, Sn_back, th_minus by auto.
  rewrite cos_minus, sin_minus. unfold TR, TI. ring.
Qed.
Lemma Sn_minus a q : (q <= ido * a)%nat ->
  - Sn N y (ido * a - q) = sumR ip (fun s => - cos (th ip (s * a)) * TI q s - sin (th ip (s * a)) * TR q s).
Proof.
  intros. rewrite Sn_dec, <- sumR_opp. apply sumR_ext. intros s _. rewrite Cs_back, Sn_back, th_minus by auto.
  rewrite cos_minus, sin_minus. unfold TR, TI. ring.
Qed.
End Decimation.

(** ** Half-complex packing: order 0, then real and imaginary parts in turn *)
Definition hc (N : nat) (y : nat -> R) (t : nat) : R :=
  if andb (Nat.even t) (negb (t =? 0)%nat) then - Sn N y (S t / 2) else Cs N y (S t / 2).
Lemma hc_0 N y : hc N y 0 = Cs N y 0.
Proof. reflexivity. Qed.
Lemma hc_re N y f : (1 <= f)%nat -> hc N y (2 * f - 1) = Cs N y f.
Proof.
  intros. unfold hc. replace (S (2 * f - 1)) with (f * 2)%nat by lia. rewrite Nat.div_mul by lia.
  replace (2 * f - 1)%nat with (S (2 * (f - 1))) by lia. rewrite Nat.even_succ, Nat.odd_mul. reflexivity.
Qed.
Lemma hc_im N y f : (1 <= f)%nat -> hc N y (2 * f) = - Sn N y f.
Proof.
  intros. unfold hc. rewrite Nat.even_mul. replace (2 * f =? 0)%nat with false by (symmetry; apply Nat.eqb_neq; lia).
  cbn [Nat.even andb orb negb]. replace (S (2 * f)) with (f * 2 + 1)%nat by lia. rewrite Nat.div_add_l by lia.
  replace (1 / 2)%nat with 0%nat by reflexivity. now rewrite Nat.add_0_r.
Qed.
Lemma hc_ext N y z t : (forall j, (j < N)%nat -> y j = z j) -> hc N y t = hc N z t.
Proof.
  intros H. unfold hc, Cs, Sn. destruct (andb _ _); [f_equal|]; apply sumR_ext; intros; rewrite H by auto; auto.
Qed.
Lemma hc_one y : hc 1 y 0 = y 0%nat.
Proof. rewrite hc_0. unfold Cs. cbn [sumR]. rewrite Nat.mul_0_l, th_0, cos_0. ring. Qed.

(** The forward transform of RS_Spec *)
Lemma forward_hc N x t : (t < N)%nat -> nth t (forward N x) 0 = hc N (fun j => nth j x 0) t.
Proof.
  intros H. unfold forward.
  match goal with |- nth t (map ?f _) 0 = _ => rewrite (nth_indep (map f (seq 0 N)) 0 (f 0%nat)) by (rewrite map_length, seq_length; auto);
    rewrite (map_nth f), seq_nth by auto end.
  cbn [Nat.add]. unfold hc, Cs, Sn. cbn zeta.
  assert (A : forall m i, angle N m i = th N (i * m)).
  { intros. unfold angle, th. rewrite mult_INR. unfold Rdiv. ring. }
  destruct (andb _ _); [f_equal|]; apply sumR_ext; intros; rewrite A; auto.
Qed.
