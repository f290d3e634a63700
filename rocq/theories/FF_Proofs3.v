(** One forward pass: what it must compute, and the values of the twisted
    coefficients in terms of the elements read by the code. *)
From Coq Require Import Reals List Arith Lia Lra Bool.
From Verif Require Import Base Buffer VH_Model RS_Spec RS_Dft FF_Model FF_Proofs FF_Proofs2.
Import ListNotations.
Local Open Scope R_scope.

(** Every l1-th element, from k *)
Definition strided (x : nat -> R) (l1 k : nat) : nat -> R := fun j => x (k + l1 * j)%nat.
(** Before the pass of radix r: block k + l1 s holds the transform (of length
    ido) of the elements k + l1 s, k + l1 s + l1 r, ... *)
Definition stage_in (d : R) (r ido l1 : nat) (x : nat -> R) (A : list R) : Prop :=
  forall k s t, (k < l1)%nat -> (s < r)%nat -> (t < ido)%nat ->
    nth (t + ido * (k + l1 * s)) A d = hc ido (sub r (strided x l1 k) s) t.
(** After: block k holds the transform (of length r ido) of the elements k, k + l1, ... *)
Definition stage_out (d : R) (r ido l1 : nat) (x : nat -> R) (B : list R) : Prop :=
  forall k t, (k < l1)%nat -> (t < r * ido)%nat -> nth (t + r * ido * k) B d = hc (r * ido) (strided x l1 k) t.
(** The twiddle factors of the pass: w s i is element i of the dummy wa(s+1) *)
Definition twisted (r ido : nat) (w : nat -> nat -> R) : Prop :=
  forall s q, (1 <= s < r)%nat -> (1 <= q)%nat -> (2 * q + 1 <= ido)%nat ->
    w (s - 1)%nat (2 * q - 1)%nat = cos (th (r * ido) (s * q)) /\ w (s - 1)%nat (2 * q)%nat = sin (th (r * ido) (s * q)).

Lemma c3_bound n1 n2 n3 i j k : (1 <= i <= n1)%nat -> (1 <= j <= n2)%nat -> (1 <= k <= n3)%nat -> (c3 n1 n2 i j k < n1 * n2 * n3)%nat.
Proof.
  intros. unfold c3. assert ((j - 1) + n2 * (k - 1) < n2 * n3)%nat.
  { assert (n2 * (k - 1) <= n2 * (n3 - 1))%nat by (apply Nat.mul_le_mono_l; lia).
    rewrite Nat.mul_sub_distr_l in H2. nia. }
  assert (n1 * (j - 1 + n2 * (k - 1)) <= n1 * (n2 * n3 - 1))%nat by (apply Nat.mul_le_mono_l; lia).
  rewrite Nat.mul_sub_distr_l in H3. nia.
Qed.

Section Stage.
Variable d : R.
Variables r ido l1 : nat.
Variable x : nat -> R.
Variable A : list R.
Hypothesis Hr : (0 < r)%nat.
Hypothesis Hido : (0 < ido)%nat.
Hypothesis Hl1 : (0 < l1)%nat.
Hypothesis Hin : stage_in d r ido l1 x A.
Variable w : nat -> nat -> R.
Hypothesis Hw : twisted r ido w.
Let N := (r * ido)%nat.

Definition target (n : nat) : R := hc N (strided x l1 (n / N)) (n mod N).
Lemma target_c3 i j k : (1 <= i <= ido)%nat -> (1 <= j <= r)%nat -> (1 <= k <= l1)%nat ->
  target (c3 ido r i j k) = hc N (strided x l1 (k - 1)) ((i - 1) + ido * (j - 1)).
Proof.
  intros. unfold target.
  assert (B : ((i - 1) + ido * (j - 1) < N)%nat).
  { unfold N. assert (ido * (j - 1) <= ido * (r - 1))%nat by (apply Nat.mul_le_mono_l; lia).
    rewrite Nat.mul_sub_distr_l in H2. nia. }
  replace (c3 ido r i j k) with (((i - 1) + ido * (j - 1)) + (k - 1) * N)%nat by (unfold c3, N; nia).
  rewrite Nat.div_add by lia. rewrite Nat.mod_add by lia. rewrite Nat.div_small, Nat.mod_small by lia. f_equal.
Qed.
Lemma outf_ok i j k e : (1 <= i <= ido)%nat -> (1 <= j <= r)%nat -> (1 <= k <= l1)%nat ->
  e (el3 d ido l1 A) = hc N (strided x l1 (k - 1)) ((i - 1) + ido * (j - 1)) ->
  let y := outf d ido r l1 (i, j, k) e in
  a_ch y = true /\ (a_ix y < ido * r * l1)%nat /\ (forall b, a_val y A b = target (a_ix y)).
Proof.
  intros H1 H2 H3 H4. cbn. split; auto. split; [apply c3_bound; auto|]. intros _. rewrite target_c3; auto.
Qed.

(** From a program whose assignments are right and that reaches every element *)
Lemma pass_ok p B : length B = (ido * r * l1)%nat ->
  (forall y, In y p -> a_ch y = true /\ (a_ix y < ido * r * l1)%nat /\ (forall b, a_val y A b = target (a_ix y))) ->
  (forall i j k, (1 <= i <= ido)%nat -> (1 <= j <= r)%nat -> (1 <= k <= l1)%nat ->
     Exists (fun y => a_ix y = c3 ido r i j k) p) ->
  exists B', run p (A, B) = Some (A, B') /\ length B' = length B /\ stage_out d r ido l1 x B'.
Proof.
  intros HB H1 H2. destruct (run_ch d target p A B) as (B' & R1 & R2 & R3 & _).
  { intros y Hy. rewrite HB. auto. }
  exists B'. split; auto. split; auto. intros k t Hk Ht. fold N in Ht. fold N.
  pose proof (Nat.div_mod_eq t ido). pose proof (Nat.mod_upper_bound t ido ltac:(lia)).
  assert (t / ido < r)%nat by (apply Nat.div_lt_upper_bound; unfold N in Ht; lia).
  specialize (R3 (c3 ido r (t mod ido + 1) (t / ido + 1) (k + 1))).
  replace (c3 ido r (t mod ido + 1) (t / ido + 1) (k + 1)) with (t + k * N)%nat in *
    by (unfold c3, N; rewrite !Nat.add_sub; nia).
  rewrite (Nat.mul_comm N k). rewrite R3.
  - unfold target. rewrite Nat.div_add by lia. rewrite Nat.mod_add by lia. rewrite Nat.div_small, Nat.mod_small by lia. reflexivity.
  - replace (t + k * N)%nat with (c3 ido r (t mod ido + 1) (t / ido + 1) (k + 1))
      by (unfold c3, N; rewrite !Nat.add_sub; nia). apply H2; lia.
Qed.

(** ** Elements read *)
Local Notation y k := (strided x l1 (k - 1)).
Lemma rd_el i k s : (1 <= i <= ido)%nat -> (1 <= k <= l1)%nat -> (s < r)%nat ->
  el3 d ido l1 A i k (S s) = hc ido (sub r (y k) s) (i - 1).
Proof. intros. unfold el3, c3. cbn [Nat.sub]. rewrite Nat.sub_0_r. apply Hin; lia. Qed.

Lemma TR_0 k s : (1 <= k <= l1)%nat -> (s < r)%nat -> TR r ido (y k) 0 s = el3 d ido l1 A 1 k (S s).
Proof. intros. rewrite rd_el by lia. unfold TR. rewrite Nat.mul_0_r, th_0, cos_0, sin_0. rewrite hc_0. ring. Qed.
Lemma TI_0 k s : TI r ido (y k) 0 s = 0.
Proof. unfold TI. rewrite Nat.mul_0_r, th_0, cos_0, sin_0, Sn_0. ring. Qed.
Lemma rd_re k s q : (1 <= k <= l1)%nat -> (s < r)%nat -> (1 <= q)%nat -> (2 * q + 1 <= ido)%nat ->
  el3 d ido l1 A (2 * q + 1 - 1) k (S s) = Cs ido (sub r (y k) s) q.
Proof. intros. rewrite rd_el by lia. replace (2 * q + 1 - 1 - 1)%nat with (2 * q - 1)%nat by lia. apply hc_re; lia. Qed.
Lemma rd_im k s q : (1 <= k <= l1)%nat -> (s < r)%nat -> (1 <= q)%nat -> (2 * q + 1 <= ido)%nat ->
  el3 d ido l1 A (2 * q + 1) k (S s) = - Sn ido (sub r (y k) s) q.
Proof. intros. rewrite rd_el by lia. replace (2 * q + 1 - 1)%nat with (2 * q)%nat by lia. apply hc_im; lia. Qed.
Lemma TR_q k s q : (1 <= k <= l1)%nat -> (1 <= s < r)%nat -> (1 <= q)%nat -> (2 * q + 1 <= ido)%nat ->
  TR r ido (y k) q s = w (s - 1) (2 * q + 1 - 2) * el3 d ido l1 A (2 * q + 1 - 1) k (S s)
                       + w (s - 1) (2 * q + 1 - 1) * el3 d ido l1 A (2 * q + 1) k (S s).
Proof.
  intros. destruct (Hw s q) as [W1 W2]; auto. rewrite rd_re, rd_im by lia.
  replace (2 * q + 1 - 2)%nat with (2 * q - 1)%nat by lia. replace (2 * q + 1 - 1)%nat with (2 * q)%nat by lia.
  rewrite W1, W2. unfold TR. ring.
Qed.
Lemma TI_q k s q : (1 <= k <= l1)%nat -> (1 <= s < r)%nat -> (1 <= q)%nat -> (2 * q + 1 <= ido)%nat ->
  TI r ido (y k) q s = w (s - 1) (2 * q + 1 - 2) * el3 d ido l1 A (2 * q + 1) k (S s)
                       - w (s - 1) (2 * q + 1 - 1) * el3 d ido l1 A (2 * q + 1 - 1) k (S s).
Proof.
  intros. destruct (Hw s q) as [W1 W2]; auto. rewrite rd_re, rd_im by lia.
  replace (2 * q + 1 - 2)%nat with (2 * q - 1)%nat by lia. replace (2 * q + 1 - 1)%nat with (2 * q)%nat by lia.
  rewrite W1, W2. unfold TI. ring.
Qed.
Lemma TR_q0 k q : (1 <= k <= l1)%nat -> (1 <= q)%nat -> (2 * q + 1 <= ido)%nat ->
  TR r ido (y k) q 0 = el3 d ido l1 A (2 * q + 1 - 1) k 1.
Proof. intros. rewrite rd_re by lia. unfold TR. rewrite Nat.mul_0_l, th_0, cos_0, sin_0. ring. Qed.
Lemma TI_q0 k q : (1 <= k <= l1)%nat -> (1 <= q)%nat -> (2 * q + 1 <= ido)%nat ->
  TI r ido (y k) q 0 = el3 d ido l1 A (2 * q + 1) k 1.
Proof. intros. rewrite rd_im by lia. unfold TI. rewrite Nat.mul_0_l, th_0, cos_0, sin_0. ring. Qed.
(** the middle order, ido = 2 h *)
Lemma th_half s h : ido = (2 * h)%nat -> (1 <= h)%nat -> th (r * ido) (s * h) = th (2 * r) s.
Proof.
  intros H2 Hh. replace (r * ido)%nat with (h * (2 * r))%nat by (rewrite H2; nia). rewrite (Nat.mul_comm s h). apply th_scale; lia.
Qed.
Lemma TR_h k s h : (1 <= k <= l1)%nat -> (s < r)%nat -> ido = (2 * h)%nat ->
  TR r ido (y k) h s = cos (th (2 * r) s) * el3 d ido l1 A ido k (S s).
Proof.
  intros H1 H2 H3. rewrite rd_el by lia. unfold TR. rewrite th_half by lia. rewrite (Sn_half ido _ h) by auto.
  replace (ido - 1)%nat with (2 * h - 1)%nat by lia. rewrite hc_re by lia. ring.
Qed.
Lemma TI_h k s h : (1 <= k <= l1)%nat -> (s < r)%nat -> ido = (2 * h)%nat ->
  TI r ido (y k) h s = - sin (th (2 * r) s) * el3 d ido l1 A ido k (S s).
Proof.
  intros H1 H2 H3. rewrite rd_el by lia. unfold TI. rewrite th_half by lia. rewrite (Sn_half ido _ h) by auto.
  replace (ido - 1)%nat with (2 * h - 1)%nat by lia. rewrite hc_re by lia. ring.
Qed.

(** ** Elements written *)
Lemma out_first k : hc N (y k) (1 - 1 + ido * (1 - 1)) =
  sumR r (fun s => cos (th r (s * 0)) * TR r ido (y k) 0 s + sin (th r (s * 0)) * TI r ido (y k) 0 s).
Proof.
  replace (1 - 1 + ido * (1 - 1))%nat with 0%nat by lia. rewrite hc_0. rewrite <- (Cs_plus r ido Hr Hido (y k) 0 0).
  f_equal. lia.
Qed.
Lemma out_head_even a k : (1 <= a)%nat -> hc N (y k) (ido - 1 + ido * (2 * a - 1)) =
  sumR r (fun s => cos (th r (s * a)) * TR r ido (y k) 0 s + sin (th r (s * a)) * TI r ido (y k) 0 s).
Proof.
  intros. replace (ido - 1 + ido * (2 * a - 1))%nat with (2 * (ido * a) - 1)%nat by nia. rewrite hc_re by nia.
  rewrite <- (Cs_plus r ido Hr Hido (y k) a 0). f_equal. lia.
Qed.
Lemma out_head_odd a k : (1 <= a)%nat -> hc N (y k) (1 - 1 + ido * (2 * a + 1 - 1)) =
  sumR r (fun s => cos (th r (s * a)) * TI r ido (y k) 0 s - sin (th r (s * a)) * TR r ido (y k) 0 s).
Proof.
  intros. replace (1 - 1 + ido * (2 * a + 1 - 1))%nat with (2 * (ido * a))%nat by nia. rewrite hc_im by nia.
  rewrite <- (Sn_plus r ido Hr Hido (y k) a 0). f_equal. f_equal. lia.
Qed.
Lemma out_re_plus a q k : (1 <= q)%nat -> hc N (y k) (2 * q + 1 - 1 - 1 + ido * (2 * a + 1 - 1)) =
  sumR r (fun s => cos (th r (s * a)) * TR r ido (y k) q s + sin (th r (s * a)) * TI r ido (y k) q s).
Proof.
  intros. replace (2 * q + 1 - 1 - 1 + ido * (2 * a + 1 - 1))%nat with (2 * (ido * a + q) - 1)%nat by nia.
  rewrite hc_re by nia. apply (Cs_plus r ido Hr Hido (y k) a q).
Qed.
Lemma out_im_plus a q k : (1 <= q)%nat -> hc N (y k) (2 * q + 1 - 1 + ido * (2 * a + 1 - 1)) =
  sumR r (fun s => cos (th r (s * a)) * TI r ido (y k) q s - sin (th r (s * a)) * TR r ido (y k) q s).
Proof.
  intros. replace (2 * q + 1 - 1 + ido * (2 * a + 1 - 1))%nat with (2 * (ido * a + q))%nat by nia.
  rewrite hc_im by nia. apply (Sn_plus r ido Hr Hido (y k) a q).
Qed.
Lemma out_re_minus a q k : (1 <= a)%nat -> (1 <= q)%nat -> (2 * q + 1 <= ido)%nat ->
  hc N (y k) (ido + 2 - (2 * q + 1) - 1 - 1 + ido * (2 * a - 1)) =
  sumR r (fun s => cos (th r (s * a)) * TR r ido (y k) q s - sin (th r (s * a)) * TI r ido (y k) q s).
Proof.
  intros. replace (ido + 2 - (2 * q + 1) - 1 - 1 + ido * (2 * a - 1))%nat with (2 * (ido * a - q) - 1)%nat by nia.
  rewrite hc_re by nia. apply (Cs_minus r ido Hr Hido (y k) a q). nia.
Qed.
Lemma out_im_minus a q k : (1 <= a)%nat -> (1 <= q)%nat -> (2 * q <= ido)%nat ->
  hc N (y k) (ido + 2 - (2 * q + 1) - 1 + ido * (2 * a - 1)) =
  sumR r (fun s => - cos (th r (s * a)) * TI r ido (y k) q s - sin (th r (s * a)) * TR r ido (y k) q s).
Proof.
  intros. replace (ido + 2 - (2 * q + 1) - 1 + ido * (2 * a - 1))%nat with (2 * (ido * a - q))%nat by nia.
  rewrite hc_im by nia. apply (Sn_minus r ido Hr Hido (y k) a q). nia.
Qed.
End Stage.
