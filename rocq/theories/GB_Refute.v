(** C71, the part that fails: the barotropic problem is not invariant under adding a
    constant to the wind.  Its walls hold the wind at zero one cell outside the
    domain, so a constant wind is sheared at the first and last latitude. *)
From Coq Require Import Reals List Lra Lia Arith Psatz.
From Verif Require Import Base Buffer Loops VH_Model VH_Proofs GB_Model GB_Spec GB_Real GB_Proofs1 GB_Proofs2 GB_Proofs3 GB_Proofs4 GB_Grids GB_Props GB_Props2.
Import ListNotations.
Local Open Scope nat_scope.
Local Open Scope R_scope.

Definition h3 : R := gap lat3 1.
Definition w3 : R := lat_w lat3 2.
Definition b1 : R := lat_beta lat3 1.
Definition b2 : R := lat_beta lat3 2.
Lemma g2_h3 : gap lat3 2 = h3.
Proof. unfold h3. rewrite !lat3_gap by auto. reflexivity. Qed.
Lemma c3 n : (n <= 3)%nat -> lat_c lat3 n = / h3.
Proof.
  intros Hn. assert (n = 0 \/ n = 1 \/ n = 2 \/ n = 3)%nat as [->|[->|[->| ->]]] by lia; unfold lat_c; cbn [Nat.eqb length lat3 Nat.sub]; rewrite ?g2_h3; reflexivity.
Qed.
Lemma w3_1 : lat_w lat3 1 = h3. Proof. reflexivity. Qed.
Lemma w3_3 : lat_w lat3 3 = h3. Proof. change (lat_w lat3 3) with (gap lat3 2). apply g2_h3. Qed.
Lemma b3_3 : lat_beta lat3 3 = b1.
Proof. unfold b1, lat_beta. replace (deg * at1 lat3 3) with (- (deg * at1 lat3 1)) by (unfold at1; cbn; ring). rewrite cos_neg. reflexivity. Qed.
Lemma h3_pos : 0 < h3. Proof. apply gap_pos; [exact lat3_ok|cbn; lia]. Qed.
Lemma w3_pos : 0 < w3. Proof. apply lat_w_pos; [exact lat3_ok|cbn; lia|cbn; lia]. Qed.
Lemma b2_pos : 0 < b2.
Proof.
  unfold b2, lat_beta, at1. cbn [nth lat3 Nat.sub]. rewrite Rmult_0_r, cos_0. unfold spin, earth. lra.
Qed.
(** the sizes of the cells: below 8.5 million metres *)
Lemma w3_small : w3 <= 8500000.
Proof.
  unfold w3, lat_w, at1. cbn [Nat.eqb length lat3 nth Nat.sub Nat.add]. assert (X := PI_4). unfold earth, deg. lra.
Qed.
Lemma h3_small : h3 <= 8500000.
Proof.
  unfold h3. rewrite lat3_gap by auto. assert (X := PI_4). assert (Y := PI_RGT_0). destruct (COS_bound (PI / 6)) as [_ C].
  apply Rle_trans with (earth * deg * 60 * 1); [|unfold earth, deg; lra].
  apply Rmult_le_compat_l; auto. unfold earth, deg. lra.
Qed.

Definition k3 : R := 1 / 10000000.
Definition p_ : R := 2 + k3 * k3 * h3 * h3.
Definition s_ : R := 2 + k3 * k3 * h3 * w3.
Definition m_ : R := s_ * p_ - 2.
Definition disc_ : R := (m_ + s_ - p_) * (m_ + s_ - p_) - 4 * m_ * (s_ - 1).
Lemma p_range : 2 <= p_ <= 11 / 4.
Proof.
  unfold p_, k3. assert (A := h3_pos). assert (B := h3_small).
  assert (0 <= h3 * h3) by nra. assert (h3 * h3 <= 8500000 * 8500000) by nra. lra.
Qed.
Lemma s_range : 2 <= s_ <= 11 / 4.
Proof.
  unfold s_, k3. assert (A := h3_pos). assert (B := h3_small). assert (C := w3_pos). assert (D := w3_small).
  assert (0 <= h3 * w3) by nra. assert (h3 * w3 <= 8500000 * 8500000) by nra. lra.
Qed.
Lemma m_pos : 0 < m_.
Proof. unfold m_. assert (A := p_range). assert (B := s_range). nra. Qed.
Lemma disc_neg : disc_ < 0.
Proof.
  unfold disc_, m_. assert (A := p_range). assert (B := s_range). set (X := (s_ - 1) * (p_ - 1)).
  assert (1 <= X <= 4) by (unfold X; nra).
  match goal with |- ?L < 0 => replace L with (X * X - 6 * X + 1) by (unfold X; ring) end. nra.
Qed.
Definition re_ : R := - (m_ + s_ - p_) / (2 * m_).
Definition im_ : R := sqrt (- disc_) / (2 * m_).
Lemma im_pos : 0 < im_.
Proof. unfold im_. assert (A := m_pos). assert (B := disc_neg). apply Rmult_lt_0_compat; [apply sqrt_lt_R0; lra|apply Rinv_0_lt_compat; lra]. Qed.
Lemma root_re : m_ * (re_ * re_ - im_ * im_) + (m_ + s_ - p_) * re_ + (s_ - 1) = 0.
Proof.
  assert (A := m_pos). assert (B := disc_neg).
  assert (I : im_ * im_ = - disc_ / (4 * m_ * m_)).
  { unfold im_. replace (sqrt (- disc_) / (2 * m_) * (sqrt (- disc_) / (2 * m_))) with (sqrt (- disc_) * sqrt (- disc_) / (4 * m_ * m_)) by (field; lra).
    rewrite sqrt_sqrt by lra. reflexivity. }
  rewrite I. unfold re_, disc_. field. lra.
Qed.
Lemma root_im : 2 * m_ * re_ * im_ + (m_ + s_ - p_) * im_ = 0.
Proof. assert (A := m_pos). unfold re_. field. lra. Qed.

(** the jet *)
Definition C3 : R := - b1 * h3 * h3.
Definition V3 : R := b2 * w3 * h3.
Definition jet : list R := [C3; C3 - V3; C3].
Lemma jet_profile U : profile_ok lat3 (faster U jet).
Proof. split; [exact lat3_ok|]. split; [cbn; lia|reflexivity]. Qed.
Lemma V3_pos : 0 < V3.
Proof. unfold V3. assert (A := h3_pos). assert (B := w3_pos). assert (C := b2_pos). apply Rmult_lt_0_compat; [apply Rmult_lt_0_compat; auto|auto]. Qed.

Lemma lap3_1 x : lap 3 (lat_c lat3) (lat_w lat3) x 1 = (- 2 * x 1%nat + x 2%nat) / (h3 * h3).
Proof. unfold lap. rewrite !c3 by lia. rewrite w3_1. unfold ext. cbn [Nat.sub Nat.add Nat.leb andb]. assert (A := h3_pos). field. lra. Qed.
Lemma lap3_2 x : lap 3 (lat_c lat3) (lat_w lat3) x 2 = (x 1%nat - 2 * x 2%nat + x 3%nat) / (h3 * w3).
Proof. unfold lap. rewrite !c3 by lia. fold w3. unfold ext. cbn [Nat.sub Nat.add Nat.leb andb]. assert (A := h3_pos). assert (B := w3_pos). field. lra. Qed.
Lemma lap3_3 x : lap 3 (lat_c lat3) (lat_w lat3) x 3 = (x 2%nat - 2 * x 3%nat) / (h3 * h3).
Proof. unfold lap. rewrite !c3 by lia. rewrite w3_3. unfold ext. cbn [Nat.sub Nat.add Nat.leb andb]. assert (A := h3_pos). field. lra. Qed.

(** the symmetric mode *)
Definition re_mode (n : nat) : R := if (n =? 2)%nat then p_ * re_ + 1 else re_.
Definition im_mode (n : nat) : R := if (n =? 2)%nat then p_ * im_ else im_.
Lemma jet_unstable : eigenvalue 3 (opA 3 (lat_c lat3) (lat_w lat3) (lat_beta lat3) (at1 jet) k3) (opB 3 (lat_c lat3) (lat_w lat3) k3)
  (k3 * (C3 + re_ * V3)) (k3 * (im_ * V3)).
Proof.
  assert (A := h3_pos). assert (B := w3_pos). assert (R1 := root_re). assert (R2 := root_im).
  assert (B1 : b1 = - C3 / (h3 * h3)) by (unfold C3; field; lra). assert (B2 : b2 = V3 / (w3 * h3)) by (unfold V3; field; lra).
  exists re_mode, im_mode. split; [exists 1%nat; split; [lia|right; change (im_mode 1) with im_; apply Rgt_not_eq, im_pos]|].
  unfold m_ in R1, R2. intros n Hn. unfold opA, opB, pvgrad. assert (n = 1 \/ n = 2 \/ n = 3)%nat as [->|[->| ->]] by lia.
  - rewrite !lap3_1. unfold re_mode, im_mode, jet, at1. cbn [Nat.eqb nth Nat.sub]. fold b1. rewrite B1. unfold p_. split; field; lra.
  - rewrite !lap3_2. unfold re_mode, im_mode, jet, at1. cbn [Nat.eqb nth Nat.sub]. fold b2. rewrite B2.
    assert (K2 : k3 * k3 = (s_ - 2) / (h3 * w3)) by (unfold s_; field; lra).
    replace (k3 * k3 * k3) with (k3 * ((s_ - 2) / (h3 * w3))) by (rewrite <- K2; ring). rewrite K2.
    generalize s_, p_, re_, im_, R1, R2. clear - A B. intros s p a b R1 R2.
    split; apply Rminus_diag_uniq.
    + match goal with |- ?L = 0 => replace L with (k3 * V3 / (h3 * w3) * ((s * p - 2) * (a * a - b * b) + (s * p - 2 + s - p) * a + (s - 1))) by (field; lra) end.
      rewrite R1. ring.
    + match goal with |- ?L = 0 => replace L with (k3 * V3 / (h3 * w3) * (2 * (s * p - 2) * a * b + (s * p - 2 + s - p) * b)) by (field; lra) end.
      rewrite R2. ring.
  - rewrite !lap3_3. unfold re_mode, im_mode, jet, at1. cbn [Nat.eqb nth Nat.sub]. rewrite b3_3, B1. unfold p_. split; field; lra.
Qed.
(** the same jet in a frame moving with the speed V + 1 *)
Lemma moved_q n : (1 <= n <= 3)%nat -> lat_q lat3 (faster (- V3 - 1) jet) n < 0.
Proof.
  intros Hn. assert (A := h3_pos). assert (B := w3_pos). assert (C := b2_pos). assert (I : 0 < / (h3 * h3)) by (apply Rinv_0_lt_compat, Rmult_lt_0_compat; auto).
  assert (B1 : b1 = - C3 / (h3 * h3)) by (unfold C3; field; lra). assert (B2 : V3 / (h3 * w3) = b2) by (unfold V3; field; lra).
  unfold lat_q, pvgrad. cbn [length lat3]. assert (n = 1 \/ n = 2 \/ n = 3)%nat as [->|[->| ->]] by lia.
  - rewrite lap3_1. fold b1. unfold faster, jet, at1. cbn [map nth Nat.sub]. rewrite B1.
    match goal with |- ?L < 0 => replace L with (- / (h3 * h3)) by (field; lra) end. lra.
  - rewrite lap3_2. fold b2. unfold faster, jet, at1. cbn [map nth Nat.sub]. 
    match goal with |- ?L < 0 => replace L with (b2 - 2 * (V3 / (h3 * w3))) by (field; lra) end. lra.
  - rewrite lap3_3. rewrite b3_3. unfold faster, jet, at1. cbn [map nth Nat.sub]. rewrite B1.
    match goal with |- ?L < 0 => replace L with (- / (h3 * h3)) by (field; lra) end. lra.
Qed.

(** a profile with a growing mode that, seen from a moving frame, has none *)
Theorem barot_galilean_refuted : exists lat u k U A B A' B' s t,
  profile_ok lat u /\ barot_pencil lat u k A B /\ barot_pencil lat (faster U u) k A' B' /\
  t <> 0 /\ eigenvalue (length lat) (mv A) (mv B) s t /\
  forall s' t', eigenvalue (length lat) (mv A') (mv B') s' t' -> t' = 0.
Proof.
  assert (J : profile_ok lat3 jet) by (split; [exact lat3_ok|split; [cbn; lia|reflexivity]]).
  destruct (barot_assembled lat3 jet k3 J) as [A [B [P _]]]. destruct (barot_assembled lat3 (faster (- V3 - 1) jet) k3 (jet_profile _)) as [A' [B' [P' _]]].
  exists lat3, jet, k3, (- V3 - 1), A, B, A', B', (k3 * (C3 + re_ * V3)), (k3 * (im_ * V3)).
  split; [exact J|]. split; [exact P|]. split; [exact P'|]. split.
  - apply Rgt_not_eq. apply Rmult_lt_0_compat; [unfold k3; lra|]. apply Rmult_lt_0_compat; [apply im_pos|apply V3_pos].
  - split; [apply (barot_eigen lat3 jet k3 A B); auto; apply jet_unstable|].
    intros s' t' E. destruct (Req_dec t' 0) as [|T]; auto. exfalso.
    destruct (barot_rayleigh lat3 (faster (- V3 - 1) jet) k3 A' B' s' t' (jet_profile _) P' E T) as [[n [Hn X]] _].
    assert (Y := moved_q n Hn). lra.
Qed.
Print Assumptions barot_galilean_refuted.
