(** A concrete instance of the hypotheses about the Legendre tables: three
    Gaussian latitudes, truncation 2.  The normalised functions at
    cos(theta) = a, 0, -a with a = sqrt(3/5) and sin(theta) = b = sqrt(2/5), 1, b. *)
From Coq Require Import Reals List Arith Lia Lra Nsatz.
From Verif Require Import SH_Spec RS_Spec.
Import ListNotations.
Local Open Scope R_scope.

Definition a := sqrt (3 / 5).
Definition b := sqrt (2 / 5).
Definition w1 := 5 / 9.
Definition w2 := 8 / 9.
Definition c00 := sqrt (1 / 2).
Definition c01 := sqrt (3 / 2).
Definition c02 := sqrt (5 / 8).
Definition c11 := sqrt (3 / 4).
Definition c12 := sqrt (15 / 4).
Definition c22 := sqrt (15 / 16).

(** (0,0) (0,1) (0,2) (1,1) (1,2) (2,2) at cosine x and sine s *)
Definition legendre_at (x s : R) : list R :=
  [c00; c01 * x; c02 * (3 * x * x - 1); c11 * s; c12 * s * x; c22 * s * s].
(** their derivatives in colatitude *)
Definition dlegendre_at (x s : R) : list R :=
  [0; - c01 * s; - 6 * c02 * x * s; c11 * x; c12 * (x * x - s * s); 2 * c22 * s * x].
Definition table3 := [legendre_at a b; legendre_at 0 1; legendre_at (- a) b].
Definition dtable3 := [dlegendre_at a b; dlegendre_at 0 1; dlegendre_at (- a) b].
Definition weights3 := [w1; w2; w1].
Definition sin3 := [b; 1; b].

Lemma sq (x : R) : 0 <= x -> sqrt x * sqrt x = x.
Proof. apply sqrt_sqrt. Qed.
Lemma a2 : a * a = 3 / 5. Proof. apply sq. lra. Qed.
Lemma b2 : b * b = 2 / 5. Proof. apply sq. lra. Qed.
Lemma c00_2 : c00 * c00 = 1 / 2. Proof. apply sq. lra. Qed.
Lemma c01_2 : c01 * c01 = 3 / 2. Proof. apply sq. lra. Qed.
Lemma c02_2 : c02 * c02 = 5 / 8. Proof. apply sq. lra. Qed.
Lemma c11_2 : c11 * c11 = 3 / 4. Proof. apply sq. lra. Qed.
Lemma c12_2 : c12 * c12 = 15 / 4. Proof. apply sq. lra. Qed.
Lemma c22_2 : c22 * c22 = 15 / 16. Proof. apply sq. lra. Qed.
Lemma b_pos : 0 < b. Proof. apply sqrt_lt_R0. lra. Qed.
Lemma inv_b : / b = 5 / 2 * b.
Proof. pose proof b_pos. apply Rmult_eq_reg_l with b; [|lra]. rewrite Rinv_r by lra. replace (b * (5 / 2 * b)) with (5 / 2 * (b * b)) by ring. rewrite b2. lra. Qed.

Ltac degree H := let E := fresh in
  match type of H with (?m <= ?n <= 2)%nat => 
    assert (E : (n = 0 \/ n = 1 \/ n = 2)%nat) by lia; destruct E as [E|[E|E]]; subst n; try lia end.
Ltac order m := let E := fresh in assert (E : (m = 0 \/ m = 1 \/ m = 2)%nat) by lia; destruct E as [E|[E|E]]; subst m.
(** polynomial identities modulo the squares, without fractions *)
Definition ib := / b.
Lemma ideal (P : R -> R -> R -> R -> R -> R -> R -> R -> R -> R -> R -> Prop) :
  (forall A B IB C0 C1 C2 C3 C4 C5 W1 W2, 5 * (A * A) = 3 -> 5 * (B * B) = 2 -> 2 * IB = 5 * B -> 2 * (C0 * C0) = 1 -> 2 * (C1 * C1) = 3 -> 8 * (C2 * C2) = 5 ->
     4 * (C3 * C3) = 3 -> 4 * (C4 * C4) = 15 -> 16 * (C5 * C5) = 15 -> 9 * W1 = 5 -> 9 * W2 = 8 -> P A B IB C0 C1 C2 C3 C4 C5 W1 W2) ->
  P a b ib c00 c01 c02 c11 c12 c22 w1 w2.
Proof.
  intros H. apply H; rewrite ?a2, ?b2, ?c00_2, ?c01_2, ?c02_2, ?c11_2, ?c12_2, ?c22_2; unfold w1, w2, ib; rewrite ?inv_b; lra.
Qed.
Ltac expand := unfold all_rows, entry, row_value, index, weights3, sin3, table3, dtable3, legendre_at, dlegendre_at; fold w1 w2;
  cbn -[Rplus Rmult Rdiv Ropp Rinv IZR w1 w2 a b c00 c01 c02 c11 c12 c22]; unfold Rdiv; rewrite ?Rinv_1; fold ib.
Ltac by_ideal := pattern a, b, ib, c00, c01, c02, c11, c12, c22, w1, w2; apply ideal; clear; intros; nsatz.

Lemma orthonormal3 : orthonormal 2 3 weights3 table3.
Proof.
  intros m n n' Hn Hn'. order m; degree Hn; degree Hn'; expand; by_ideal.
Qed.
Lemma gradient3 : gradient_orthogonal 2 3 weights3 table3 dtable3 sin3.
Proof.
  intros m n n' Hn Hn'. order m; degree Hn; degree Hn'; split; expand; by_ideal.
Qed.

Lemma rows3 j : (1 <= j <= 3)%nat -> (j = 1 \/ j = 2 \/ j = 3)%nat.
Proof. lia. Qed.
Lemma parity3 : has_parity 2 3 1 table3.
Proof.
  intros j m n Hj Hn. destruct (rows3 j Hj) as [E|[E|E]]; subst j; order m; degree Hn;
  unfold entry, index, table3, legendre_at; cbn -[Rplus Rmult Rdiv Ropp Rinv IZR w1 w2 a b c00 c01 c02 c11 c12 c22]; ring.
Qed.
Lemma dparity3 : has_parity 2 3 (-1) dtable3.
Proof.
  intros j m n Hj Hn. destruct (rows3 j Hj) as [E|[E|E]]; subst j; order m; degree Hn;
  unfold entry, index, dtable3, dlegendre_at; cbn -[Rplus Rmult Rdiv Ropp Rinv IZR w1 w2 a b c00 c01 c02 c11 c12 c22]; ring.
Qed.
Lemma sized3 : sized 3 (tri 2) table3 /\ sized 3 (tri 2) dtable3.
Proof. split; (split; [reflexivity|]); intros r [<-|[<-|[<-|[]]]]; reflexivity. Qed.
Lemma even3 : even_rows 3 weights3 /\ even_rows 3 sin3.
Proof. split; intros j Hj; destruct (rows3 j Hj) as [E|[E|E]]; subst j; reflexivity. Qed.
Lemma sin3_nz j : (1 <= j <= 3)%nat -> row_value sin3 j <> 0.
Proof. intros Hj. pose proof b_pos. destruct (rows3 j Hj) as [E|[E|E]]; subst j; cbn; lra. Qed.
