(** Concrete profiles and a partial eigenvalue solver used in the examples. *)
From Coq Require Import Reals List Lra Lia Arith.
From Verif Require Import GB_Spec GB_Proofs1.
Import ListNotations.
Local Open Scope R_scope.

Definition lat3 : list R := [-60; 0; 60].
Lemma lat3_ok : lat_ok lat3.
Proof.
  split.
  - intros n Hn. cbn [length lat3] in Hn. assert (n = 1 \/ n = 2)%nat as [->| ->] by lia; unfold at1; cbn; lra.
  - intros n Hn. cbn [length lat3] in Hn. assert (n = 1 \/ n = 2 \/ n = 3)%nat as [->|[->| ->]] by lia; unfold at1; cbn; lra.
Qed.

Definition p3 : list R := [20000; 60000; 100000].
Definition th3 : list R := [360; 310; 290].
Definition t3 : list R := [220; 260; 290].
Lemma col3_stable : column_stable th3 p3 t3.
Proof.
  split; intros n Hn; cbn [length p3] in Hn; (assert (n = 1 \/ n = 2)%nat as [->| ->] by lia).
  - unfold at1; cbn; lra.
  - unfold at1; cbn; lra.
  - unfold static, at1; cbn. lra.
  - unfold static, at1; cbn. lra.
Qed.

(** a solver that knows one candidate vector: it reports the eigenvalue when [x]
    is a common eigenvector of both matrices, and nothing otherwise *)
Fixpoint propb (v x : nat -> R) (n : nat) : bool :=
  match n with O => true | S m => if Req_EM_T (v (S m) * x 1%nat) (v 1%nat * x (S m)) then propb v x m else false end.
Definition probe (x : nat -> R) (A B : list (list R)) : option (list (R * R * R)) :=
  if ((1 <=? length A)%nat && (propb (mv A x) x (length A) && propb (mv B x) x (length A)))%bool then Some [(mv A x 1, 0, mv B x 1)] else Some [].
Lemma propb_spec v x n : propb v x n = true <-> forall i, (1 <= i <= n)%nat -> v i * x 1%nat = v 1%nat * x i.
Proof.
  induction n as [|n IH]; cbn [propb]; [split; [intros _ i Hi; lia|auto]|].
  destruct (Req_EM_T (v (S n) * x 1%nat) (v 1%nat * x (S n))) as [E|E]; split.
  - intros H i Hi. destruct (Nat.eq_dec i (S n)) as [->|]; auto. apply (proj1 IH H). lia.
  - intros H. apply IH. intros i Hi. apply H. lia.
  - discriminate.
  - intros H. exfalso. apply E, H. lia.
Qed.
Lemma mv_0 M n : mv M (fun _ => 0) n = 0.
Proof. unfold mv. apply sumN_0. intros; ring. Qed.
Lemma probe_sound x : x 1%nat <> 0 -> solver_sound (probe x).
Proof.
  intros Hx A B l E ar ai be I Hbe. unfold probe in E.
  destruct (Nat.leb_spec 1 (length A)) as [L|]; cbn [andb] in E; [|injection E as <-; destruct I].
  destruct (propb (mv A x) x (length A)) eqn:PA; cbn [andb] in E; [|injection E as <-; destruct I].
  destruct (propb (mv B x) x (length A)) eqn:PB; injection E as <-; [|destruct I].
  destruct I as [I|[]]. injection I as <- <- <-. rewrite propb_spec in PA, PB.
  exists x, (fun _ => 0). split; [exists 1%nat; split; [lia|left; auto]|].
  intros n Hn. rewrite !mv_0. assert (A1 := PA n Hn). assert (B1 := PB n Hn). split; [|lra].
  apply (Rmult_eq_reg_r (x 1%nat)); auto. rewrite A1.
  replace ((mv A x 1 / mv B x 1 * mv B x n - 0 / mv B x 1 * 0) * x 1%nat) with (mv A x 1 / mv B x 1 * (mv B x n * x 1%nat)) by (field; auto).
  rewrite B1. field. auto.
Qed.
Lemma probe_zero x : solver_zero (probe x).
Proof.
  intros A B l E _ ar ai be I. unfold probe in E. destruct (_ && _)%bool; injection E as <-; cbn in I; [destruct I as [I|[]]; congruence|destruct I].
Qed.
(** antisymmetric about the middle point *)
Definition anti3 (n : nat) : R := match n with 1%nat => 1 | 3%nat => -1 | _ => 0 end.
Lemma anti3_1 : anti3 1 <> 0. Proof. cbn. lra. Qed.
