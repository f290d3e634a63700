(** A length with fourteen factors. *)
From Coq Require Import List Arith Lia Bool.
From Verif Require Import Base VH_Model FF_Model.
Import ListNotations.
Local Open Scope nat_scope.

Lemma factorize_threes k : forall fuel l, 1 <= k -> k <= fuel -> factorize fuel 3 3 (3 ^ k) l = Some (l ++ repeat 3 k).
Proof.
  induction k as [|k IH]; intros fuel l Hk Hf; [lia|]. destruct fuel as [|fuel]; [lia|]. cbn [factorize].
  assert (E1 : 3 ^ S k mod 3 = 0) by (rewrite Nat.pow_succ_r', Nat.mul_comm; apply Nat.mod_mul; lia).
  assert (E2 : 3 ^ S k / 3 = 3 ^ k) by (rewrite Nat.pow_succ_r', Nat.mul_comm; apply Nat.div_mul; lia).
  rewrite E1, E2. cbn [Nat.eqb]. destruct k as [|k].
  - reflexivity.
  - destruct (Nat.eqb_spec (3 ^ S k) 1) as [E|E].
    + rewrite Nat.pow_succ_r' in E. lia.
    + rewrite IH by lia. rewrite <- app_assoc. reflexivity.
Qed.
Lemma pow3_odd k : 3 ^ k mod 2 = 1.
Proof. induction k; [reflexivity|]. rewrite Nat.pow_succ_r', Nat.mul_mod, IHk by lia. reflexivity. Qed.
Lemma factorize_two_threes k fuel : 1 <= k -> k + 3 <= fuel -> factorize fuel 1 4 (2 * 3 ^ k) [] = Some (2 :: repeat 3 k).
Proof.
  intros Hk Hf. pose proof (pow3_odd k) as O. assert (P : 3 ^ k <> 1).
  { destruct k; [lia|]. rewrite Nat.pow_succ_r'. lia. }
  pose proof (fun f => factorize_threes k f (2 :: nil) Hk) as T.
  remember (3 ^ k) as m eqn:Em. clear Em.
  pose proof (Nat.div_mod_eq m 2) as D. rewrite O in D.
  destruct fuel as [|[|[|fuel]]]; try lia.
  assert (M4 : (2 * m) mod 4 = 2).
  { rewrite D. replace (2 * (2 * (m / 2) + 1)) with (2 + m / 2 * 4) by lia. rewrite Nat.mod_add by lia. reflexivity. }
  cbn [factorize]. rewrite M4. cbn [Nat.eqb]. cbn [Nat.add next_try].
  assert (M2 : (2 * m) mod 2 = 0) by (rewrite Nat.mul_comm; apply Nat.mod_mul; lia).
  assert (D2 : (2 * m) / 2 = m) by (rewrite Nat.mul_comm; apply Nat.div_mul; lia).
  rewrite M2, D2. cbn [Nat.eqb app]. destruct (Nat.eqb_spec m 1); [lia|].
  rewrite O. cbn [Nat.eqb]. apply T. lia.
Qed.
