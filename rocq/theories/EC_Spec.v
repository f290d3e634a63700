(** What the emergent-constraint functions are meant to compute, without the
    helpers of EC_Model. *)
From Coq Require Import Reals List Arith Lia.
Import ListNotations.
Local Open Scope R_scope.

Fixpoint total (l : list R) : R := match l with [] => 0 | x :: r => x + total r end.

(** the pairs in which both members are present *)
Inductive kept : list (option R) -> list (option R) -> list (R * R) -> Prop :=
| K_nil : kept [] [] []
| K_both x y xs ys ps : kept xs ys ps -> kept (Some x :: xs) (Some y :: ys) ((x, y) :: ps)
| K_drop x y xs ys ps : (x = None \/ y = None) -> kept xs ys ps -> kept (x :: xs) (y :: ys) ps.

(** squared distance of the pairs from a line *)
Definition misfit (a b : R) (ps : list (R * R)) : R := total (map (fun p => (snd p - (a + b * fst p)) ^ 2) ps).
Definition spread (m : R) (ps : list (R * R)) : R := total (map (fun p => (fst p - m) ^ 2) ps).
(** density of the normal distribution *)
Definition normal (mu sigma x : R) : R := exp (- (x - mu) ^ 2 / (2 * sigma ^ 2)) / (sigma * sqrt (2 * PI)).

(** [k] is the first index of the smallest (largest) element *)
Definition first_min (l : list R) (k : nat) : Prop :=
  (k < length l)%nat /\ (forall i, (i < length l)%nat -> nth k l 0 <= nth i l 0) /\ (forall i, (i < k)%nat -> nth k l 0 < nth i l 0).
Definition first_max (l : list R) (k : nat) : Prop :=
  (k < length l)%nat /\ (forall i, (i < length l)%nat -> nth i l 0 <= nth k l 0) /\ (forall i, (i < k)%nat -> nth i l 0 < nth k l 0).
(** sum of elements i..m *)
Definition mass (l : list R) (i m : nat) : R := total (map (fun k => nth k l 0) (seq i (m + 1 - i))).
