(** What a gradient along a coordinate should be. *)
From Verif Require Import Base.
Local Open Scope Qc_scope.

(** The coordinate values are strictly increasing, or strictly decreasing. *)
Definition increasing (d : nat -> Qc) (n : nat) := forall i, (S i < n)%nat -> d i < d (S i).
Definition strictly_monotonic (d : nat -> Qc) (n : nat) := increasing d n \/ increasing (fun i => - d i) n.
(** All spacings equal. *)
Definition evenly_spaced (d : nat -> Qc) (n : nat) := forall i, (S i < n)%nat -> d (S i) - d i = d 1%nat - d 0%nat.
(** |x| *)
Definition mag (x : Qc) : Qc := if Qcltb x 0 then - x else x.
(** Samples of a line and of a parabola, and the derivative of the latter. *)
Definition line (a b x : Qc) : Qc := a * x + b.
Definition parabola (a b c x : Qc) : Qc := a * x * x + b * x + c.
Definition parabola' (a b x : Qc) : Qc := qz 2 * a * x + b.
