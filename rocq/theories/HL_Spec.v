(** Reading an array by the names of its dimensions, independently of their order. *)
From Coq Require Import String List Arith QArith Qcanon.
From Verif Require Import Base HL_Model.
Import ListNotations.
Local Open Scope list_scope.
Local Open Scope nat_scope.

(** a position for every name: the value there, if the position is inside *)
Definition at_names (a : named) (env : string -> nat) : option Qc := get a (map env (dims a)).
(** a field with distinct names, one size per name, and as many values as places *)
Definition field (d : list string) (s : list nat) (v : list Qc) : Prop :=
  NoDup d /\ length s = length d /\ length v = fold_right Nat.mul 1 s.
(** [x] before [y] in [l] *)
Definition before (x y : string) (l : list string) : Prop :=
  exists l1 l2 l3, l = l1 ++ x :: l2 ++ y :: l3.
