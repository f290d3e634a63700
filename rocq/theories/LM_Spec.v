(** Gap filling, stated by position.  Positions count from 0; [m] marks missing. *)
From Verif Require Import Base.
Local Open Scope nat_scope.

(** positions a, ..., b-1 are a maximal run of missing values *)
Definition gap (l : list Qc) (m : Qc) (a b : nat) : Prop :=
  a < b <= length l /\ (forall k, a <= k < b -> nth_error l k = Some m) /\
  (a = 0 \/ nth_error l (a - 1) <> Some m) /\ nth_error l b <> Some m.

(** on the straight line through (i, u) and (j, v), the ordinate at k *)
Definition on_line (i : nat) (u : Qc) (j : nat) (v : Qc) (k : nat) : Qc :=
  (u + (v - u) * (qz (Z.of_nat k - Z.of_nat i) / qz (Z.of_nat j - Z.of_nat i)))%Qc.

(** what position [k] becomes; [ends] says that end gaps take the nearest value *)
Inductive filled (ends : bool) (limit : Z) (l : list Qc) (m : Qc) (k : nat) : Qc -> Prop :=
| f_valid v : nth_error l k = Some v -> v <> m -> filled ends limit l m k v
| f_line a b u v : gap l m a b -> a <= k < b -> 0 < a -> nth_error l (a - 1) = Some u -> nth_error l b = Some v ->
    (Z.of_nat (b - a) <= limit)%Z -> filled ends limit l m k (on_line (a - 1) u b v k)
| f_long a b : gap l m a b -> a <= k < b -> 0 < a -> b < length l -> (limit < Z.of_nat (b - a))%Z -> filled ends limit l m k m
| f_lead b v : gap l m 0 b -> k < b -> nth_error l b = Some v ->
    filled ends limit l m k (if ends && (Z.of_nat b <=? limit)%Z then v else m)
| f_trail a u : gap l m a (length l) -> a <= k < length l -> 0 < a -> nth_error l (a - 1) = Some u ->
    filled ends limit l m k (if ends then u else m)
| f_none : gap l m 0 (length l) -> k < length l -> filled ends limit l m k m.

Definition all_filled (ends : bool) (limit : Z) (l : list Qc) (m : Qc) (out : list Qc) : Prop :=
  length out = length l /\ forall k v, nth_error out k = Some v -> filled ends limit l m k v.
