(** Specification vocabulary for order statistics (independent of the code). *)
From Verif Require Import Base.
Set Implicit Arguments.

(** Ascending order. *)
Definition ascending (l : list Qc) : Prop := StronglySorted Qcle l.

(** [v] is a k-th smallest element of [l] (1-based): it occurs in [l], fewer
    than [k] elements are below it, at least [k] are not above it. *)
Definition count (P : Qc -> bool) (l : list Qc) : nat := length (filter P l).
Definition kth_smallest (l : list Qc) (k : nat) (v : Qc) : Prop :=
  In v l /\ (count (fun x => (x <? v)%Qc) l < k <= count (fun x => (x <=? v)%Qc) l)%nat.

(** The median: middle element of the sorted list, or the mean of the two
    middle elements when the length is even. *)
Fixpoint insert (x : Qc) (l : list Qc) : list Qc :=
  match l with
  | [] => [x]
  | y :: t => if x <=? y then x :: l else y :: insert x t
  end.
Definition sorted_copy (l : list Qc) : list Qc := fold_right insert [] l.
Definition median (l : list Qc) : Qc :=
  let s := sorted_copy l in
  let n := length l in
  if Nat.even n then (nth (n / 2 - 1) s 0 + nth (n / 2) s 0) / 2
  else nth (n / 2) s 0.
