(** What the Python layer of the potential-intensity code is meant to do, in
    terms of array elements. *)
From Coq Require Import Reals List Arith Lia ZArith Bool String.
From Verif Require Import Base PI_Model PI_Py.
Import ListNotations.
Local Open Scope nat_scope.

Definition size (s : list nat) : nat := fold_right Nat.mul 1 s.
Definition wf {A} (X : nd A) : Prop := List.length (dat X) = size (sh X).
(** position of a multi-index, first index fastest *)
Fixpoint offset (s idx : list nat) : nat :=
  match s, idx with d :: ds, i :: rest => i + d * offset ds rest | _, _ => 0 end.
Definition elt {A} (X : nd A) (idx : list nat) : option A := nth_error (dat X) (offset (sh X) idx).
Definition vec {A} (l : list A) : nd A := mknd (List.length l :: nil) l.

(** [Y] is [X] with its levels listed the other way round *)
Definition levels_reversed {A} (X Y : nd A) : Prop :=
  wf X /\ wf Y /\ sh Y = sh X /\
  match sh X with
  | n :: nil => forall k, k < n -> elt Y (k :: nil) = elt X ((n - 1 - k) :: nil)
  | [n; a; b] => forall k i j, k < n -> i < a -> j < b -> elt Y [k; i; j] = elt X [n - 1 - k; i; j]
  | [t; n; a; b] => forall s k i j, s < t -> k < n -> i < a -> j < b -> elt Y [s; k; i; j] = elt X [s; n - 1 - k; i; j]
  | _ => True
  end.

(** shapes that belong together *)
Definition consistent (sst psl : nd (option R)) (P : list (option R)) (T r : nd (option R)) (actual : option Z) : Prop :=
  sh r = sh T /\
  match sh T with
  | n :: nil => List.length P = n /\ List.length (dat sst) = 1 /\ List.length (dat psl) = 1 /\
           match actual with None => 1 <= n | Some z => (1 <= z <= Z.of_nat n)%Z end
  | [n; a; b] => List.length P = n /\ sh sst = [a; b] /\ sh psl = [a; b]
  | [t; n; a; b] => List.length P = n /\ sh sst = [t; a; b] /\ sh psl = [t; a; b]
  | _ => False
  end.
Definition known_source (diag : option (string * R)) : Prop :=
  match diag with None => True | Some (s, _) => s = "cape_star"%string \/ s = "cape_env"%string end.

(** no NaN and no missing-value code *)
Definition complete (X : list (option R)) : Prop := forall x, In x X -> exists v, x = Some v /\ v <> UNDEF.

(** the column of [X] at a point *)
Definition column_3d {A} (X : nd A) (i j : nat) (c : list A) : Prop :=
  match sh X with [n; _; _] => List.length c = n /\ forall k, k < n -> elt X [k; i; j] = nth_error c k | _ => False end.
Definition column_4d {A} (X : nd A) (s i j : nat) (c : list A) : Prop :=
  match sh X with [_; n; _; _] => List.length c = n /\ forall k, k < n -> elt X [s; k; i; j] = nth_error c k | _ => False end.
