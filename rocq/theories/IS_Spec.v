(** Interpolation of scattered (coordinate, value) pairs at a target, stated
    without sorting.  [L] lists the pairs in storage order; several pairs may
    share a coordinate. *)
From Verif Require Import Base.
Local Open Scope nat_scope.

(** the first (last) stored pair with coordinate [x] has value [y] *)
Definition first_at (L : list (Qc * Qc)) (x y : Qc) : Prop :=
  exists l1 l2, L = l1 ++ (x, y) :: l2 /\ forall p, In p l1 -> fst p <> x.
Definition last_at (L : list (Qc * Qc)) (x y : Qc) : Prop :=
  exists l1 l2, L = l1 ++ (x, y) :: l2 /\ forall p, In p l2 -> fst p <> x.

(** [x] is the smallest (largest) coordinate *)
Definition least (L : list (Qc * Qc)) (x : Qc) : Prop := In x (map fst L) /\ forall p, In p L -> (x <= fst p)%Qc.
Definition greatest (L : list (Qc * Qc)) (x : Qc) : Prop := In x (map fst L) /\ forall p, In p L -> (fst p <= x)%Qc.
(** [x0] and [x1] are the coordinates next to [t] on either side *)
Definition neighbours (L : list (Qc * Qc)) (t x0 x1 : Qc) : Prop :=
  In x0 (map fst L) /\ In x1 (map fst L) /\ (x0 < t)%Qc /\ (t < x1)%Qc /\
  forall p, In p L -> (fst p <= x0)%Qc \/ (x1 <= fst p)%Qc.

Inductive profile_value (extrapolate : bool) (L : list (Qc * Qc)) (t : Qc) : option Qc -> Prop :=
| pv_few : length L < 2 -> profile_value extrapolate L t None
| pv_at y : 2 <= length L -> first_at L t y -> profile_value extrapolate L t (Some y)
| pv_between x0 x1 y0 y1 : 2 <= length L -> neighbours L t x0 x1 -> last_at L x0 y0 -> first_at L x1 y1 ->
    profile_value extrapolate L t (Some (y0 + (y1 - y0) * (t - x0) / (x1 - x0))%Qc)
| pv_low x y : 2 <= length L -> least L x -> (t < x)%Qc -> first_at L x y ->
    profile_value extrapolate L t (if extrapolate then Some y else None)
| pv_high x y : 2 <= length L -> greatest L x -> (x < t)%Qc -> last_at L x y ->
    profile_value extrapolate L t (if extrapolate then Some y else None).

(** the usable levels of a column: potential temperature and value of every level
    whose three inputs are present and whose pressure is positive *)
Definition usable_level (pw : Qc -> Qc -> Qc) (p0 kappa : Qc) (d t p : option Qc) : list (Qc * Qc) :=
  match d, t, p with
  | Some d, Some t, Some p => if (0 <? p)%Qc then ((t * pw (p0 / p) kappa)%Qc, d) :: nil else nil
  | _, _, _ => nil
  end.
Fixpoint usable_levels (pw : Qc -> Qc -> Qc) (p0 kappa : Qc) (D T P : list (option Qc)) : list (Qc * Qc) :=
  match D, T, P with
  | d :: D, t :: T, p :: P => usable_level pw p0 kappa d t p ++ usable_levels pw p0 kappa D T P
  | _, _, _ => nil
  end.
(** a value equal to the marker counts as missing *)
Definition unmark (m : Qc) (v : option Qc) : option Qc :=
  match v with Some x => if (x =? m)%Qc then None else Some x | None => None end.
