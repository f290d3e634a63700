(** Specification vocabulary for the geostrophic wind: stencils, the exact
    formulas in rational arithmetic, and reversed storage. *)
From Verif Require Import Base NdArray.
Local Close Scope Qc_scope.
Local Open Scope nat_scope.

(** Neighbours of row k of n and of column k of n (1-based). *)
Definition north (n k : nat) : nat := if k =? n then n else k + 1.
Definition south (k : nat) : nat := if k =? 1 then 1 else k - 1.
Definition east (cyclic : bool) (n k : nat) : nat := if k =? n then (if cyclic then 1 else n) else k + 1.
Definition west (cyclic : bool) (n k : nat) : nat := if k =? 1 then (if cyclic then n else 1) else k - 1.
(** Is the column one of the two edge columns of a grid that does not wrap? *)
Definition edge (cyclic : bool) (n k : nat) : bool := negb cyclic && ((k =? 1) || (k =? n)).
(** Grid steps from the western to the eastern neighbour. *)
Definition steps (cyclic : bool) (n k : nat) : Qc := if edge cyclic n k then 1%Qc else (1 + 1)%Qc.

(** Rows stored in the other order. *)
Definition flipped_rows {T} (n : nat) (f : nat -> T) : nat -> T := fun k => f (n + 1 - k).

Section Exact.
(** sin, cos (of radians) and pi *)
Variables (sn cs : Qc -> Qc) (pi : Qc).
Local Open Scope Qc_scope.
Definition g_const : Qc := Q2Qc (980616 # 100000).
Definition two_omega : Qc := Q2Qc (14584 # 100000000).
Definition metres_per_degree : Qc := qz 6371220 * (pi / qz 180).
Definition in_radians (lat : Qc) : Qc := lat * (pi / qz 180).
(** g / f at a latitude *)
Definition g_over_f (lat : Qc) : Qc := g_const / (two_omega * sn (in_radians lat)).
(** Neither the equator nor within 0.001 degrees of a pole. *)
Definition mid_latitude (lat : Qc) : Prop := lat <> 0 /\ - Q2Qc (89999 # 1000) <= lat /\ lat <= Q2Qc (89999 # 1000).

(** ug = - (g/f) dz/dy and vg = (g/f) dz/dx by differences of the neighbours. *)
Definition u_exact (z : nat -> nat -> Qc) (nlat : nat) (glat : nat -> Qc) (nl ml : nat) : Qc :=
  - (g_over_f (glat nl) * ((z (north nlat nl) ml - z (south nl) ml) /
        (metres_per_degree * (glat (north nlat nl) - glat (south nl))))).
Definition v_exact (z : nat -> nat -> Qc) (mlon : nat) (cyclic : bool) (dlon : Qc) (glat : nat -> Qc) (nl ml : nat) : Qc :=
  g_over_f (glat nl) * ((z nl (east cyclic mlon ml) - z nl (west cyclic mlon ml)) /
        (steps cyclic mlon ml * (metres_per_degree * dlon * cs (in_radians (glat nl))))).
End Exact.

(** The latitude-longitude slice of an array through the multi-index ix, with
    1-based subscripts, and the position along an axis counted from the end. *)
Definition slice {T} (x y : nat) (z : nda T) (ix : list nat) (i j : nat) : T :=
  nd_elt z (set_nth x (j - 1) (set_nth y (i - 1) ix)).
Definition mirrored (y : nat) (sh ix : list nat) : list nat := set_nth y (nthn sh y - 1 - nthn ix y) ix.
