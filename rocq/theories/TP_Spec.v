(** What a WMO tropopause is, for a column of pressures [p] (hPa, from the top
    down) and temperatures [t], in any arithmetic.  Level k and layer k are
    numbered from 0; layer k lies between levels k and k+1.  Nothing here refers
    to the search of the code. *)
From Coq Require Import Reals.
From Verif Require Import Base TP_Model.
Local Close Scope Qc_scope.
Local Open Scope nat_scope.

Section Spec.
Variable A : fl.
Variables (p t : list A) (crit : A).

(** layer k has lapse rate [r] (K/km) and its middle is at pressure [h] *)
Definition layer (k : nat) (r h : A) : Prop :=
  exists p0 p1 t0 t1,
    nth_error p k = Some p0 /\ nth_error p (k + 1) = Some p1 /\
    nth_error t k = Some t0 /\ nth_error t (k + 1) = Some t1 /\
    r = fmul A (grav_const A) (fdiv A (fsub A (fln A t0) (fln A t1)) (fsub A (fln A p0) (fln A p1))) /\
    h = fmul A (fadd A p0 p1) (fc A 5 10).

(** the layer above level k cools more slowly than the criterion, and level k is
    above 450 hPa *)
Definition slow (k : nat) : Prop :=
  exists r h p0, layer k r h /\ nth_error p k = Some p0 /\
    fltb A r crit = true /\ fltb A p0 (fc A 450 1) = true.

(** the pressure at which the lapse rate crosses the criterion, linear in log p
    through the middles of layers k and k+1 (the middle of layer k when the two
    rates are equal) *)
Definition crossing (k : nat) (q : A) : Prop :=
  exists r h r' h', layer k r h /\ layer (k + 1) r' h' /\
    ((feqb A r r' = false /\
      q = fexp A (fadd A (fln A h)
            (fmul A (fdiv A (fsub A crit r) (fsub A r' r)) (fsub A (fln A h') (fln A h))))) \/
     (feqb A r r' = true /\ q = h)).

(** the pressure 2 km above pressure [q] at the temperature of level k *)
Definition two_km_above (k : nat) (q z : A) : Prop :=
  exists t0, nth_error t k = Some t0 /\
    z = fexp A (fsub A (fln A q) (fdiv A (fmul A (fc A 2 1) (grav_const A)) t0)).

(** layers m..k are the ones between layer k and pressure [z] *)
Definition reaches (z : A) (m k : nat) : Prop :=
  m <= k /\
  (forall j r h, m <= j <= k -> layer j r h -> fltb A h z = false) /\
  (m = 0 \/ exists r h, layer (m - 1) r h /\ fltb A h z = true).

(** the rates of the layers k, k-1, ..., m and their mean *)
Definition rates (m k : nat) (rs : list A) : Prop :=
  Forall2 (fun j r => exists h, layer j r h) (rev (seq m (k + 1 - m))) rs.
Definition mean (rs : list A) : A :=
  fdiv A (fold_left (fadd A) rs (fc A 0 1)) (fc A (Z.of_nat (length rs)) 1).

(** level k is a tropopause at pressure [q]: the rate falls below the criterion
    there, and its mean over the layers in the 2 km above stays below it *)
Definition tropopause (k : nat) (q : A) : Prop :=
  slow k /\ crossing k q /\
  exists z m rs, two_km_above k q z /\ reaches z m k /\ rates m k rs /\ fltb A (mean rs) crit = true.

(** the first tropopause from below *)
Definition first_tropopause (k : nat) (q : A) : Prop :=
  tropopause k q /\ forall j q', k < j -> ~ tropopause j q'.
End Spec.
