(** What downdraft CAPE is, on a list of levels: written with list operations
    and without indices, in the code's arithmetic. *)
From Coq Require Import Reals.
From Verif Require Import Base TP_Model DC_Model.
Local Close Scope Qc_scope.
Local Open Scope nat_scope.

Section Spec.
Variable A : fl.
Variables (pw : A -> A -> A) (fin : A -> bool) (nan : A) (trunc : A -> nat).
Notation level := (level A).
Notation lp := (lp A).

(** Levels with three finite values *)
Definition usable (l : list level) : list level :=
  filter (fun x => fin (fst (fst x)) && fin (snd (fst x)) && fin (snd x)) l.

(** Surface first *)
Definition upward (l : list level) : list level :=
  match l with
  | nil => nil
  | x :: _ => if fltb A (lp x) (lp (last l x)) then rev l else l
  end.

(** Candidates for the start: the levels between 700 and 500 hPa, and the values
    interpolated to 700 and to 500 hPa where the sounding first crosses them *)
Definition between (lo hi x : A) : bool := dle A lo x && dle A x hi.
Fixpoint crossing (l : list level) (b : A) : list level :=
  match l with
  | x :: (y :: _) as r =>
      if between (lp y) (lp x) b || between (lp x) (lp y) b
      then (b, interp_linear_p A (lp x) (snd (fst x)) (lp y) (snd (fst y)) b,
               interp_linear_p A (lp x) (snd x) (lp y) (snd y) b) :: nil
      else crossing r b
  | _ => nil
  end.
Definition candidates (l : list level) : list level :=
  filter (fun x => between (fc A 500 1) (fc A 700 1) (lp x)) l
  ++ crossing l (fc A 700 1) ++ crossing l (fc A 500 1).
Definition theta (x : level) : A := thetae A pw (fst (fst x)) (snd (fst x)) (snd x).

(** The first of a list whose theta-e is lowest (and below [best]) *)
Fixpoint coldest (l : list level) (best : A) (found : option level) : option level :=
  match l with
  | nil => found
  | x :: r => if fltb A (theta x) best then coldest r (theta x) (Some x) else coldest r best found
  end.
Definition origin (l : list level) : option level := coldest (candidates l) (fc A (10 ^ 99) 1) None.

(** The levels from the surface up to pressure p *)
Fixpoint up_to (p : A) (l : list level) : list level :=
  match l with
  | nil => nil
  | x :: r => if dle A p (lp x) then x :: up_to p r else nil
  end.

(** Parcel temperatures at the levels [u] (surface first): saturated descent from
    (p, t) to the last, from there to the one before, ... *)
Fixpoint descent (u : list level) (p t : A) : list A :=
  match u with
  | nil => nil
  | x :: nil => moist_t A trunc (hpa A p) t (hpa A (lp x)) :: nil
  | x :: (y :: _) as r =>
      match descent r p t with
      | (v :: _) as vs => moist_t A trunc (hpa A (lp y)) v (hpa A (lp x)) :: vs
      | nil => nil
      end
  end.

(** Trapezoidal terms of points (value, abscissa) *)
Fixpoint trapezoids (l : list (A * A)) : list A :=
  match l with
  | (d, x) :: ((e, y) :: _) as r => fmul A (fmul A (fc A 5 10) (fadd A d e)) (fsub A y x) :: trapezoids r
  | _ => nil
  end.
Definition buoyancy (u : list level) (vs : list A) : list (A * A) :=
  map (fun q => (tv_diff A (fst q) (snd q), fln A (lp (fst q)))) (combine u vs).

(** Wet-bulb temperature at the start: lift to the condensation level, descend *)
Definition wet_bulb (s : level) : A :=
  let '(plcl, tlcl) := lcl_bolton A pw (fst (fst s)) (snd (fst s)) (snd s) in
  moist_t A trunc (hpa A plcl) tlcl (hpa A (lp s)).

Definition energy (u : list level) (s : level) : A :=
  dneg A (fmul A (rd_air A)
    (fold_left (fadd A) (trapezoids (buoyancy u (descent u (lp s) (wet_bulb s)))) (fc A 0 1))).
Definition cut (x : A) : A :=
  if negb (fin x) then nan else if fltb A x (fc A 0 1) then fc A 0 1 else x.

(** Of a list of usable levels *)
Definition downdraft (l : list level) : A :=
  if length l <? 4 then nan
  else match origin (upward l) with
       | None => nan
       | Some s =>
           let u := up_to (lp s) (upward l) in
           if length u <=? 1 then nan else cut (energy u s)
       end.
End Spec.

(** Laws of comparison that hold of IEEE doubles, NaN included (a comparison
    with NaN is false) *)
Record order_laws (A : fl) : Prop := {
  o_irrefl : forall x : A, fltb A x x = false;
  o_trans : forall x y z : A, fltb A x y = true -> fltb A y z = true -> fltb A x z = true;
  o_le_trans : forall x y z : A, dle A x y = true -> dle A y z = true -> dle A x z = true;
  o_lt_le : forall x y : A, fltb A x y = true -> dle A y x = false;
  o_500 : dle A (fc A 500 1) (fc A 500 1) = true;
  o_500_700 : fltb A (fc A 500 1) (fc A 700 1) = true;
  o_700 : dle A (fc A 700 1) (fc A 700 1) = true }.

(** Strictly falling pressure *)
Fixpoint falling (A : fl) (l : list (level A)) : Prop :=
  match l with
  | x :: (y :: _) as r => fltb A (lp A y) (lp A x) = true /\ falling A r
  | _ => True
  end.

(** Trapezoidal area under points (value, abscissa), abscissa falling *)
Local Open Scope R_scope.
Fixpoint area (l : list (R * R)) : R :=
  match l with
  | (d, x) :: ((e, y) :: _) as r => (d + e) / 2 * (x - y) + area r
  | _ => 0
  end.
(** Surface first, no value below the one above it *)
Fixpoint warming_down (l : list R) : Prop :=
  match l with
  | a :: (b :: _) as r => b <= a /\ warming_down r
  | _ => True
  end.
