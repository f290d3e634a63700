(** Model of src/skyborn/calc/troposphere/fortran/stattrop_dp.f,
    tropopause_height.f90 and the range test of stndAtmUS76_dp.f (the WMO
    tropopause kernels).  The axis bookkeeping of troposphere/core.py is in
    AX_Model.

    The code is written once, over an arbitrary record [fl] of floating point
    operations (including log and exp), so that what is proved for every [fl]
    also holds of the rounded code; [RF] is exact real arithmetic and [QF]
    exact rational arithmetic with log and exp given as arguments.

    Arrays are lists with 1-based reads and writes that fail outside ([rd],
    [wrx]); the contents of the work arrays on entry are arguments, since the
    drivers do not initialise them.  Default INTEGERs do not wrap. *)
From Coq Require Import Reals.
From Verif Require Import Base Buffer VH_Model.
Local Close Scope Qc_scope.
Local Open Scope nat_scope.

(** double precision operations; [fc n d] is the constant n/d *)
Record fl := {
  F :> Type;
  fc : Z -> Z -> F;
  fadd : F -> F -> F; fsub : F -> F -> F; fmul : F -> F -> F; fdiv : F -> F -> F;
  fln : F -> F; fexp : F -> F; fabs : F -> F; fmax : F -> F -> F;
  fltb : F -> F -> bool; feqb : F -> F -> bool }.

Definition Rltb (x y : R) : bool := if Rlt_dec x y then true else false.
Definition Reqb (x y : R) : bool := if Req_EM_T x y then true else false.
Definition RF : fl :=
  {| F := R; fc := fun n d => (IZR n / IZR d)%R;
     fadd := Rplus; fsub := Rminus; fmul := Rmult; fdiv := Rdiv;
     fln := ln; fexp := exp; fabs := Rabs; fmax := Rmax; fltb := Rltb; feqb := Reqb |}.
Definition qcmax (x y : Qc) : Qc := if Qcleb x y then y else x.
Definition QF (lg ex : Qc -> Qc) : fl :=
  {| F := Qc; fc := dec;
     fadd := Qcplus; fsub := Qcminus; fmul := Qcmult; fdiv := Qcdiv;
     fln := lg; fexp := ex; fabs := qcabs; fmax := qcmax; fltb := Qcltb; feqb := Qceqb |}.

Section Kernel.
Variable A : fl.

(** stattrop_dp.f:133-134: CONST = 1000*9.80665/287.04 *)
Definition grav_const : A := fdiv A (fmul A (fc A 1000 1) (fc A 980665 100000)) (fc A 28704 100).

(** stattrop_dp.f:156-165, one layer *)
Definition layer_step (pfull tfull : list A) (s : list A * list A) (ilev : nat) : option (list A * list A) :=
  let ilev1 := ilev + 1 in
  let* t0 := rd tfull ilev in
  let* t1 := rd tfull ilev1 in
  let* p0 := rd pfull ilev in
  let* p1 := rd pfull ilev1 in
  let* lapse := wrx (fst s) ilev (fsub A (fln A t0) (fln A t1)) in
  let* v := rd lapse ilev in
  let* lapse := wrx lapse ilev (fdiv A v (fsub A (fln A p0) (fln A p1))) in
  let* v := rd lapse ilev in
  let* lapse := wrx lapse ilev (fmul A grav_const v) in
  let* phalf := wrx (snd s) ilev (fmul A (fadd A p0 p1) (fc A 5 10)) in
  Some (lapse, phalf).

(** stattrop_dp.f:194-200: the mean lapse rate of the layers l, l-1, ... up to
    the first one above p2km (or the top) *)
Fixpoint mean_above (lapse phalf : list A) (p2km sum avg : A) (kount l : nat) : option A :=
  match l with
  | O => Some avg
  | Datatypes.S l' =>
      let* h := rd phalf l in
      if fltb A h p2km then Some avg
      else
        let* r := rd lapse l in
        let sum := fadd A sum r in
        let kount := kount + 1 in
        mean_above lapse phalf p2km sum (fdiv A sum (fc A (Z.of_nat kount) 1)) kount l'
  end.

(** stattrop_dp.f:173-183: the interpolated pressure *)
Definition interpolated_pressure (lapse phalf : list A) (lapsec : A) (ilev : nat) : option A :=
  let* h0 := rd phalf ilev in
  let* h1 := rd phalf (ilev + 1) in
  let* l0 := rd lapse ilev in
  let* l1 := rd lapse (ilev + 1) in
  let p1 := fln A h0 in
  let p2 := fln A h1 in
  if negb (feqb A l0 l1) then
    let weight := fdiv A (fsub A lapsec l0) (fsub A l1 l0) in
    Some (fexp A (fadd A p1 (fmul A weight (fsub A p2 p1))))
  else Some h0.

(** stattrop_dp.f:169-213, one level of the search: (ptrop, itrop, found) *)
Definition search_step (pfull tfull lapse phalf : list A) (tmsg lapsec : A)
    (s : A * Z * bool) (ilev : nat) : option (A * Z * bool) :=
  let '(ptrop, itrop, found) := s in
  let* l0 := rd lapse ilev in
  let* p0 := rd pfull ilev in
  if fltb A l0 lapsec && fltb A p0 (fc A 450 1) then
    if negb found then
      let* ptrop := interpolated_pressure lapse phalf lapsec ilev in
      let* t0 := rd tfull ilev in
      let p2km := fexp A (fsub A (fln A ptrop) (fdiv A (fmul A (fc A 2 1) grav_const) t0)) in
      let* avg := mean_above lapse phalf p2km (fc A 0 1) (fc A 1000000000 1) 0 ilev in
      let found := fltb A avg lapsec in
      if negb found then Some (tmsg, itrop, found)
      else Some (fmax A ptrop (fc A 85 1), Z.of_nat ilev, found)
    else Some s
  else Some s.

(** stattrop_dp.f:46-223 [DSTATTROP]: (ptrop, itrop, lapse) *)
Definition dstattrop (pfull tfull : list A) (tmsg lapsec : A) (lapse phalf : list A) : option (A * Z * list A) :=
  let nlev := length pfull in
  let* w := foldM (layer_step pfull tfull) (seq 1 (nlev - 1)) (lapse, phalf) in
  let* s := foldM (search_step pfull tfull (fst w) (snd w) tmsg lapsec) (rev (seq 1 (nlev - 2)))
                  (tmsg, (-999)%Z, false) in
  Some (fst (fst s), snd (fst s), fst w).

(** stattrop_dp.f:2-44 [STATTROPX] ([punit] = 0 is hPa) *)
Definition stattropx (pfull tfull : list A) (tmsg lapsec : A) (punit : Z) (lapse phalf : list A)
  : option (A * Z * list A) :=
  let pmb := if (punit =? 0)%Z then pfull else map (fun p => fmul A p (fc A 1 100)) pfull in
  let* r := dstattrop pmb tfull tmsg lapsec lapse phalf in
  let ptrop := if (punit =? 0)%Z then fst (fst r) else fmul A (fst (fst r)) (fc A 100 1) in
  Some (ptrop, (snd (fst r) - 1)%Z, snd r).

(** the five outputs at one point *)
Record result := mk_result { r_pressure : A; r_height : A; r_index : Z; r_lapse : A; r_success : Z }.

(** tropopause_height.f90:174-178 (initial values; also 345-349, 466-470) *)
Definition missing_result (tmsg : A) : result := mk_result tmsg tmsg (-999) tmsg 0.

(** [abs(x - tmsg) < 1.0d-10] *)
Definition is_missing (tmsg x : A) : bool := fltb A (fabs A (fsub A x tmsg)) (fc A 1 10000000000).
(** tropopause_height.f90:188-196, 199-206: the loops with [exit] *)
Fixpoint all_present (tmsg : A) (l : list A) : bool :=
  match l with [] => true | x :: r => if is_missing tmsg x then false else all_present tmsg r end.

(** stndAtmUS76_dp.f:61-69 [DSTDATMP], the height; [stdp2z] is the height
    computed by STDP2Z (155-209) *)
Definition dstdatmp (stdp2z : A -> A) (p : A) : A :=
  if negb (fltb A p (fc A 373 100000)) && negb (fltb A (fc A 101325 100) p) then stdp2z p else fc A (-999) 1.

(** tropopause_height.f90:210-241: the body after the validity checks
    (also 380-404 and 488-515) *)
Definition solve_column (stdp2z : A -> A) (pfull tfull : list A) (tmsg lapsec : A) (punit : Z)
    (lapse phalf : list A) : option result :=
  let nlev := length pfull in
  let* r := stattropx pfull tfull tmsg lapsec punit lapse phalf in
  let '(ptrop, itrop, work) := r in
  if fltb A (fc A 1 10000000000) (fabs A (fsub A ptrop tmsg)) then
    let p := if (punit =? 0)%Z then ptrop else fmul A ptrop (fc A 1 100) in
    let* lr := if (1 <=? itrop)%Z && (itrop <? Z.of_nat nlev - 1)%Z
               then rd work (Z.to_nat (itrop + 1)) else Some tmsg in
    Some (mk_result p (dstdatmp stdp2z p) itrop lr 1)
  else Some (missing_result tmsg).

(** tropopause_height.f90:185-242, one grid point of [tropopause_grid_3d]
    (also 357-405 for [tropopause_grid_2d]); the Fortran [exit] leaves the rest
    of profile_t unset, which is not read afterwards *)
Definition grid_column (stdp2z : A -> A) (pfull tfull : list A) (tmsg lapsec : A) (punit : Z)
    (lapse phalf : list A) : option result :=
  if all_present tmsg tfull then
    if all_present tmsg pfull then solve_column stdp2z pfull tfull tmsg lapsec punit lapse phalf
    else Some (missing_result tmsg)
  else Some (missing_result tmsg).

(** tropopause_height.f90:473-481: one loop over both arrays *)
Fixpoint both_present (tmsg : A) (n k : nat) (pfull tfull : list A) : option bool :=
  match n with
  | O => Some true
  | Datatypes.S n' =>
      let* p := rd pfull k in
      let* t := rd tfull k in
      if is_missing tmsg p || is_missing tmsg t then Some false
      else both_present tmsg n' (k + 1) pfull tfull
  end.
(** tropopause_height.f90:412-518 [tropopause_profile_1d] *)
Definition profile_1d (stdp2z : A -> A) (pfull tfull : list A) (tmsg lapsec : A) (punit : Z)
    (lapse phalf : list A) : option result :=
  let* v := both_present tmsg (length pfull) 1 pfull tfull in
  if v then solve_column stdp2z pfull tfull tmsg lapsec punit lapse phalf
  else Some (missing_result tmsg).

(** tropopause_height.f90:184-244: the loops over the grid points, in the order
    of the source; the iterations write to disjoint elements and have private
    work arrays ([lapse], [phalf] give their contents at each point).  An array
    is a function of (i, j), both from 1. *)
Definition point_step (stdp2z : A -> A) (pfull : list A) (tfull : nat -> nat -> list A) (tmsg lapsec : A)
    (punit : Z) (lapse phalf : nat -> nat -> list A) (out : nat -> nat -> result) (ij : nat * nat)
  : option (nat -> nat -> result) :=
  let '(i, j) := ij in
  let* r := grid_column stdp2z pfull (tfull i j) tmsg lapsec punit (lapse i j) (phalf i j) in
  Some (fun a b => if (a =? i) && (b =? j) then r else out a b).
Definition tropopause_grid_3d (stdp2z : A -> A) (nlat nlon : nat) (pfull : list A) (tfull : nat -> nat -> list A)
    (tmsg lapsec : A) (punit : Z) (lapse phalf : nat -> nat -> list A) : option (nat -> nat -> result) :=
  foldM (point_step stdp2z pfull tfull tmsg lapsec punit lapse phalf)
        (flat_map (fun j => map (fun i => (i, j)) (seq 1 nlat)) (seq 1 nlon))
        (fun _ _ => missing_result tmsg).

(** tropopause_height.f90:302-410 [tropopause_grid_2d] is the same loop over one
    index *)
Definition tropopause_grid_2d (stdp2z : A -> A) (nspatial : nat) (pfull : list A) (tfull : nat -> list A)
    (tmsg lapsec : A) (punit : Z) (lapse phalf : nat -> list A) : option (nat -> result) :=
  foldM (fun out i =>
           let* r := grid_column stdp2z pfull (tfull i) tmsg lapsec punit (lapse i) (phalf i) in
           Some (fun a => if a =? i then r else out a))
        (seq 1 nspatial) (fun _ => missing_result tmsg).

(** tropopause_height.f90:247-300 [tropopause_grid_4d] *)
Definition tropopause_grid_4d (stdp2z : A -> A) (nlat nlon ntime : nat) (pfull : list A)
    (tfull : nat -> nat -> nat -> list A) (tmsg lapsec : A) (punit : Z)
    (lapse phalf : nat -> nat -> nat -> list A) : option (nat -> nat -> nat -> result) :=
  foldM (fun out t =>
           let* g := tropopause_grid_3d stdp2z nlat nlon pfull (tfull t) tmsg lapsec punit (lapse t) (phalf t) in
           Some (fun u i j => if u =? t then g i j else out u i j))
        (seq 1 ntime) (fun _ _ _ => missing_result tmsg).
End Kernel.

(** ** US Standard Atmosphere, in real arithmetic *)
(** stndAtmUS76_dp.f:174-186: (HBASE, GRAD, ABST, PB) of the layers 1..10 *)
Definition std_table : list (R * R * R * R) :=
  let d n k := (IZR n / IZR k)%R in
  [ (d 0 1, d (-65) 10000, d 28815 100, d 101325 100);
    (d 11000 1, d 0 1, d 21665 100, d 22632064 100000);
    (d 20000 1, d 1 1000, d 21665 100, d 54748887 1000000);
    (d 32000 1, d 28 10000, d 22865 100, d 86801870 10000000);
    (d 47000 1, d 0 1, d 27065 100, d 11090631 10000000);
    (d 51000 1, d (-28) 10000, d 27065 100, d 66938874 100000000);
    (d 71000 1, d (-2) 1000, d 21465 100, d 39564205 1000000000);
    (d 84852 1, d 0 1, d 18695 100, d 37338360 10000000000);
    (d 84852 1, d 0 1, d 0 1, d 0 1);
    (d 84852 1, d 0 1, d 0 1, d 0 1) ]%Z.
Definition std_g : R := (980665 / 1000)%R.
Definition std_r : R := (83143200 / (289644 / 10000))%R.
(** stndAtmUS76_dp.f:187-194: the loop; [i] from 1 *)
Fixpoint std_search (fuel : nat) (p : R) (i : nat) : option nat :=
  match fuel with
  | O => Some i
  | Datatypes.S fuel =>
      let* e := rd std_table (i + 1) in
      let '(_, _, _, pb) := e in
      if Rltb p pb then std_search fuel p (i + 1) else Some i
  end.
Definition std_index (p : R) : option nat :=
  let* e := rd std_table 1 in
  let '(_, _, _, pb) := e in
  if Rltb pb p then None (* I is not set; not reached, see 62 *) else std_search 8 p 1.
(** stndAtmUS76_dp.f:195-201: the height in layer [e] *)
Definition std_formula (e : R * R * R * R) (p : R) : R :=
  let '(hbase, grad, abst, pb) := e in
  if negb (Reqb grad 0) then
    (abst / (- grad) * (1 - Rpower (p / pb) (- grad * std_r / (100 * std_g))) + hbase)%R
  else (hbase + 1 / 100 * std_r * abst / std_g * ln (pb / p))%R.
(** stndAtmUS76_dp.f:155-209 [STDP2Z], the height *)
Definition stdp2z (p : R) : option R :=
  let* i := std_index p in
  let* e := rd std_table i in
  Some (std_formula e p).
