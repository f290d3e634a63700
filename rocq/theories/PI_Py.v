(** Model of src/skyborn/calc/GPI/core.py (cited as core.py): input cleaning,
    pressure ordering, shape checks, dispatch to the compiled routines, output
    conversion and log_decompose_pi.

    Conventions.
    - An array is its shape and its elements in Fortran order (first index
      fastest), the order in which the compiled routines receive it
      (core.py:105-119, 326-335).  An element is a number or NaN ([None]).
      Infinities, and the rounding to single precision, are left out.
    - [Raise] is any Python exception.  [None] is a run outside the model:
      an operation without a real value in the compiled code (see PI_Model),
      or a NaN handed to it as a scalar.
    - Warnings and prints are left out. *)
From Coq Require Import Reals List Arith Lia ZArith Bool String.
From Verif Require Import Base Buffer VH_Model PI_Model PI_Model2.
Import ListNotations.
Local Open Scope nat_scope.

Inductive res (A : Type) := Ret (a : A) | Raise.
Arguments Ret {A} a.
Arguments Raise {A}.
Record nd (A : Type) := mknd { sh : list nat; dat : list A }.
Arguments mknd {A} sh dat.
Arguments sh {A} n.
Arguments dat {A} n.

(** ** Cleaning: core.py:160-201 *)
(** core.py:190-191 *)
Definition nan_undef (x : option R) : R := match x with Some v => v | None => UNDEF end.
Definition cleaned (a : nd (option R)) : nd R := mknd (sh a) (map nan_undef (dat a)).
(** core.py:175-180 *)
Definition is_missing (x : option R) : bool := match x with Some v => req v UNDEF | None => true end.
Definition has_missing (X : list (option R)) : bool := existsb is_missing X.

(** ** Ordering: core.py:204-249 *)
(** np.flip along one axis: position [i] of the result holds the element whose
    index along the axis is mirrored; [m] elements per step along the axis, [n]
    steps *)
Definition mirror (m n i : nat) : nat := i mod m + m * (n - 1 - i / m mod n + n * (i / m / n)).
Definition flip_list {A} (m n : nat) (X : list A) (d : A) : list A := map (fun i => nth (mirror m n i) X d) (seq 0 (List.length X)).
Definition np_flip {A} (d : A) (a : nd A) (axis : nat) : res (nd A) :=
  if List.length (sh a) <=? axis then Raise
  else Ret (mknd (sh a) (flip_list (fold_right Nat.mul 1 (firstn axis (sh a))) (nth axis (sh a) 0) (dat a) d)).
(** core.py:240 *)
Definition pressure_axis {A} (T : nd A) : nat := if orb (List.length (sh T) =? 1) (List.length (sh T) =? 3) then 0 else 1.
(** core.py:231-249 *)
Definition upside_down (P : list R) : bool :=
  match nth_error P 0, nth_error P (List.length P - 1) with
  | Some a, Some b => andb (1 <? List.length P) (rlt a b)
  | _, _ => false
  end.
Definition ensure_pressure_ordering (P : list R) (T r : nd R) : res (list R * nd R * nd R) :=
  if upside_down P then
    match np_flip 0%R T (pressure_axis T), np_flip 0%R r (pressure_axis T) with
    | Ret T', Ret r' => Ret (rev P, T', r')
    | _, _ => Raise
    end
  else Ret (P, T, r).

(** ** Shapes: core.py:252-296 *)
Definition shape_eqb (a b : list nat) : bool := if list_eq_dec Nat.eq_dec a b then true else false.
Inductive kind := Profile | K3 | K4.
(** core.py:70-78 *)
Definition detect_kind {A} (T : nd A) : res kind :=
  match List.length (sh T) with 1 => Ret Profile | 3 => Ret K3 | 4 => Ret K4 | _ => Raise end.
(** core.py:252-296; true when nothing is raised.  The scalar checks of the
    profile branch (262-265) hold because the values went through float() *)
Definition dimensions_ok (k : kind) (sst psl : nd R) (P : list R) (T r : nd R) : bool :=
  andb (match k, sh T with
        | Profile, _ => shape_eqb (sh T) (List.length P :: nil)
        | K3, [a; b; c] => andb (a =? List.length P) (andb (shape_eqb (sh sst) [b; c]) (shape_eqb (sh psl) [b; c]))
        | K4, [t; a; b; c] => andb (a =? List.length P) (andb (shape_eqb (sh sst) [t; b; c]) (shape_eqb (sh psl) [t; b; c]))
        | _, _ => false
        end) (shape_eqb (sh T) (sh r)).

(** ** Prepared inputs *)
Record prepared := mkprep { q_kind : kind; q_sst : nd R; q_psl : nd R; q_P : list R; q_T : nd R; q_r : nd R;
                            q_missing : bool; q_actual : nat }.
(** core.py:299-335 *)
Definition prepare_gridded (k : kind) (sst psl : nd (option R)) (P : list (option R)) (T r : nd (option R)) : res prepared :=
  let missing := existsb has_missing [dat sst; dat psl; P; dat T; dat r] in
  match ensure_pressure_ordering (map nan_undef P) (cleaned T) (cleaned r) with
  | Raise => Raise
  | Ret (P', T', r') =>
      if dimensions_ok k (cleaned sst) (cleaned psl) P' T' r'
      then Ret (mkprep k (cleaned sst) (cleaned psl) P' T' r' missing 0) else Raise
  end.
(** float(x) of an array, core.py:403-404: one element only *)
Definition py_float {A} (a : nd A) : res A := match dat a with x :: nil => Ret x | _ => Raise end.
(** len(x) *)
Definition py_len {A} (a : nd A) : res nat := match sh a with n :: _ => Ret n | [] => Raise end.
Definition scalar {A} (x : A) : nd A := mknd [] (x :: nil).
(** core.py:338-387; [sst], [psl] already through float(); the missing-value
    flag of the arrays is dropped (353) *)
Definition prepare_profile (sst psl : R) (P : list (option R)) (T r : nd (option R)) (actual : option Z) : res prepared :=
  match py_len T, py_len r with
  | Ret nT, Ret nr =>
      if negb (andb (nT =? List.length P) (nr =? List.length P)) then Raise else
      match ensure_pressure_ordering (map nan_undef P) (cleaned T) (cleaned r) with
      | Raise => Raise
      | Ret (P', T', r') =>
          if negb (dimensions_ok Profile (scalar sst) (scalar psl) P' T' r') then Raise else
          let al := match actual with None => Z.of_nat (List.length P') | Some z => z end in
          if orb (al <? 1)%Z (Z.of_nat (List.length P') <? al)%Z then Raise
          else Ret (mkprep Profile (scalar sst) (scalar psl) P' T' r' false (Z.to_nat al))
      end
  | _, _ => Raise
  end.
(** core.py:390-418; [None] is a NaN scalar of a profile *)
Definition prepare_inputs (sst psl : nd (option R)) (P : list (option R)) (T r : nd (option R)) (actual : option Z)
  : option (res prepared) :=
  match detect_kind T with
  | Raise => Some Raise
  | Ret Profile =>
      match py_float sst, py_float psl with
      | Ret (Some s), Ret (Some p) => Some (prepare_profile s p P T r actual)
      | Raise, _ => Some Raise
      | _, Raise => Some Raise
      | _, _ => None
      end
  | Ret k => Some (prepare_gridded k sst psl P T r)
  end.

(** ** Outputs: core.py:54-67, 122-157 *)
(** np.isclose(x, UNDEF) with rtol = 1e-5, atol = 1e-8 *)
Definition near_undef (x : R) : bool := rle (Rabs (x - UNDEF)) (1 / 100000000 + 1 / 100000 * Rabs UNDEF).
Definition post (x : R) : option R := if near_undef x then None else Some x.
(** the values of every point (see PI_Model2.fields for their order), the error
    flag, and lnCKCD of the diagnostics calls *)
Record result := mkres { r_val : nd (list (option R)); r_flag : Z; r_lnck : option (option R) }.

(** ** Dispatch: core.py:26-41, 421-487 *)
(** core.py:24, 81-88 *)
Definition outflow_flag (s : string) : res Z :=
  if String.eqb s "cape_star" then Ret 0%Z else if String.eqb s "cape_env" then Ret 1%Z else Raise.

Section Calls.
(** the order in which a parallel loop visits N points, the previous contents
    of the output arrays and of error_flag *)
Variables (sched : nat -> list nat) (junk : nat -> list (list R)) (flag0 : Z).

(** a compiled gridded routine: [diag] is the outflow flag and CKCD *)
Definition run_grid (four missing : bool) (diag : option (Z * R)) (nt nl nlat nlon : nat) (g : grid)
  : option (list (list R) * Z * option R) :=
  let n3 := nlat * nlon in
  let n4 := nt * nlat * nlon in
  let plain o := let* x := o in Some (x, None) in
  let full (o : option (list (list R) * Z * R)) := let* x := o in Some (fst x, Some (snd x)) in
  match four, diag, missing with
  | false, None, false => plain (calculate_pi_gridded_data nlat nlon nl g (junk n3) flag0)
  | false, None, true => plain (calculate_pi_gridded_with_missing nlat nlon nl g (junk n3))
  | false, Some (o, ck), false => full (calculate_pi_gridded_diagnostics (sched n3) nl g (junk n3) o ck)
  | false, Some (o, ck), true => full (calculate_pi_gridded_diagnostics_with_missing (sched n3) nl g (junk n3) o ck)
  | true, None, false => plain (calculate_pi_4d_data (sched n4) nt nl g (junk n4))
  | true, None, true => plain (calculate_pi_4d_with_missing (sched n4) nt nl g (junk n4))
  | true, Some (o, ck), false => full (calculate_pi_4d_diagnostics (sched n4) nt nl g (junk n4) o ck)
  | true, Some (o, ck), true => full (calculate_pi_4d_diagnostics_with_missing (sched n4) nt nl g (junk n4) o ck)
  end.

(** core.py:421-487 *)
Definition calc (diag : option (Z * R)) (q : prepared) : option result :=
  let g := mkgrid (dat (q_sst q)) (dat (q_psl q)) (q_P q) (dat (q_T q)) (dat (q_r q)) in
  let pack shp (x : list (list R) * Z * option R) :=
    let '(vals, fl, lk) := x in
    mkres (mknd shp (map (map post) vals)) fl (match lk with Some l => Some (post l) | None => None end) in
  match q_kind q, sh (q_T q) with
  | Profile, _ =>
      match dat (q_sst q), dat (q_psl q) with
      | s :: nil, p :: nil =>
          match diag with
          | None =>
              let* x := calculate_pi_single_profile s p (q_P q) (dat (q_T q)) (dat (q_r q)) (q_actual q) in
              let '(pm, vm, fl) := x in
              Some (mkres (scalar [post pm; post vm]) fl None)
          | Some (o, ck) =>
              let* x := calculate_pi_profile_diagnostics s p (List.length (q_P q)) (q_P q) (dat (q_T q)) (dat (q_r q)) (q_actual q) o ck in
              Some (mkres (scalar (map post (fields true x))) (o_flag x) (Some (post (o_lnckcd x))))
          end
      | _, _ => None
      end
  | K3, [a; b; c] => let* x := run_grid false (q_missing q) diag 0 a b c g in Some (pack [b; c] x)
  | K4, [t; a; b; c] => let* x := run_grid true (q_missing q) diag t a b c g in Some (pack [t; b; c] x)
  | _, _ => None
  end.

(** potential_intensity (core.py:592-642, [diag] = None) and pi_log_decomposition
    (core.py:548-589, [diag] = outflow_source and CKCD, no actual_levels) *)
Definition pi_call (diag : option (string * R)) (sst psl : nd (option R)) (P : list (option R)) (T r : nd (option R))
  (actual : option Z) : option (res result) :=
  let* q := prepare_inputs sst psl P T r actual in
  match q with
  | Raise => Some Raise
  | Ret q =>
      match diag with
      | None => let* x := calc None q in Some (Ret x)
      | Some (s, ck) =>
          match outflow_flag s with
          | Raise => Some Raise
          | Ret o => let* x := calc (Some (o, ck)) q in Some (Ret x)
          end
      end
  end.
End Calls.

(** ** log_decompose_pi, one element: core.py:514-545
    (wind, sst in K, t0 may be NaN; lnCKCD of a positive CKCD) *)
Definition log_decompose (pi sst t0 : option R) (ck : R) : option R * option R * option R * R :=
  let eff := match sst, t0 with
             | Some s, Some t => if req t 0 then None else Some ((s - t) / t)%R
             | _, _ => None end in                                        (* 521; t0 = 0 gives inf or NaN, see below *)
  let lneff := match eff with Some e => if rlt 0 e then Some (ln e) else None | None => None end in
  let lnpi := match pi with Some v => if rlt 0 v then Some (2 * ln v)%R else None | None => None end in
  let lndiseq := match lnpi, lneff with Some a, Some b => Some (a - b - ln ck)%R | _, _ => None end in
  (lnpi, lneff, lndiseq, ln ck).
(** With t0 = 0 and sst > 0 the code gets an infinite efficiency; a successful
    run has t0 > 0, so this branch is not used by the theorems. *)
(** core.py:91-98 *)
Definition sst_to_kelvin (units : string) (x : R) : res R :=
  if orb (String.eqb units "K") (String.eqb units "k") then Ret x
  else if orb (String.eqb units "C") (String.eqb units "c") then Ret (x + 27315 / 100)%R else Raise.
