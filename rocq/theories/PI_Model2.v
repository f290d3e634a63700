(** Model of the profile and grid drivers of tropical_cyclone_potential_intensity.f90
    (cited as tcpi.f90); see PI_Model for the conventions.

    A multi-dimensional array is the list of its elements in Fortran order.
    Output arrays written at the same grid point are kept as one array of
    records (lists of values: minimum pressure and wind, then for the
    diagnostics routines outflow temperature and level, lnpi, lneff, lndiseq).
    The parallel loops run the points in some order: a permutation of the
    sequential one, given as an argument. *)
From Coq Require Import Reals List Arith Lia ZArith Bool Permutation.
From Verif Require Import Base Buffer VH_Model PI_Model.
Import ListNotations.
Local Open Scope nat_scope.

(** tcpi.f90:70-72 *)
Definition to_mb (x : R) : R := (x * (1 / 100))%R.
Definition to_C (x : R) : R := (x + - (27315 / 100))%R.
Definition to_gkg (x : R) : R := (x * 1000)%R.

(** The stored values of a point: two for the plain routines (tcpi.f90:105),
    seven for the diagnostics routines (tcpi.f90:294-296). *)
Definition fields (diag : bool) (o : pi_out) : list R :=
  if diag then [o_pmin o; o_vmax o; o_To o; o_po o; o_lnpi o; o_lneff o; o_lndiseq o]
  else [o_pmin o; o_vmax o].
Definition undef_fields (diag : bool) : list R := repeat UNDEF (if diag then 7 else 2).

(** tcpi.f90:85-108, 271-297, 889-912, 968-994: one point without missing-value
    handling.  The second component is the flag of the core routine, [None]
    when the point is skipped. *)
Definition plain_cell (diag : bool) (ofl : Z) (ckcd : R) (levels : nat) (P : list R)
  (sst psl : R) (T r : list R) : option (list R * option Z) :=
  if rle (to_C sst) 5 then Some (undef_fields diag, None)
  else
    let* o := calculate_pi_core (to_C sst) (to_mb psl) P (map to_C T) (map to_gkg r) levels ofl ckcd in
    Some (fields diag o, Some (o_flag o)).

(** tcpi.f90:189, 384, 1087, 1198 *)
Definition valid_level (tr : R * R) : bool := andb (negb (req (fst tr) UNDEF)) (negb (req (snd tr) UNDEF)).

(** tcpi.f90:185-190: the first valid level, num_levels + 1 if there is none *)
Fixpoint valid_start (k : nat) (trs : list (R * R)) (start : nat) : nat :=
  match trs with
  | [] => start
  | tr :: rest => valid_start (S k) rest (if valid_level tr then Nat.min start k else start)
  end.

(** tcpi.f90:191-195 *)
Definition masked (conv : R * R -> R) (tr : R * R) : R := if valid_level tr then conv tr else UNDEF.

(** tcpi.f90:168-215, 356-411, 1066-1113, 1170-1225: one point with missing-value
    handling *)
Definition missing_cell (diag : bool) (ofl : Z) (ckcd : R) (levels : nat) (P : list R)
  (sst psl : R) (T r : list R) : option (list R * option Z) :=
  if req sst UNDEF then Some (undef_fields diag, None)
  else if rle (to_C sst) 5 then Some (undef_fields diag, None)
  else
    let trs := combine T r in
    let tc := map (masked (fun tr => to_C (fst tr))) trs in
    let rg := map (masked (fun tr => to_gkg (snd tr))) trs in
    let vs := valid_start 1 trs (levels + 1) in
    if levels <? vs then Some (undef_fields diag, None)
    else
      let* o := calculate_pi_core (to_C sst) (to_mb psl) (skipn (vs - 1) P) (skipn (vs - 1) tc)
                  (skipn (vs - 1) rg) (levels - vs + 1) ofl ckcd in
      Some (fields diag o, Some (o_flag o)).

(** The last flag wins (tcpi.f90:107, 214). *)
Definition flag_last (flag : Z) (f : option Z) : Z := match f with Some z => z | None => flag end.
(** The last failure wins (tcpi.f90:298, 412, 913, 995, 1114, 1226). *)
Definition flag_fail (flag : Z) (f : option Z) : Z :=
  match f with Some z => if (z =? 1)%Z then flag else z | None => flag end.

(** The loop over the points, in the given order. *)
Definition grid_loop (pol : Z -> option Z -> Z) (cell : nat -> option (list R * option Z))
  (order : list nat) (out : list (list R)) (flag : Z) : option (list (list R) * Z) :=
  foldM (fun st c =>
           let* v := cell c in
           let* o' := wrx (fst st) (c + 1) (fst v) in
           Some (o', pol (snd st) (snd v))) order (out, flag).

(** tcpi.f90:82-83: the points of an (nlat, nlon) array in loop order, as offsets *)
Definition order3 (nlat nlon : nat) : list nat :=
  flat_map (fun j => map (fun i => i + nlat * j) (seq 0 nlat)) (seq 0 nlon).
(** tcpi.f90:885-887: the points of a (num_times, nlat, nlon) array *)
Definition order4 (nt nlat nlon : nat) : list nat :=
  flat_map (fun j => flat_map (fun i => map (fun t => t + nt * (i + nlat * j)) (seq 0 nt)) (seq 0 nlat))
           (seq 0 nlon).

(** Elements of a column: X(k, i, j) of an (nl, nlat, nlon) array at offset
    c = i + nlat j, and X(t, k, i, j) of an (nt, nl, nlat, nlon) array at
    offset c = t + nt (i + nlat j). *)
Definition column3 (nl : nat) (X : list R) (c : nat) : option (list R) :=
  mapM (fun k => rd X (k + nl * c)) (seq 1 nl).
Definition column4 (nt nl : nat) (X : list R) (c : nat) : option (list R) :=
  mapM (fun k => rd X (c mod nt + 1 + nt * ((k - 1) + nl * (c / nt)))) (seq 1 nl).

Record grid := mkgrid { g_sst : list R; g_psl : list R; g_P : list R; g_T : list R; g_r : list R }.

(** One point of a grid: read sst, psl and the column, then the point routine
    (which reads the column only when the point is not skipped; the reads are
    in bounds for arrays of the declared shapes). *)
Definition point (cell : list R -> R -> R -> list R -> list R -> option (list R * option Z))
  (col : list R -> nat -> option (list R)) (g : grid) (c : nat) : option (list R * option Z) :=
  let* sst := rd (g_sst g) (c + 1) in
  let* psl := rd (g_psl g) (c + 1) in
  let* T := col (g_T g) c in
  let* r := col (g_r g) c in
  cell (g_P g) sst psl T r.

(** tcpi.f90:51-112; [flag0] is the caller's error_flag, which the routine does
    not set before the loop *)
Definition calculate_pi_gridded_data (nlat nlon nl : nat) (g : grid) (out : list (list R)) (flag0 : Z) :=
  grid_loop flag_last (point (plain_cell false 0 (9 / 10) nl) (column3 nl) g) (order3 nlat nlon) out flag0.

(** tcpi.f90:132-219 *)
Definition calculate_pi_gridded_with_missing (nlat nlon nl : nat) (g : grid) (out : list (list R)) :=
  grid_loop flag_last (point (missing_cell false 0 (9 / 10) nl) (column3 nl) g) (order3 nlat nlon) out 1.

(** tcpi.f90:264-266, 349-351, 960-962, 1162-1164 *)
Definition lnckcd_out (ckcd : R) : R := if rlt 0 ckcd then ln ckcd else UNDEF.

(** tcpi.f90:221-303; returns the point outputs, error_flag and lnckcd *)
Definition calculate_pi_gridded_diagnostics (order : list nat) (nl : nat) (g : grid) (out : list (list R))
  (ofl : Z) (ckcd_in : R) :=
  let ckcd := if rlt 0 ckcd_in then ckcd_in else (9 / 10)%R in            (* 261-262 *)
  let* st := grid_loop flag_fail (point (plain_cell true ofl ckcd nl) (column3 nl) g) order out 1 in
  Some (st, lnckcd_out ckcd).

(** tcpi.f90:305-417 *)
Definition calculate_pi_gridded_diagnostics_with_missing (order : list nat) (nl : nat) (g : grid)
  (out : list (list R)) (ofl : Z) (ckcd_in : R) :=
  let* st := grid_loop flag_fail (point (missing_cell true ofl ckcd_in nl) (column3 nl) g) order out 1 in
  Some (st, lnckcd_out ckcd_in).

(** tcpi.f90:849-919 *)
Definition calculate_pi_4d_data (order : list nat) (nt nl : nat) (g : grid) (out : list (list R)) :=
  grid_loop flag_fail (point (plain_cell false 0 (9 / 10) nl) (column4 nt nl) g) order out 1.

(** tcpi.f90:921-1001 *)
Definition calculate_pi_4d_diagnostics (order : list nat) (nt nl : nat) (g : grid) (out : list (list R))
  (ofl : Z) (ckcd_in : R) :=
  let* st := grid_loop flag_fail (point (plain_cell true ofl ckcd_in nl) (column4 nt nl) g) order out 1 in
  Some (st, lnckcd_out ckcd_in).

(** tcpi.f90:1026-1120 *)
Definition calculate_pi_4d_with_missing (order : list nat) (nt nl : nat) (g : grid) (out : list (list R)) :=
  grid_loop flag_fail (point (missing_cell false 0 (9 / 10) nl) (column4 nt nl) g) order out 1.

(** tcpi.f90:1122-1232 *)
Definition calculate_pi_4d_diagnostics_with_missing (order : list nat) (nt nl : nat) (g : grid)
  (out : list (list R)) (ofl : Z) (ckcd_in : R) :=
  let* st := grid_loop flag_fail (point (missing_cell true ofl ckcd_in nl) (column4 nt nl) g) order out 1 in
  Some (st, lnckcd_out ckcd_in).

(** tcpi.f90:436-492: minimum pressure, wind, error flag *)
Definition calculate_pi_single_profile (sst psl : R) (P T r : list R) (actual : nat) : option (R * R * Z) :=
  if rle (to_C sst) 5 then Some (UNDEF, UNDEF, 0%Z)                        (* 471-476 *)
  else
    let* o := calculate_pi_core (to_C sst) (to_mb psl) P (map to_C T) (map to_gkg r) actual 0 (9 / 10) in
    Some (o_pmin o, o_vmax o, o_flag o).

(** tcpi.f90:494-566; [nl] is num_levels *)
Definition calculate_pi_profile_diagnostics (sst psl : R) (nl : nat) (P T r : list R) (actual : nat)
  (ofl : Z) (ckcd : R) : option pi_out :=
  let levels := Nat.min (Nat.max actual 1) nl in                           (* 546 *)
  if rle (to_C sst) 5 then
    Some (mkpi UNDEF UNDEF UNDEF UNDEF UNDEF UNDEF UNDEF (lnckcd_out ckcd) 0)
  else calculate_pi_core (to_C sst) (to_mb psl) P (map to_C T) (map to_gkg r) levels ofl ckcd.
