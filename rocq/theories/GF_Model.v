(** Model of src/skyborn/gridfill/_gridfill.pyx (the Poisson grid filler) and of
    the part of src/skyborn/gridfill/gridfill.py around it.

    The solver is written once, over an arbitrary record of arithmetic
    operations ([arith]); it is instantiated with exact rationals ([QcA]) and
    with rationals extended by NaN ([NaNA]).  Theorems that do not depend on the
    arithmetic are proved for every [arith], so they also hold of the rounded
    float64 code.

    A grid is a function from (row, column) to values; only cells with
    row < nlat and column < nlon belong to it (that the code stays inside is a
    theorem, not an assumption). *)
From Verif Require Import Base Loops.
Local Open Scope nat_scope.

(** The double operations used by _gridfill.pyx: + - * /, fabs, fmax, the
    comparison [<=], conversion of an unsigned int, the constants 0.0 and 0.25
    and the marker 1e20 (gridfill.py fill, [fill_value = 1.0e20]). *)
Record arith := {
  num : Type;
  a0 : num; aquarter : num; amark : num;
  aadd : num -> num -> num; asub : num -> num -> num;
  amul : num -> num -> num; adiv : num -> num -> num;
  aabs : num -> num; afmax : num -> num -> num;
  aleb : num -> num -> bool; altb : num -> num -> bool;
  anat : nat -> num }.

Definition qnat (n : nat) : Qc := qz (Z.of_nat n).
Definition qmark : Qc := qz (10 ^ 20)%Z.
Definition qmax (x y : Qc) : Qc := if (x <=? y)%Qc then y else x.
Definition qabs (x : Qc) : Qc := if (x <? 0)%Qc then (- x)%Qc else x.

(** Exact rational arithmetic. *)
Definition QcA : arith :=
  {| num := Qc; a0 := 0%Qc; aquarter := (/ qz 4)%Qc; amark := qmark;
     aadd := Qcplus; asub := Qcminus; amul := Qcmult; adiv := Qcdiv;
     aabs := qabs; afmax := qmax; aleb := Qcleb; altb := Qcltb; anat := qnat |}.

(** Rationals plus NaN ([None]): every operation propagates NaN, C's [fmax]
    returns the other operand, comparisons with NaN are false. *)
Definition lift1 (f : Qc -> Qc) (x : option Qc) : option Qc := option_map f x.
Definition lift2 (f : Qc -> Qc -> Qc) (x y : option Qc) : option Qc :=
  match x, y with Some a, Some b => Some (f a b) | _, _ => None end.
Definition nan_fmax (x y : option Qc) : option Qc :=
  match x, y with Some a, Some b => Some (qmax a b) | None, y => y | x, None => x end.
Definition nan_cmp (c : Qc -> Qc -> bool) (x y : option Qc) : bool :=
  match x, y with Some a, Some b => c a b | _, _ => false end.
Definition NaNA : arith :=
  {| num := option Qc; a0 := Some 0%Qc; aquarter := Some (/ qz 4)%Qc; amark := Some qmark;
     aadd := lift2 Qcplus; asub := lift2 Qcminus; amul := lift2 Qcmult; adiv := lift2 Qcdiv;
     aabs := lift1 qabs; afmax := nan_fmax; aleb := nan_cmp Qcleb; altb := nan_cmp Qcltb;
     anat := fun n => Some (qnat n) |}.

(** Masks are C ints; non-zero means missing (_gridfill.pyx:132-135). *)
Definition mask_t := nat -> nat -> Z.
Definition masked (m : mask_t) (i j : nat) : bool := negb (m i j =? 0)%Z.

(** _gridfill.pyx:52-76 [latitude_indices] (result: im1, ip1). *)
Definition latitude_indices (index nlat : nat) : nat * nat :=
  ((if index =? 0 then 1 else index - 1),
   (if index =? nlat - 1 then nlat - 2 else index + 1)).

(** _gridfill.pyx:79-111 [longitude_indices] (result: jm1, jp1). *)
Definition longitude_indices (index nlon : nat) (cyclic : bool) : nat * nat :=
  if cyclic then
    ((if index =? 0 then nlon - 1 else index - 1),
     (if index =? nlon - 1 then 0 else index + 1))
  else
    ((if index =? 0 then 1 else index - 1),
     (if index =? nlon - 1 then nlon - 2 else index + 1)).

(** _gridfill.pyx:41-48, one row of [int_sum]: four elements at a time up to
    nx - nx mod 4, then the rest one at a time.  Simplification: the C int
    accumulator does not wrap (masks built by fill() are 0/1, so the sum is at
    most nlat*nlon). *)
Definition int_sum_row (a : nat -> Z) (nx : nat) (s : Z) : Z :=
  let nxu := nx - nx mod 4 in
  let s := fold_left (fun s q => let j := 4 * q in
             (s + (a j + a (j + 1)%nat + a (j + 2)%nat + a (j + 3)%nat))%Z) (seq 0 (nxu / 4)) s in
  fold_left (fun s j => (s + a j)%Z) (seq nxu (nx - nxu)) s.

(** _gridfill.pyx:30-49 [int_sum]. *)
Definition int_sum (m : mask_t) (ny nx : nat) : Z :=
  fold_left (fun s i => int_sum_row (m i) nx s) (seq 0 ny) 0%Z.

Section Solver.
Variable A : arith.
Let N := num A.
Definition grid_t := nat -> nat -> num A.

(** grid[i, j] = v *)
Definition gset (g : grid_t) (i j : nat) (v : N) : grid_t :=
  fun a b => if (a =? i) && (b =? j) then v else g a b.

(** _gridfill.pyx:167-184, one row of the zonal-mean initialisation. *)
Definition zonal_mean_row (m : mask_t) (nlon i : nat) (g : grid_t) : grid_t :=
  let '(n, zm) := fold_left (fun '(n, zm) j =>
      if masked m i j then (n, zm) else (n + 1, aadd A zm (g i j))) (seq 0 nlon) (0, a0 A) in
  if 0 <? n then
    let zm := adiv A zm (anat A n) in
    fold_left (fun g j => if masked m i j then gset g i j zm else g) (seq 0 nlon) g
  else g.

(** _gridfill.pyx:201-203 and 227-229: missing cells of a row := initial_value. *)
Definition const_row (m : mask_t) (nlon i : nat) (v : N) (g : grid_t) : grid_t :=
  fold_left (fun g j => if masked m i j then gset g i j v else g) (seq 0 nlon) g.

(** _gridfill.pyx:187-198: the scan recording segment starts (index, value of
    the left neighbour) and segment ends (index, value there), in order. *)
Definition scan_segments (m : mask_t) (nlon i : nat) (cyclic : bool) (g : grid_t)
  : list (nat * N) * list (nat * N) :=
  fold_left (fun '(ss, es) j =>
    let jm1 := fst (longitude_indices j nlon cyclic) in
    if negb (masked m i jm1) && masked m i j then (ss ++ [(j, g i jm1)], es)
    else if masked m i jm1 && negb (masked m i j) then (ss, es ++ [(j, g i j)])
    else (ss, es)) (seq 0 nlon) ([], []).

(** _gridfill.pyx:207-210 (and 213-216, 217-223): one run of assignments
    grid[i, jj] = njj*(ev - sv)/width + sv for jj in range(lo, hi), with njj
    starting at n0. *)
Definition fill_run (i lo hi n0 width : nat) (sv ev : N) (g : grid_t) : grid_t :=
  fold_left (fun g k =>
    gset g i (lo + k) (aadd A (adiv A (amul A (anat A (n0 + k)) (asub A ev sv)) (anat A width)) sv))
    (seq 0 (hi - lo)) g.

(** _gridfill.pyx:186-223, one row of the zonal-linear initialisation. *)
Definition zonal_linear_row (m : mask_t) (nlon : nat) (cyclic : bool) (v : N) (i : nat) (g : grid_t) : grid_t :=
  let '(ss, es) := scan_segments m nlon i cyclic g in
  let ns := length ss in
  let ne := length es in
  let s_ k := nth k ss (0, a0 A) in
  let e_ k := nth k es (0, a0 A) in
  if ns =? 0 then const_row m nlon i v g
  else if ns =? ne then
    if fst (s_ 0) <? fst (e_ 0) then
      fold_left (fun g k =>
        fill_run i (fst (s_ k)) (fst (e_ k)) 0 (fst (e_ k) - fst (s_ k)) (snd (s_ k)) (snd (e_ k)) g)
        (seq 0 ns) g
    else
      let g := fold_left (fun g k =>
        fill_run i (fst (s_ k)) (fst (e_ (k + 1))) 0 (fst (e_ (k + 1)) - fst (s_ k))
                 (snd (s_ k)) (snd (e_ (k + 1))) g) (seq 0 (ns - 1)) g in
      let sl := s_ (ns - 1) in
      let width := nlon - fst sl + fst (e_ 0) in
      let g := fill_run i (fst sl) nlon 0 width (snd sl) (snd (e_ 0)) g in
      fill_run i 0 (fst (e_ 0)) (nlon - fst sl) width (snd sl) (snd (e_ 0)) g
  else g.

(** _gridfill.pyx:114-229 [initialize_missing]. *)
Inductive init_mode := InitZonal | InitZonalLinear | InitConst.
Definition initialize_missing (m : mask_t) (nlat nlon : nat) (mode : init_mode) (cyclic : bool)
    (v : N) (g : grid_t) : grid_t :=
  fold_left (fun g i =>
    match mode with
    | InitZonal => zonal_mean_row m nlon i g
    | InitZonalLinear => zonal_linear_row m nlon cyclic v i g
    | InitConst => const_row m nlon i v g
    end) (seq 0 nlat) g.

(** _gridfill.pyx:167/185/224: initialize_zonal is tested first. *)
Definition init_mode_of (zonal zonal_linear : bool) : init_mode :=
  if zonal then InitZonal else if zonal_linear then InitZonalLinear else InitConst.

(** _gridfill.pyx:322-324: the relaxed residual at one cell. *)
Definition residual (nlat nlon : nat) (cyclic : bool) (relaxc : N) (g : grid_t) (i j : nat) : N :=
  let '(im1, ip1) := latitude_indices i nlat in
  let '(jm1, jp1) := longitude_indices j nlon cyclic in
  amul A (asub A (amul A (aquarter A)
            (aadd A (aadd A (aadd A (g im1 j) (g ip1 j)) (g i jm1)) (g i jp1))) (g i j)) relaxc.

(** _gridfill.pyx:319-326: visit one cell; the state is (grid, _resmax). *)
Definition relax_cell (m : mask_t) (nlat nlon : nat) (cyclic : bool) (relaxc : N)
    (st : grid_t * N) (c : nat * nat) : grid_t * N :=
  let '(g, rm) := st in
  let '(i, j) := c in
  if masked m i j then
    let r := residual nlat nlon cyclic relaxc g i j in
    (gset g i j (aadd A (g i j) r), afmax A (aabs A r) rm)
  else (g, rm).

(** The visiting order of the two loops at _gridfill.pyx:316-318. *)
Definition cells (nlat nlon : nat) : list (nat * nat) :=
  flat_map (fun i => map (fun j => (i, j)) (seq 0 nlon)) (seq 0 nlat).

(** _gridfill.pyx:313-326: one sweep, starting from _resmax = 0.0. *)
Definition sweep (m : mask_t) (nlat nlon : nat) (cyclic : bool) (relaxc : N) (g : grid_t) : grid_t * N :=
  fold_left (relax_cell m nlat nlon cyclic relaxc) (cells nlat nlon) (g, a0 A).

(** _gridfill.pyx:312-330, [fuel] = itermax - _numiter; result (grid, _numiter, _resmax). *)
Fixpoint relax_loop (fuel : nat) (m : mask_t) (nlat nlon : nat) (cyclic : bool) (relaxc tol : N)
    (g : grid_t) (numiter : nat) (rm : N) : grid_t * nat * N :=
  match fuel with
  | O => (g, numiter, rm)
  | S fuel' =>
      let '(g', rm') := sweep m nlat nlon cyclic relaxc g in
      if aleb A rm' tol then (g', numiter + 1, rm')
      else relax_loop fuel' m nlat nlon cyclic relaxc tol g' (numiter + 1) rm'
  end.

(** Arguments shared by the drivers. *)
Record params := {
  p_relax : N; p_tol : N; p_itermax : nat; p_cyclic : bool; p_mode : init_mode; p_init : N }.

(** _gridfill.pyx:232-333 [poisson_fill]; result (grid, numiter, resmax). *)
Definition poisson_fill (P : params) (m : mask_t) (nlat nlon : nat) (g : grid_t) : grid_t * nat * N :=
  if (int_sum m nlat nlon =? 0)%Z then (g, 0, a0 A)
  else
    let g := initialize_missing m nlat nlon (p_mode P) (p_cyclic P) (p_init P) g in
    relax_loop (p_itermax P) m nlat nlon (p_cyclic P) (p_relax P) (p_tol P) g 0 (a0 A).

(** A stack grids[i, j, k] and views grids[:, :, k]. *)
Definition stack_t := nat -> nat -> nat -> N.
Definition slice (gs : stack_t) (k : nat) : grid_t := fun i j => gs i j k.
Definition set_slice (gs : stack_t) (k : nat) (g : grid_t) : stack_t :=
  fun i j k' => if k' =? k then g i j else gs i j k'.
Definition mask_slice (ms : nat -> nat -> nat -> Z) (k : nat) : mask_t := fun i j => ms i j k.

(** _gridfill.pyx:336-432 [poisson_fill_grids]; None is the ValueError of lines
    406-408 (the shape check of lines 409-416 is not modelled: masks and grids
    share nlat, nlon, ngrid here).  numiter and resmax start as unspecified
    arrays (np.empty). *)
Definition poisson_fill_grids (P : params) (ms : nat -> nat -> nat -> Z) (nlat nlon ngrid : nat)
    (gs : stack_t) (ni0 : nat -> nat) (rm0 : nat -> N) : option (stack_t * (nat -> nat) * (nat -> N)) :=
  if (nlat <? 3) || (nlon <? 3) then None
  else Some (fold_left (fun '(gs, ni, rm) k =>
      let '(g, n, r) := poisson_fill P (mask_slice ms k) nlat nlon (slice gs k) in
      (set_slice gs k g, (fun k' => if k' =? k then n else ni k'), (fun k' => if k' =? k then r else rm k')))
    (seq 0 ngrid) (gs, ni0, rm0)).

(** gridfill.py:192-351 [fill] on a prepared (3-D) masked array: the mask as
    0/1 ints, [filled(1e20)], the solver, and converged = not (resmax > eps). *)
Definition fill_prepared (P : params) (data : stack_t) (mk : nat -> nat -> nat -> bool)
    (nlat nlon ngrid : nat) (ni0 : nat -> nat) (rm0 : nat -> N)
  : option (stack_t * (nat -> bool)) :=
  let ms := fun i j k => if mk i j k then 1%Z else 0%Z in
  let gs := fun i j k => if mk i j k then amark A else data i j k in
  match poisson_fill_grids P ms nlat nlon ngrid gs ni0 rm0 with
  | None => None
  | Some (gs', _, rm) => Some (gs', fun k => negb (altb A (p_tol P) (rm k)))
  end.

End Solver.
