(** Model of the triangular spectral storage of src/skyborn/spharm: the
    conversions between the one-dimensional coefficient vector and the (m, n)
    coefficient matrices, the spectral Laplacian and its inverse, isotropic
    smoothing, point evaluation, and the recovery of the truncation from the
    length of the vector.

    The kernels are written once over a record [rl] of real operations, so that
    they can be read with real numbers, with rationals, or (see [ext]) with
    values that may be infinite or NaN.  The recovery of the truncation is
    modelled with the IEEE operations of Coq's standard library
    (Floats.SpecFloat, no axioms), because there the rounding matters.

    The loop [do i = 1, nt] over columns of the arrays is the same computation
    for every column and the columns do not overlap; one column is modelled.
    Every array access is checked: [None] is an access outside the array. *)
From Coq Require Import Reals SpecFloat.
From Verif Require Import Base Buffer VH_Model.
Local Open Scope Z_scope.

(** Real operations used by the kernels; [rz] is [real(n)] and the literals. *)
Record rl := {
  T :> Type;
  rz : Z -> T;
  radd : T -> T -> T; rsub : T -> T -> T; rmul : T -> T -> T; rdiv : T -> T -> T;
  ropp : T -> T; rsqrt : T -> T }.

Definition RR : rl :=
  {| T := R; rz := IZR; radd := Rplus; rsub := Rminus; rmul := Rmult; rdiv := Rdiv;
     ropp := Ropp; rsqrt := R_sqrt.sqrt |}.
Definition QR (sq : Qc -> Qc) : rl :=
  {| T := Qc; rz := qz; radd := Qcplus; rsub := Qcminus; rmul := Qcmult; rdiv := Qcdiv;
     ropp := Qcopp; rsqrt := sq |}.

(** Values that may be non-finite: [None] stands for an infinity or a NaN.  A
    division by zero gives one, and it propagates through every operation
    (Inf - Inf, Inf * 0 and 1 / Inf are coarsened to "non-finite"; the kernels
    below divide only by n-dependent constants and by the radius). *)
Definition ext (A : rl) (is0 : A -> bool) : rl :=
  {| T := option A;
     rz := fun n => Some (rz A n);
     radd := fun x y => match x, y with Some a, Some b => Some (radd A a b) | _, _ => None end;
     rsub := fun x y => match x, y with Some a, Some b => Some (rsub A a b) | _, _ => None end;
     rmul := fun x y => match x, y with Some a, Some b => Some (rmul A a b) | _, _ => None end;
     rdiv := fun x y => match x, y with
                        | Some a, Some b => if is0 b then None else Some (rdiv A a b)
                        | _, _ => None end;
     ropp := fun x => option_map (ropp A) x;
     rsqrt := fun x => option_map (rsqrt A) x |}.

(** Number of coefficients of truncation [n]: [(ntrunc+1)*(ntrunc+2)/2]
    (twodtooned.f90:12, _spherepack_module.c py_getlegfunc). *)
Definition nmdim_of (ntrunc : Z) : Z := (ntrunc + 1) * (ntrunc + 2) / 2.

(** ** Recovering the truncation from the number of coefficients *)

(** onedtotwod.f90:20, lap.f90:23, invlap.f90:25, multsmoothfact.f90:20,
    onedtotwod.f90 (vrtdiv, vrt, div):
    [ntrunc = -1.5 + 0.5 * sqrt(9.0 - 8.0 * (1.0 - real(nmdim)))] in precision
    (prec, emax), assigned to an integer (truncation towards zero). *)
Section Trunc.
Variables prec emax : Z.
Definition of_int (n : Z) : spec_float := binary_normalize prec emax n 0 false.
Definition half_f : spec_float := binary_normalize prec emax 1 (-1) false.
Definition m15_f : spec_float := binary_normalize prec emax (-3) (-1) false.
Definition to_int (x : spec_float) : option Z :=
  match x with
  | S754_zero _ => Some 0
  | S754_finite s m e =>
      let a := match e with
               | Z0 => Z.pos m
               | Zpos p => Z.pos m * 2 ^ Zpos p
               | Zneg p => Z.pos m / 2 ^ Zpos p
               end in
      Some (if s then - a else a)
  | _ => None
  end.
Definition trunc_of (nmdim : Z) : option Z :=
  to_int (SFadd prec emax m15_f
            (SFmul prec emax half_f
               (SFsqrt prec emax
                  (SFsub prec emax (of_int 9)
                     (SFmul prec emax (of_int 8)
                        (SFsub prec emax (of_int 1) (of_int nmdim))))))).
End Trunc.
(** The Fortran kernels compute it with default (single) reals ... *)
Definition trunc32 : Z -> option Z := trunc_of 24 128.
(** ... spherical_harmonics.py:616, 1895-1896 with Python floats. *)
Definition trunc64 : Z -> option Z := trunc_of 53 1024.

(** ** Array access *)
Definition dolist (a b : Z) : list Z := map (fun k => a + Z.of_nat k) (seq 0 (Z.to_nat (b - a + 1))).
Definition rdz {X : Type} (a : list X) (i : Z) : option X :=
  if (i <? 1)%Z then None else rd a (Z.to_nat i).
Definition wrz {X : Type} (a : list X) (i : Z) (v : X) : option (list X) :=
  if (i <? 1)%Z then None else wrx a (Z.to_nat i) v.
(** [x(nlat, nlat)], column-major, as a flat list; both subscripts checked. *)
Definition in2 (nlat m n : Z) : bool := ((1 <=? m) && (m <=? nlat) && (1 <=? n) && (n <=? nlat))%Z%bool.
Definition rd2 {X : Type} (nlat : Z) (a : list X) (m n : Z) : option X :=
  if in2 nlat m n then rdz a ((n - 1) * nlat + m) else None.
Definition wr2 {X : Type} (nlat : Z) (a : list X) (m n : Z) (v : X) : option (list X) :=
  if in2 nlat m n then wrz a ((n - 1) * nlat + m) v else None.

(** The loop nest shared by all the kernels (onedtotwod.f90:34-48,
    twodtooned.f90:20-32, lap.f90:27-41, multsmoothfact.f90:24-36,
    getlegfunc.f90:27-38):
    nmstrt = 0; do m = 1, ntrunc+1; do n = n1(m), ntrunc+1;
    nm = nmstrt + n - m + 1; ...; nmstrt = nmstrt + ntrunc - m + 2. *)
Definition tri_loop {S : Type} (ntrunc : Z) (n1 : Z -> Z)
    (body : Z -> Z -> Z -> S -> option S) (s0 : S) : option S :=
  option_map snd
    (foldM (fun (st : Z * S) m =>
        let nmstrt := fst st in
        let* s := foldM (fun s n => body m n (nmstrt + n - m + 1) s)
                    (dolist (n1 m) (ntrunc + 1)) (snd st) in
        Some (nmstrt + ntrunc - m + 2, s))
      (dolist 1 (ntrunc + 1)) (0, s0)).

Section Kernels.
Variable A : rl.
Notation C := (T A * T A)%type.

Definition zero2 (nlat : Z) : list A := repeat (rz A 0) (Z.to_nat nlat * Z.to_nat nlat).
Definition czero : C := (rz A 0, rz A 0).
(** a real times a complex value *)
Definition cscale (f : A) (c : C) : C := (rmul A f (fst c), rmul A f (snd c)).
Definition half : A := rdiv A (rz A 1) (rz A 2).

(** onedtotwod.f90:7-50 with the truncation already recovered. *)
Definition onedtotwod_at (ntrunc nlat : Z) (dataspec : list C) : option (list A * list A) :=
  let scale_inv := rz A 2 in
  tri_loop ntrunc (fun m => m)
    (fun m n nm ab =>
       let* c := rdz dataspec nm in
       let spec_val := cscale scale_inv c in
       let* a := wr2 nlat (fst ab) m n (fst spec_val) in
       let* b := wr2 nlat (snd ab) m n (snd spec_val) in
       Some (a, b))
    (zero2 nlat, zero2 nlat).

(** onedtotwod.f90 onedtotwod_vrt: n_factor = rsphere / sqrt(n*(n-1)),
    cr = n_factor*vrt_real/scale. *)
Definition n_factor_in (rsphere : A) (n : Z) : A :=
  rdiv A rsphere (rsqrt A (rmul A (rz A n) (rsub A (rz A n) (rz A 1)))).
Definition onedtotwod_vrt_at (ntrunc nlat : Z) (rsphere : A) (vrtspec : list C) : option (list A * list A) :=
  let scale := half in
  tri_loop ntrunc (fun m => m)
    (fun m n nm cc =>
       let* v := rdz vrtspec nm in
       let f := n_factor_in rsphere n in
       let* cr := wr2 nlat (fst cc) m n (rdiv A (rmul A f (fst v)) scale) in
       let* ci := wr2 nlat (snd cc) m n (rdiv A (rmul A f (snd v)) scale) in
       Some (cr, ci))
    (zero2 nlat, zero2 nlat).
(** onedtotwod.f90 onedtotwod_div: br = -n_factor*div_real/scale. *)
Definition onedtotwod_div_at (ntrunc nlat : Z) (rsphere : A) (divspec : list C) : option (list A * list A) :=
  let scale := half in
  tri_loop ntrunc (fun m => m)
    (fun m n nm bb =>
       let* v := rdz divspec nm in
       let f := n_factor_in rsphere n in
       let* br := wr2 nlat (fst bb) m n (rdiv A (rmul A (ropp A f) (fst v)) scale) in
       let* bi := wr2 nlat (snd bb) m n (rdiv A (rmul A (ropp A f) (snd v)) scale) in
       Some (br, bi))
    (zero2 nlat, zero2 nlat).
(** onedtotwod.f90 onedtotwod_vrtdiv: both in one pass. *)
Definition onedtotwod_vrtdiv_at (ntrunc nlat : Z) (rsphere : A) (vrtspec divspec : list C)
    : option ((list A * list A) * (list A * list A)) :=
  let scale := half in
  tri_loop ntrunc (fun m => m)
    (fun m n nm s =>
       let f := n_factor_in rsphere n in
       let* d := rdz divspec nm in
       let* v := rdz vrtspec nm in
       let* br := wr2 nlat (fst (fst s)) m n (rdiv A (rmul A (ropp A f) (fst d)) scale) in
       let* bi := wr2 nlat (snd (fst s)) m n (rdiv A (rmul A (ropp A f) (snd d)) scale) in
       let* cr := wr2 nlat (fst (snd s)) m n (rdiv A (rmul A f (fst v)) scale) in
       let* ci := wr2 nlat (snd (snd s)) m n (rdiv A (rmul A f (snd v)) scale) in
       Some ((br, bi), (cr, ci)))
    ((zero2 nlat, zero2 nlat), (zero2 nlat, zero2 nlat)).

(** twodtooned.f90:6-34 *)
Definition zero1 (ntrunc : Z) : list C := repeat czero (Z.to_nat (nmdim_of ntrunc)).
Definition twodtooned (nlat ntrunc : Z) (a b : list A) : option (list C) :=
  let scale := half in
  tri_loop ntrunc (fun m => m)
    (fun m n nm out =>
       let* x := rd2 nlat a m n in
       let* y := rd2 nlat b m n in
       wrz out nm (cscale scale (x, y)))
    (zero1 ntrunc).
(** twodtooned.f90 twodtooned_vrt: n_factor = sqrt(n*(n-1)) * rsphere_inv * scale. *)
Definition n_factor_out (rsphere_inv : A) (n : Z) : A :=
  rmul A (rmul A (rsqrt A (rmul A (rz A n) (rsub A (rz A n) (rz A 1)))) rsphere_inv) half.
Definition twodtooned_vrt (nlat ntrunc : Z) (rsphere : A) (cr ci : list A) : option (list C) :=
  let rsphere_inv := rdiv A (rz A 1) rsphere in
  tri_loop ntrunc (fun m => m)
    (fun m n nm out =>
       let* x := rd2 nlat cr m n in
       let* y := rd2 nlat ci m n in
       wrz out nm (cscale (n_factor_out rsphere_inv n) (x, y)))
    (zero1 ntrunc).
(** twodtooned.f90 twodtooned_div *)
Definition twodtooned_div (nlat ntrunc : Z) (rsphere : A) (br bi : list A) : option (list C) :=
  let rsphere_inv := rdiv A (rz A 1) rsphere in
  tri_loop ntrunc (fun m => m)
    (fun m n nm out =>
       let* x := rd2 nlat br m n in
       let* y := rd2 nlat bi m n in
       wrz out nm (cscale (ropp A (n_factor_out rsphere_inv n)) (x, y)))
    (zero1 ntrunc).
(** twodtooned.f90 twodtooned_vrtdiv (result: vrtspec, divspec) *)
Definition twodtooned_vrtdiv (nlat ntrunc : Z) (rsphere : A) (br bi cr ci : list A)
    : option (list C * list C) :=
  let rsphere_inv := rdiv A (rz A 1) rsphere in
  tri_loop ntrunc (fun m => m)
    (fun m n nm out =>
       let f := n_factor_out rsphere_inv n in
       let* x := rd2 nlat br m n in
       let* y := rd2 nlat bi m n in
       let* d := wrz (snd out) nm (cscale (ropp A f) (x, y)) in
       let* z := rd2 nlat cr m n in
       let* w := rd2 nlat ci m n in
       let* v := wrz (fst out) nm (cscale f (z, w)) in
       Some (v, d))
    (zero1 ntrunc, zero1 ntrunc).

(** lap.f90:6-44; [junk] is the uninitialised output array allocated by
    _spherepack_module.c py_lap (PyArray_EMPTY). *)
Definition lap_at (ntrunc : Z) (rsphere : A) (dataspec junk : list C) : option (list C) :=
  let rsphere_inv_sq := rdiv A (rz A 1) (rmul A rsphere rsphere) in
  tri_loop ntrunc (fun m => m)
    (fun m n nm out =>
       let n_real := rz A n in
       let lap_factor := rmul A (rmul A (ropp A n_real) (rsub A n_real (rz A 1))) rsphere_inv_sq in
       let* c := rdz dataspec nm in
       wrz out nm (cscale lap_factor c))
    junk.

(** invlap.f90:6-52 *)
Definition invlap_at (ntrunc : Z) (rsphere : A) (dataspec junk : list C) : option (list C) :=
  let rsphere_sq := rmul A rsphere rsphere in
  let* out := tri_loop ntrunc (fun m => if (m =? 1)%Z then 2 else m)
    (fun m n nm out =>
       let n_real := rz A n in
       let invlap_factor := rdiv A (ropp A rsphere_sq) (rmul A n_real (rsub A n_real (rz A 1))) in
       let* c := rdz dataspec nm in
       wrz out nm (cscale invlap_factor c))
    junk in
  wrz out 1 czero.

(** multsmoothfact.f90:6-38 *)
Definition multsmoothfact_at (ntrunc : Z) (smooth : list A) (dataspec junk : list C) : option (list C) :=
  tri_loop ntrunc (fun m => m)
    (fun m n nm out =>
       let* f := rdz smooth n in
       let* c := rdz dataspec nm in
       wrz out nm (cscale f c))
    junk.

(** getlegfunc.f90:27-38, the function computed by alfk/lfpt for degree n-1 and
    order m-1 being given as [alf (n-1) (m-1)]. *)
Definition getlegfunc (alf : Z -> Z -> A) (ntrunc : Z) (junk : list A) : option (list A) :=
  tri_loop ntrunc (fun m => m) (fun m n nm out => wrz out nm (alf (n - 1) (m - 1))) junk.

(** specintrp.f90:6-51; [cs m] is (cos(m*rlon), sin(m*rlon)). *)
Definition specintrp (cs : Z -> A * A) (ntrunc : Z) (datnm : list C) (pnm : list A) : option A :=
  let mwaves := ntrunc + 1 in
  (* first pass: scrm(m) *)
  let* st := foldM (fun (st : Z * list C) m =>
      let nmstrt := fst st in
      let* s := foldM (fun (s : C) n =>
          let* d := rdz datnm (nmstrt + n) in
          let* p := rdz pnm (nmstrt + n) in
          Some (radd A (fst s) (rmul A (fst d) p), radd A (snd s) (rmul A (snd d) p)))
        (dolist 1 (mwaves - m + 1)) czero in
      Some (nmstrt + mwaves - m + 1, snd st ++ s :: nil)) (dolist 1 mwaves) (0, nil) in
  let scrm := snd st in
  (* second pass *)
  let* s1 := rdz scrm 1 in
  foldM (fun ob m =>
      let* s := rdz scrm m in
      let '(c, sn) := cs (m - 1) in
      Some (radd A ob (rmul A (rz A 2) (rsub A (rmul A (fst s) c) (rmul A (snd s) sn)))))
    (dolist 2 mwaves) (fst s1).

(** ** The C wrappers: the kernel's truncation is recovered from the length *)
(** _spherepack_module.c py_onedtotwod + onedtotwod.f90 *)
Definition onedtotwod (nlat : Z) (dataspec : list C) : option (list A * list A) :=
  let* ntrunc := trunc32 (Z.of_nat (length dataspec)) in onedtotwod_at ntrunc nlat dataspec.
(** _spherepack_module.c py_lap + lap.f90 *)
Definition lap (rsphere : A) (dataspec junk : list C) : option (list C) :=
  let* ntrunc := trunc32 (Z.of_nat (length dataspec)) in lap_at ntrunc rsphere dataspec junk.
(** _spherepack_module.c py_invlap + invlap.f90 *)
Definition invlap (rsphere : A) (dataspec junk : list C) : option (list C) :=
  let* ntrunc := trunc32 (Z.of_nat (length dataspec)) in invlap_at ntrunc rsphere dataspec junk.
(** _spherepack_module.c py_multsmoothfact + multsmoothfact.f90 *)
Definition multsmoothfact (smooth : list A) (dataspec junk : list C) : option (list C) :=
  let* ntrunc := trunc32 (Z.of_nat (length dataspec)) in multsmoothfact_at ntrunc smooth dataspec junk.
(** onedtotwod_vrtdiv with its recovered truncation *)
Definition onedtotwod_vrtdiv (nlat : Z) (rsphere : A) (vrtspec divspec : list C)
    : option ((list A * list A) * (list A * list A)) :=
  let* ntrunc := trunc32 (Z.of_nat (length vrtspec)) in
  onedtotwod_vrtdiv_at ntrunc nlat rsphere vrtspec divspec.
End Kernels.

(** ** Python layer *)
(** spherical_harmonics.py:605-637 [_validate_spectral_data], the truncation
    test on the first dimension: [None] = ValidationError, otherwise ntrunc. *)
Definition validate_spectral_data (nlat nmdim : Z) : option Z :=
  match trunc64 nmdim with
  | Some ntrunc => if (nlat - 1 <? ntrunc)%Z then None else Some ntrunc
  | None => None
  end.
(** spherical_harmonics.py:971-981 [_validate_ntrunc] *)
Definition validate_ntrunc (ntrunc : option Z) (max_allowed : Z) : option Z :=
  match ntrunc with
  | None => Some max_allowed
  | Some n => if ((n <? 0) || (max_allowed <? n))%Z%bool then None else Some n
  end.
(** spherical_harmonics.py:1691-1749 [regrid], the bookkeeping before the
    synthesis: [None] = the smoothing kernel accessed memory outside an array,
    [Some None] = ValidationError, [Some (Some d)] = the spectrum handed to the
    synthesis.  [spec] is the result of grdin.grdtospec for a truncation and
    [junk] the fresh output array of the smoothing kernel. *)
Definition regrid_spec (A : rl) (nlat_in nlat_out : Z) (ntrunc : option Z) (smooth : option (list A))
    (spec junk : Z -> list (A * A)) : option (option (list (A * A))) :=
  let size_ok := match smooth with
                 | Some s => (Z.of_nat (length s) =? nlat_out)%Z
                 | None => true
                 end in
  if negb size_ok then Some None else
    let nt := match ntrunc with None => Z.min (nlat_out - 1) (nlat_in - 1) | Some n => n end in
    match validate_ntrunc (Some nt) (nlat_in - 1) with
    | None => Some None
    | Some nt =>
      let d := spec nt in
      let* d' := match smooth with
                 | None => Some d
                 | Some s => multsmoothfact A s d (junk nt)
                 end in
      match validate_spectral_data nlat_out (Z.of_nat (length d')) with
      | None => Some None
      | Some _ => Some (Some d')
      end
    end.

(** spherical_harmonics.py:1778-1798 [getspecindx]: the flattened index grids,
    filtered by [indexn > indexm - 1]; result (indxm, indxn). *)
Definition getspecindx (ntrunc : Z) : option (list Z * list Z) :=
  if (ntrunc <? 0)%Z then None else
  let r := map Z.of_nat (seq 0 (Z.to_nat (ntrunc + 1))) in
  let indexm := flat_map (fun m => map (fun _ => m) r) r in
  let indexn := flat_map (fun _ => r) r in
  let indices := filter (fun mn => snd mn >? fst mn - 1)%Z (combine indexm indexn) in
  Some (map fst indices, map snd indices).
