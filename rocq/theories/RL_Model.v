(** The Legendre table of the reduced Gaussian grids, with the values that legin
    returns: src/skyborn/spharm/src/reduced_gaussian_scalar.f90
    reduced_gaussian_legendre_basis, on top of the models of shagsp and legin1
    (LG_Model) and of the checks (RS_Model2.legendre_basis_code).

    Simplified: real numbers instead of single precision; [theta] are the
    colatitudes that gaqd returned inside shagsp; the arrays of shagsp are
    separate lists (their places in wshags are compared in LG_Props). *)
From Coq Require Import Reals List Arith ZArith Bool.
From Verif Require Import Base Buffer VH_Model GS_Spec GS_Model LG_Model SH_Spec RS_Model RS_Model2.
Import ListNotations.
Local Open Scope nat_scope.

Section Basis.
Variables nlat ntrunc : nat.
Let late := late_of nlat.
(** reduced_gaussian_scalar.f90:190 *)
Definition nmdim : nat := (ntrunc + 1) * (ntrunc + 2) / 2.
(** :195 *)
Definition nlon_basis : nat := Nat.max 4 (2 * ntrunc).
(** :219-224: the loop over the rows i = 1, late of one column nm; [k] is km *)
Definition put_column (pmn : list R) (k nm n : nat) (parity : R) (basis : list R) : option (list R) :=
  foldM (fun basis i =>
    let* value := rd3 nlat pmn (n + 1) i k in
    let* basis := wr2 nlat nmdim basis i nm value in
    let js := nlat - i + 1 in
    if js =? i then Some basis else wr2 nlat nmdim basis js nm (parity * value)%R) (seq 1 late) basis.
(** :216-226: the loop over the degrees, parity changing sign each time *)
Definition put_order (pmn : list R) (k m : nat) (basis : list R) : option (list R) :=
  let* s := foldM (fun s n =>
    let nm := spectral_offset m ntrunc + n - m + 1 in
    let* basis := put_column pmn k nm n (snd s) (fst s) in
    Some (basis, (- snd s)%R)) (seq m (ntrunc + 1 - m)) (basis, 1%R) in
  Some (fst s).
(** :191-227 after the checks: shagsp with nlon_basis (its own l, shags.f90:687),
    pmn set to zero (:211), the loop over the orders with legin at l = ntrunc + 1.
    [junk], [work], [pmn] are the contents of the arrays on entry, [km] the saved
    variables of legin1. *)
Definition basis_array (theta : list R) (len : nat) (junk work : list R) (km : nat * nat * nat) (pmn : list R) : option (list R) :=
  let l := ntrunc + 1 in
  let l1 := l_of nlat nlon_basis in
  let zero := repeat 0%R len in
  let* t0 := table0 nlat theta junk work in
  let* t1 := table1 nlat theta junk (snd t0) in
  let* abel := coefficients nlat l1 abel_of zero in
  let* bbel := coefficients nlat l1 bbel_of zero in
  let* cbel := coefficients nlat l1 cbel_of zero in
  let* pmn := foldM (fun p np1 => foldM (fun p i => foldM (fun p k => wr3 nlat p np1 i k 0%R) (seq 1 3) p) (seq 1 late) p) (seq 1 nlat) pmn in
  let* s := foldM (fun s m =>
    let* r := legin1 nlat l 0 m (fst t0) (fst t1) abel bbel cbel (fst s) in
    let* basis := put_order (snd (fst r)) (snd r) m (snd s) in
    Some (fst r, basis)) (seq 0 (ntrunc + 1)) ((km, pmn), repeat 0%R (nlat * nmdim)) in
  Some (snd s).
(** the array seen by rows, as the transforms of RS_Model take it *)
Definition by_rows (a : list R) : list (list R) :=
  map (fun j => map (fun nm => val2 nlat a j nm) (seq 1 nmdim)) (seq 1 nlat).
(** :169-232: error code and table *)
Definition reduced_basis (theta : list R) (len : nat) (junk work : list R) (km : nat * nat * nat) (pmn : list R) : option (Z * list (list R)) :=
  let code := legendre_basis_code (Z.of_nat nlat) (Z.of_nat ntrunc) 0 0 in
  if (code =? 0)%Z then
    let* a := basis_array theta len junk work km pmn in
    Some (0%Z, by_rows a)
  else Some (code, []).
End Basis.
(** reduced_gaussian.py:73-78 with spherical_harmonics.py:1773 (gaussian_lats_wts):
    cos of deg2rad of the latitudes 90 - colatitude * 180 / pi *)
Definition sin_theta_of (theta : list R) : list R := map (fun t => cos ((90 - t * (180 / PI)) * (PI / 180)))%R theta.
