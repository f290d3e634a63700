(** Model of the scalar transforms of the class Spharmt on a Gaussian grid with
    stored Legendre functions: src/skyborn/spharm/spherical_harmonics.py
    (__init__, grdtospec, spectogrd, gaussian_lats_wts and their helpers) with the
    C wrappers of _spherepack_module.c and the Fortran routines they call.

    Simplifications:
    - numbers are reals, without rounding; the conversions to float32 and complex64
      and the output dtype are left out;
    - a numpy array is its shape and its elements in C order;
    - the arrays that the C wrappers allocate with PyArray_EMPTY are arguments: their
      contents are arbitrary;
    - the saved workspace is its three parts used here (weights, FFT table, stored
      functions); their places in one array are the subject of C95 and C99;
    - __init__ also prepares the vector transforms, which are not part of this model. *)
From Coq Require Import Reals List Arith ZArith Lia Bool.
From Verif Require Import Base Buffer VH_Model FF_Model GS_Model LG_Model GQ_Model.
From Verif Require SH_Model.
Import ListNotations.
Local Open Scope nat_scope.

(** What a call does: it returns, raises ValidationError, raises SpheremackError
    with a code (spherical_harmonics.py:322-340), or leaves an array. *)
Inductive outcome (X : Type) : Type :=
| Done (x : X)
| Invalid
| Failed (code : Z)
| Outside.
Arguments Done {X}. Arguments Invalid {X}. Arguments Failed {X}. Arguments Outside {X}.
Definition after {X Y : Type} (o : outcome X) (f : X -> outcome Y) : outcome Y :=
  match o with Done x => f x | Invalid => Invalid | Failed e => Failed e | Outside => Outside end.
Definition run {X : Type} (o : option X) : outcome X := match o with Some x => Done x | None => Outside end.
(** spherical_harmonics.py:322-340 [_call_spherepack_safely]: a code other than 0 is an error *)
Definition safely {X : Type} (code : Z) (o : outcome X) : outcome X := if (code =? 0)%Z then o else Failed code.

Record array (X : Type) : Type := mk_array { shape : list nat; elements : list X }.
Arguments mk_array {X}. Arguments shape {X}. Arguments elements {X}.
(** np.prod(extra_shape, dtype=int): spherical_harmonics.py:600, 630 *)
Definition total (s : list nat) : nat := fold_right Nat.mul 1 s.

(** ** Initialisation *)
Record saved : Type := mk_saved { s_wts : list R; s_wfft : list R * list nat; s_pmn : list R }.
(** What the arrays and saved variables hold before shagsi: wfft, dtheta, dwts, the
    tables p0n and p1n, the double work array, km of legin, the table of three
    orders in work, and the stored functions. *)
Record memory : Type := mk_memory { m_wfft : list R; m_theta : list R; m_wts : list R; m_tab : list R; m_work : list R;
  m_km : nat * nat * nat; m_pmn : list R; m_pmnf : list R }.

(** shags.f90:150-203 [shagsi] with shagsp (666-726) and shagsp1 (755-859): code and workspace *)
Definition shagsi (fuel : nat) (dz : R) (nlat nlon lshags lwork ldwork : Z) (m : memory) : outcome saved :=
  safely (shagsi_checks nlat nlon lshags lwork ldwork)
  (safely (shagsp_checks nlat nlon lshags ldwork)
  (let nla := Z.to_nat nlat in let nlo := Z.to_nat nlon in
   let l := l_of nla nlo in
   after (run (hrffti fuel nlo (m_wfft m))) (fun wfft =>
   after (run (gaqd nlat dz (m_theta m) (m_wts m))) (fun g =>
   let '(ier, theta, wts) := g in
   if negb (ier =? 0) then Failed 6%Z else
   after (run (shagsi_tables nla l theta (l * (l - 1) / 2 + (nla - l) * (l - 1)) (m_tab m) (m_work m) (m_km m) (m_pmn m) (m_pmnf m))) (fun pmn =>
   Done (mk_saved wts wfft pmn)))))).

(** spherical_harmonics.py:195-237 [__init__] for gridtype "gaussian", legfunc
    "stored": _validate_inputs (239-259), _init_gaussian_stored (453-482). *)
Definition initialise (fuel : nat) (dz : R) (nlon nlat : Z) (rsphere : R) (m : memory) : outcome saved :=
  if Rlt_dec 0 rsphere then
    if (nlon <? 4)%Z then Invalid else
    if (nlat <? 3)%Z then Invalid else
    shagsi fuel dz nlat nlon (py_lshags nlat nlon) (py_lwork_init nlat) (py_ldwork_init nlat) m
  else Invalid.

Section Instance.
Variables nlat nlon : nat.
Variable s : saved.
(** the rows in work during a transform *)
Variables (d : R) (row : list R).

(** ** Grids *)
(** spherical_harmonics.py:578-603 [_validate_grid_data]: the k-th of nt fields,
    data.reshape(nlat, nlon, nt)[:, :, k] in Fortran order *)
Definition field_of (nt : nat) (x : list R) (k : nat) : list R :=
  map (fun p => nth ((p mod nlat * nlon + p / nlat) * nt + k) x 0%R) (seq 0 (nlat * nlon)).
Definition validate_grid_data (x : array R) : outcome (nat * list (list R) * list nat) :=
  match shape x with
  | n1 :: n2 :: extra =>
    if orb (negb (n1 =? nlat)) (negb (n2 =? nlon)) then Invalid
    else let nt := total extra in Done (nt, map (field_of nt (elements x)) (seq 0 nt), extra)
  | _ => Invalid
  end.
(** spherical_harmonics.py:639-657 [_restore_grid_shape] *)
Definition restore_grid_shape (nt : nat) (fs : list (list R)) (extra : list nat) : array R :=
  mk_array (nlat :: nlon :: extra)
    (map (fun p => let q := p / nt in nth (q mod nlon * nlat + q / nlon) (nth (p mod nt) fs []) 0%R) (seq 0 (nlat * nlon * nt))).

(** ** Spectra *)
(** spherical_harmonics.py:605-637 [_validate_spectral_data]: data.reshape(nm, nt)[:, k] *)
Definition column_of (nm nt : nat) (x : list (R * R)) (k : nat) : list (R * R) :=
  map (fun p => nth (p * nt + k) x (0, 0)%R) (seq 0 nm).
Definition validate_spectral_data (x : array (R * R)) : outcome (nat * list (list (R * R)) * list nat) :=
  match shape x with
  | nm :: extra =>
    match SH_Model.validate_spectral_data (Z.of_nat nlat) (Z.of_nat nm) with
    | None => Invalid
    | Some _ => let nt := total extra in Done (nt, map (column_of nm nt (elements x)) (seq 0 nt), extra)
    end
  | [] => Invalid
  end.
(** spherical_harmonics.py:659-677 [_restore_spectral_shape] *)
Definition restore_spectral_shape (nm nt : nat) (cs : list (list (R * R))) (extra : list nat) : array (R * R) :=
  mk_array (nm :: extra) (map (fun p => nth (p / nt) (nth (p mod nt) cs []) (0, 0)%R) (seq 0 (nm * nt))).

(** ** Transforms *)
(** spherical_harmonics.py:983-1055 [grdtospec] with py_shaes_like (_spherepack_module.c:764-799),
    shags (shags.f90) and twodtooned.f90; [fresh k] is what the k-th slices of the
    new arrays a and b hold. *)
Definition grdtospec (fresh : nat -> list R * list R) (x : array R) (ntrunc : option Z) : outcome (array (R * R)) :=
  after (validate_grid_data x) (fun v =>
  let '(nt, fields, extra) := v in
  match SH_Model.validate_ntrunc ntrunc (Z.of_nat nlat - 1) with
  | None => Invalid
  | Some N =>
    safely (checks (Z.of_nat nlat) (Z.of_nat nlon) 0 (Z.of_nat nt) (Z.of_nat nlat) (Z.of_nat nlon) (Z.of_nat nlat) (Z.of_nat nlat)
              (py_lshags (Z.of_nat nlat) (Z.of_nat nlon)) (py_lwork (Z.of_nat nlat) (Z.of_nat nlon) (Z.of_nat nt)))
    (after (run (mapM (fun kf => shags1 nlat nlon 0 d row nlat nlon nlat nlat (snd kf) (s_wts s) (s_pmn s) (s_wfft s)
                                   (fst (fresh (fst kf))) (snd (fresh (fst kf)))) (combine (seq 0 nt) fields))) (fun abs =>
     after (run (mapM (fun ab => SH_Model.twodtooned SH_Model.RR (Z.of_nat nlat) N (fst ab) (snd ab)) abs)) (fun cs =>
     Done (restore_spectral_shape (Z.to_nat (SH_Model.nmdim_of N)) nt cs extra))))
  end).

(** spherical_harmonics.py:1056-1132 [spectogrd] with onedtotwod.f90, py_shses_like
    (_spherepack_module.c:834-872) and shsgs (shsgs.f90); [fresh k] is what the k-th
    slice of the new array g holds. *)
Definition spectogrd (fresh : nat -> list R) (x : array (R * R)) : outcome (array R) :=
  after (validate_spectral_data x) (fun v =>
  let '(nt, columns, extra) := v in
  after (run (mapM (SH_Model.onedtotwod SH_Model.RR (Z.of_nat nlat)) columns)) (fun abs =>
  safely (checks (Z.of_nat nlat) (Z.of_nat nlon) 0 (Z.of_nat nt) (Z.of_nat nlat) (Z.of_nat nlon) (Z.of_nat nlat) (Z.of_nat nlat)
            (py_lshags (Z.of_nat nlat) (Z.of_nat nlon)) (py_lwork (Z.of_nat nlat) (Z.of_nat nlon) (Z.of_nat nt)))
  (after (run (mapM (fun kab => shsgs1 nlat nlon 0 d row nlat nlon nlat nlat (fst (snd kab)) (snd (snd kab)) (s_pmn s) (s_wfft s) (fresh (fst kab)))
                    (combine (seq 0 nt) abs))) (fun fs =>
   Done (restore_grid_shape nt fs extra))))).
End Instance.

(** spherical_harmonics.py:1752-1775 [gaussian_lats_wts] with py_gaqd
    (_spherepack_module.c:79-115): (lats, wts).  For nlat < 0 the allocation in py_gaqd
    fails before gaqd is reached; that is a SpheremackError too. *)
Definition gaussian_lats_wts (dz : R) (theta wts : list R) (nlat : Z) : outcome (list R * list R) :=
  after (run (gaqd nlat dz theta wts)) (fun g =>
  let '(ierror, colats, wts) := g in
  if negb (ierror =? 0) then Failed (Z.of_nat ierror)
  else Done (map (fun c => 90 - c * (180 / PI))%R colats, wts)).
