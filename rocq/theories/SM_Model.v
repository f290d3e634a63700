(** Model of spectral smoothing and spectral interpolation:
    src/skyborn/spharm/spherical_harmonics.py specsmooth (1650-1685) and regrid
    (1691-1749), on the Gaussian transforms of ST_Model.  The simplifications of
    ST_Model apply; [fresh...] is what newly allocated arrays hold. *)
From Coq Require Import Reals List Arith ZArith Lia Bool.
From Verif Require Import Base Buffer VH_Model ST_Model.
From Verif Require SH_Model.
Import ListNotations.
Local Open Scope nat_scope.

(** spherical_harmonics.py:1674-1685, 1737-1747: _validate_spectral_data, multsmoothfact
    (_spherepack_module.c:204-243, multsmoothfact.f90:6-38) and _restore_spectral_shape *)
Definition smooth_spectrum (nlat : nat) (smooth : list R) (fresh : nat -> list (R * R)) (x : array (R * R)) : outcome (array (R * R)) :=
  after (validate_spectral_data nlat x) (fun v =>
  let '(nt, columns, extra) := v in
  after (run (mapM (fun kc => SH_Model.multsmoothfact SH_Model.RR smooth (snd kc) (fresh (fst kc))) (combine (seq 0 nt) columns))) (fun cs =>
  Done (restore_spectral_shape (hd 0 (shape x)) nt cs extra))).

(** smooth.ndim != 1 or smooth.shape[0] != nlat: spherical_harmonics.py:1667, 1727 *)
Definition factors_ok (nlat : nat) (smooth : array R) : bool := match shape smooth with n :: nil => n =? nlat | _ => false end.

(** spherical_harmonics.py:1650-1685 [specsmooth] *)
Definition specsmooth (nlat nlon : nat) (s : saved) (d : R) (row : list R) (fresh_ab : nat -> list R * list R) (fresh_s : nat -> list (R * R)) (fresh_g : nat -> list R)
    (x smooth : array R) : outcome (array R) :=
  after (validate_grid_data nlat nlon x) (fun _ =>
  if negb (factors_ok nlat smooth) then Invalid else
  after (grdtospec nlat nlon s d row fresh_ab x (Some (Z.of_nat nlat - 1)%Z)) (fun spec =>
  after (smooth_spectrum nlat (elements smooth) fresh_s spec) (fun smoothed =>
  spectogrd nlat nlon s d row fresh_g smoothed))).

(** spherical_harmonics.py:1691-1749 [regrid]: grdin is nlat, nlon, s; grdout is nlat',
    nlon', s' *)
Definition regrid (nlat nlon : nat) (s : saved) (d : R) (row : list R) (nlat' nlon' : nat) (s' : saved) (d' : R) (row' : list R)
    (fresh_ab : nat -> list R * list R) (fresh_s : nat -> list (R * R)) (fresh_g : nat -> list R)
    (x : array R) (ntrunc : option Z) (smooth : option (array R)) : outcome (array R) :=
  match shape x with
  | n1 :: n2 :: _ =>
    if orb (negb (n1 =? nlat)) (negb (n2 =? nlon)) then Invalid else
    if match smooth with Some f => negb (factors_ok nlat' f) | None => false end then Invalid else
    let t := match ntrunc with None => Z.min (Z.of_nat nlat' - 1) (Z.of_nat nlat - 1) | Some n => n end in
    after (grdtospec nlat nlon s d row fresh_ab x (Some t)) (fun dataspec =>
    after (match smooth with Some f => smooth_spectrum nlat (elements f) fresh_s dataspec | None => Done dataspec end) (fun dataspec =>
    spectogrd nlat' nlon' s' d' row' fresh_g dataspec))
  | _ => Invalid
  end.
