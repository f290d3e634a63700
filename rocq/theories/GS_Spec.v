(** Vocabulary for the scalar transforms on a Gaussian grid, independent of the
    loops of GS_Model: the order of the stored Legendre functions, their
    continuation to the southern rows, the truncated series and the quadrature. *)
From Coq Require Import Reals List Arith Lia Bool.
From Verif Require Import RS_Spec.
Import ListNotations.
Local Open Scope R_scope.

(** Element (i, j), from 1, of an array with n1 rows in Fortran order *)
Definition val2 (n1 : nat) (a : list R) (i j : nat) : R := nth ((j - 1) * n1 + (i - 1)) a 0.

Section Grid.
Variables nlat nlon : nat.
(** orders m < lmax, degrees m <= n < nlat; northern rows with the equator *)
Definition lmax : nat := Nat.min (nlon / 2 + 1) nlat.
Definition north : nat := ((nlat + 1) / 2)%nat.
(** rows of the field on the grid: all of them, or the northern ones in the half modes *)
Definition rows (mode : nat) : nat := if (mode =? 0)%nat then nlat else north.
(** The functions are stored order after order: (0,0) (0,1) ... (1,1) (1,2) ... *)
Definition slot (m n : nat) : nat := (list_sum (map (fun k => nlat - k) (seq 0 m)) + (n - m) + 1)%nat.
(** how many there are: nlat - m of order m *)
Definition functions : nat := list_sum (map (fun k => nlat - k)%nat (seq 0 lmax)).
Definition legendre (pmn : list R) (m n i : nat) : R := val2 north pmn i (slot m n).
(** on all rows i = 1..nlat, by parity *)
Definition pfull (pmn : list R) (m n i : nat) : R :=
  if (i <=? north)%nat then legendre pmn m n i else (-1) ^ (n - m) * legendre pmn m n (nlat + 1 - i).
(** a row on the equator (odd nlat) is a zero of the odd functions *)
Definition zero_at_equator (pmn : list R) : Prop :=
  forall m n, (m <= n < nlat)%nat -> (m < lmax)%nat -> Nat.odd nlat = true -> Nat.odd (n - m) = true -> legendre pmn m n north = 0.

(** Functions used: all (mode 0), the odd ones (mode 1), the even ones (mode 2) *)
Definition used (mode m n : nat) : bool :=
  match mode with O => true | 1%nat => Nat.odd (n - m) | _ => Nat.even (n - m) end.
(** sum over n = m .. nlat-1 of c m n times the function, on row i *)
Definition amplitude (mode : nat) (pmn : list R) (c : nat -> nat -> R) (m i : nat) : R :=
  sumR (nlat - m) (fun k => let n := (m + k)%nat in (if used mode m n then c m n else 0) * pfull pmn m n i).
(** The series at row i and longitude index j = 0..nlon-1 *)
Definition harmonic (mode : nat) (pmn : list R) (a b : nat -> nat -> R) (i j : nat) : R :=
  1 / 2 * amplitude mode pmn a 0 i +
  sumR (lmax - 1) (fun k => let m := S k in
    amplitude mode pmn a m i * cos (angle nlon m j) - amplitude mode pmn b m i * sin (angle nlon m j)).

(** A field on the northern rows continued to the whole sphere, odd in mode 1
    and even in mode 2 (mode 0: the field is given on all rows) *)
Definition extended (mode : nat) (g : nat -> nat -> R) (i j : nat) : R :=
  match mode with
  | O => g i j
  | 1%nat => if (2 * i =? nlat + 1)%nat then 0 else if (i <=? north)%nat then g i j else - g (nlat + 1 - i)%nat j
  | _ => if (i <=? north)%nat then g i j else g (nlat + 1 - i)%nat j
  end.
(** Fourier coefficients of a row (j = 0..nlon-1), the highest wave of an even
    row counted half *)
Definition cosine (x : nat -> R) (m : nat) : R :=
  (if (2 * m =? nlon)%nat then 1 / 2 else 1) * (2 / INR nlon) * sumR nlon (fun j => x j * cos (angle nlon m j)).
Definition sine (x : nat -> R) (m : nat) : R := - (2 / INR nlon) * sumR nlon (fun j => x j * sin (angle nlon m j)).
(** Gaussian quadrature of f times a function *)
Definition quadrature (wts pmn : list R) (m n : nat) (f : nat -> R) : R :=
  sumR nlat (fun q => let i := S q in nth q wts 0 * pfull pmn m n i * f i).
Definition symmetric_weights (wts : list R) : Prop :=
  length wts = nlat /\ forall q, (q < nlat)%nat -> nth (nlat - 1 - q) wts 0 = nth q wts 0.
(** The functions of one order are orthonormal under the quadrature *)
Definition orthonormal_functions (wts pmn : list R) : Prop :=
  forall m n n', (m < lmax)%nat -> (m <= n < nlat)%nat -> (m <= n' < nlat)%nat ->
    quadrature wts pmn m n (pfull pmn m n') = if (n =? n')%nat then 1 else 0.
End Grid.
