(** What the scalar transforms on a Gaussian grid should compute, without
    reference to the code *)
From Coq Require Import Reals List Arith.
From Verif Require Import RS_Spec LG_Spec SH_Spec.
Import ListNotations.
Local Open Scope R_scope.

(** Coefficient of order m and degree n of the k-th of nt spectra of truncation N:
    element (index, k) of an array (tri N, nt) in C order *)
Definition coefficient (N nt : nat) (x : list (R * R)) (k m n : nat) : R * R := nth (index N m n * nt + k) x (0, 0).
(** Row i and column j, from 0, of the k-th of nt fields: element (i, j, k) of an
    array (nlat, nlon, nt) in C order *)
Definition sample (nlon nt : nat) (x : list R) (k i j : nat) : R := nth ((i * nlon + j) * nt + k) x 0.

(** Sum over the orders |m| <= M and the degrees n <= N of c m n times the function of
    colatitude times e^{imx}, for a real field: order -m is the conjugate of order m *)
Definition expansion (N M : nat) (c : nat -> nat -> R * R) (t x : R) : R :=
  sumR (N + 1) (fun n => Pbar 0 n t * fst (c 0%nat n)) +
  2 * sumR M (fun q => let m := S q in sumR (N - q) (fun r => let n := (m + r)%nat in
        Pbar m n t * (fst (c m n) * cos (INR m * x) - snd (c m n) * sin (INR m * x)))).
Definition longitude (nlon j : nat) : R := 2 * PI * INR j / INR nlon.
(** Coefficient of order m and degree n of a field g i j: mean over the longitudes,
    weighted sum over the latitudes, of g times the function times e^{-imx}; the order
    nlon / 2 of an even row, which has no sine, is shared between m and -m *)
Definition projection (nlat nlon : nat) (wt th : nat -> R) (g : nat -> nat -> R) (m n : nat) : R * R :=
  let mean f := sumR nlat (fun i => wt i * Pbar m n (th i) * (sumR nlon (fun j => g i j * f (INR m * longitude nlon j)) / INR nlon)) in
  ((if (2 * m =? nlon)%nat then 1 / 2 else 1) * mean cos, - mean sin).
(** The imaginary parts that no real field determines: order 0, and order nlon / 2 *)
Definition real_order (nlon m : nat) : bool := orb (m =? 0)%nat (2 * m =? nlon)%nat.
Definition visible (nlon m : nat) (c : R * R) : R * R := (fst c, if real_order nlon m then 0 else snd c).
