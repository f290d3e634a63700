(** Vocabulary for the packed reduced-Gaussian transforms, independent of the
    loops of RS_Model: sums over real numbers, the discrete Fourier transform of
    one row, the triangular order of the spectrum (SH_Spec.index), and the
    Fourier-Legendre series. *)
From Coq Require Import Reals List Arith Lia.
From Verif Require Import SH_Spec.
Import ListNotations.
Local Open Scope R_scope.

(** f 0 + ... + f (n-1) *)
Fixpoint sumR (n : nat) (f : nat -> R) : R := match n with O => 0 | S k => sumR k f + f k end.

(** ** The transform of one row of N values *)
Definition angle (N m i : nat) : R := 2 * PI * INR m * INR i / INR N.

(** Forward (hrfftf): the sum, then for m = 1, 2, ... the cosine sums at 2m and
    minus the sine sums at 2m+1. *)
Definition forward (N : nat) (x : list R) : list R :=
  map (fun q => let m := (S q / 2)%nat in
                if andb (Nat.even q) (negb (q =? 0)%nat) then - sumR N (fun i => nth i x 0 * sin (angle N m i))
                else sumR N (fun i => nth i x 0 * cos (angle N m i))) (seq 0 N).

(** Backward (hrfftb): r(1), twice the waves 0 < m < N/2, and for even N the
    last element once. *)
Definition backward (N : nat) (r : list R) : list R :=
  map (fun i =>
         nth 0 r 0
         + sumR ((N - 1) / 2) (fun k => let m := S k in
             2 * (nth (2 * m - 1) r 0 * cos (angle N m i) - nth (2 * m) r 0 * sin (angle N m i)))
         + (if Nat.even N then nth (N - 1) r 0 * cos (angle N (N / 2) i) else 0)) (seq 0 N).

(** ** The spectrum and the Legendre table *)
Definition coef (T : nat) (spec : list (R * R)) (m n : nat) : R * R := nth (index T m n) spec (0, 0).
(** entry of a table given by rows; rows are numbered from 1 *)
Definition entry (T : nat) (tab : list (list R)) (j m n : nat) : R := nth (index T m n) (nth (j - 1) tab []) 0.

(** Sum over the degrees n = m..T *)
Definition over_n (T m : nat) (f : nat -> R) : R := sumR (T + 1 - m) (fun k => f (m + k)%nat).
(** Fourier coefficient of order m on row j: sum over n of coef * table *)
Definition leg (T : nat) (spec : list (R * R)) (tab : list (list R)) (j m : nat) : R * R :=
  (over_n T m (fun n => fst (coef T spec m n) * entry T tab j m n),
   over_n T m (fun n => snd (coef T spec m n) * entry T tab j m n)).

(** Value at point i = 0..N-1 of a row of N points of the real series with
    coefficients c 0, c 1, ..., c M; waves beyond N/2 are left out, and the wave
    m = N/2, when present, counts once. *)
Definition series (N M : nat) (c : nat -> R * R) (i : nat) : R :=
  fst (c 0%nat) +
  sumR (Nat.min M (N / 2)) (fun k => let m := S k in
    (if (2 * m =? N)%nat then 1 else 2) * (fst (c m) * cos (angle N m i) - snd (c m) * sin (angle N m i))).

(** Discrete Fourier coefficient of order m of one row *)
Definition dft (N : nat) (x : nat -> R) (m : nat) : R * R :=
  (sumR N (fun i => x i * cos (angle N m i)) / INR N, - sumR N (fun i => x i * sin (angle N m i)) / INR N).

(** ** Packing: where row j (from 1) starts, and its length *)
Definition row_start (pl : list nat) (j : nat) : nat := list_sum (firstn (j - 1) pl).
Definition row_len (pl : list nat) (j : nat) : nat := nth (j - 1) pl 0%nat.
Definition point (pl : list nat) (grid : list R) (j i : nat) : R := nth (row_start pl j + i) grid 0.

(** Rows that resolve wavenumber m *)
Definition resolves (pl : list nat) (m j : nat) : bool := (2 * m <=? row_len pl j)%nat.
(** Sum over the rows j = 1..nlat that resolve m *)
Definition over_rows (pl : list nat) (m : nat) (f : nat -> R) : R :=
  sumR (length pl) (fun k => if resolves pl m (S k) then f (S k) else 0).

(** A table of [rows] rows of length [len] *)
Definition sized (rows len : nat) (tab : list (list R)) : Prop :=
  length tab = rows /\ (forall r, In r tab -> length r = len).

(** Equatorial symmetry of the row lengths and parity of a table: [sgn] = 1 for
    the Legendre functions, -1 for their derivatives. *)
Definition mirrored (pl : list nat) : Prop := forall j, (1 <= j <= length pl)%nat -> row_len pl j = row_len pl (length pl + 1 - j).
Definition has_parity (T nlat : nat) (sgn : R) (tab : list (list R)) : Prop :=
  forall j m n, (1 <= j <= nlat)%nat -> (m <= n <= T)%nat ->
    entry T tab (nlat + 1 - j) m n = sgn * (-1) ^ (n - m) * entry T tab j m n.
Definition row_value (l : list R) (j : nat) : R := nth (j - 1) l 0.
Definition even_rows (nlat : nat) (l : list R) : Prop :=
  forall j, (1 <= j <= nlat)%nat -> row_value l (nlat + 1 - j) = row_value l j.
(** Row lengths that do not decrease towards the equator on the northern half *)
Definition increasing_to_equator (pl : list nat) : Prop :=
  forall i j, (1 <= i <= j)%nat -> (j <= length pl / 2)%nat -> (row_len pl i <= row_len pl j)%nat.

(** Derivatives of the series: the eastward derivative divided by r sin(theta)
    multiplies the coefficient of order m by i*m/(r*s); the northward one is
    minus the derivative in colatitude divided by r. *)
Definition east (r s : R) (m : nat) (c : R * R) : R * R := (- (INR m / (r * s)) * snd c, INR m / (r * s) * fst c).
Definition north (r : R) (c : R * R) : R * R := (- (1 / r) * fst c, - (1 / r) * snd c).

(** ** Analysis: Fourier coefficient of row j, and the terms of one row in the
    quadrature sums.  [w] is the weight, [s] the sine of the colatitude, [p] and
    [d] the Legendre function and its derivative in colatitude; U and V are the
    Fourier coefficients of the two wind components.  With i the imaginary unit,
    the divergence term is (w/r) ((i m / s) p U + d V) and the vorticity term
    (w/r) ((i m / s) p V - d U). *)
Definition row_dft (pl : list nat) (grid : list R) (j m : nat) : R * R := dft (row_len pl j) (point pl grid j) m.
Definition divergence_term (w r s p d : R) (m : nat) (U V : R * R) : R * R :=
  (w / r * (- (INR m / s * p * snd U) + d * fst V), w / r * (INR m / s * p * fst U + d * snd V)).
Definition vorticity_term (w r s p d : R) (m : nat) (U V : R * R) : R * R :=
  (w / r * (- (INR m / s * p * snd V) - d * fst U), w / r * (INR m / s * p * fst V - d * snd U)).

(** ** Quadrature sums over all the rows *)
Definition all_rows (nlat : nat) (f : nat -> R) : R := sumR nlat (fun k => f (S k)).
(** The Legendre functions are orthonormal for the weights. *)
Definition orthonormal (T nlat : nat) (weights : list R) (basis : list (list R)) : Prop :=
  forall m n n', (m <= n <= T)%nat -> (m <= n' <= T)%nat ->
    all_rows nlat (fun j => row_value weights j * entry T basis j m n * entry T basis j m n') = (if (n =? n')%nat then 1 else 0).
(** So are their gradients, with squared norm n (n + 1), and the Jacobian of two
    of them has zero mean. *)
Definition gradient_orthogonal (T nlat : nat) (weights : list R) (basis dbasis : list (list R)) (sin_theta : list R) : Prop :=
  forall m n n', (m <= n <= T)%nat -> (m <= n' <= T)%nat ->
    let s := row_value sin_theta in
    all_rows nlat (fun j => row_value weights j *
        ((INR m / s j) * (INR m / s j) * entry T basis j m n * entry T basis j m n' + entry T dbasis j m n * entry T dbasis j m n'))
      = (if (n =? n')%nat then INR n * (INR n + 1) else 0) /\
    all_rows nlat (fun j => row_value weights j * (INR m / s j) *
        (entry T basis j m n * entry T dbasis j m n' + entry T dbasis j m n * entry T basis j m n')) = 0.
(** Every row resolves the waves up to T, the last one strictly. *)
Definition full_rows (pl : list nat) (T : nat) : Prop := forall j, (1 <= j <= length pl)%nat -> (2 * T < row_len pl j)%nat.
(** The spectrum of a real field has no imaginary part at order 0. *)
Definition real_part_at_0 (m : nat) (c : R * R) : R * R := (fst c, if (m =? 0)%nat then 0 else snd c).
