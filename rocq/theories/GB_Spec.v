(** What the growth-rate diagnostics are claimed to compute, stated without the
    coefficient arrays, loops and lists of the implementation. *)
From Coq Require Import Reals List.
Import ListNotations.
Local Open Scope R_scope.

(** f 1 + ... + f n *)
Fixpoint sumN (f : nat -> R) (n : nat) : R :=
  match n with O => 0 | S m => sumN f m + f (S m) end.

(** a vector on 1..N continued by zero *)
Definition ext (N : nat) (x : nat -> R) (n : nat) : R :=
  if andb (Nat.leb 1 n) (Nat.leb n N) then x n else 0.

(** the three-point operator on 1..N: [c n] is the conductance between n and n+1,
    [w n] the width of cell n *)
Definition lap (N : nat) (c w : nat -> R) (x : nat -> R) (n : nat) : R :=
  (c (n - 1)%nat * (ext N x (n - 1) - ext N x n) - c n * (ext N x n - ext N x (n + 1))) / w n.

(** the gradient of potential vorticity *)
Definition pvgrad (N : nat) (c w beta u : nat -> R) (n : nat) : R := beta n - lap N c w u n.

(** the two operators of the stability problem at wavenumber k *)
Definition opA (N : nat) (c w beta u : nat -> R) (k : R) (x : nat -> R) (n : nat) : R :=
  k * (u n * lap N c w x n + pvgrad N c w beta u n * x n) - k * k * k * (u n * x n).
Definition opB (N : nat) (c w : nat -> R) (k : R) (x : nat -> R) (n : nat) : R :=
  lap N c w x n - k * k * x n.

(** s + i t is a generalized eigenvalue: a + i b is a nonzero vector on 1..N with
    A (a + i b) = (s + i t) B (a + i b) *)
Definition eigenvalue (N : nat) (A B : (nat -> R) -> nat -> R) (s t : R) : Prop :=
  exists a b : nat -> R,
    (exists n, (1 <= n <= N)%nat /\ (a n <> 0 \/ b n <> 0)) /\
    forall n, (1 <= n <= N)%nat ->
      A a n = s * B a n - t * B b n /\ A b n = s * B b n + t * B a n.

(** a matrix stored by rows, applied to a vector *)
Definition mv (M : list (list R)) (x : nat -> R) (n : nat) : R :=
  sumN (fun j => nth (j - 1) (nth (n - 1) M []) 0 * x j) (length M).

(** [l] read with a 1-based index *)
Definition at1 (l : list R) (n : nat) : R := nth (n - 1) l 0.

(** the largest valid sample *)
Definition is_max (l : list (option R)) (m : R) : Prop :=
  In (Some m) l /\ forall v, In (Some v) l -> v <= m.
Definition no_sample (l : list (option R)) : Prop := forall v, ~ In (Some v) l.

(** the mean of the valid samples of [l] *)
Fixpoint present (l : list (option R)) : list R :=
  match l with [] => [] | Some v :: r => v :: present r | None :: r => present r end.
Fixpoint suml (l : list R) : R := match l with [] => 0 | v :: r => v + suml r end.
Definition mean (l : list (option R)) : option R :=
  match present l with [] => None | v => Some (suml v / INR (length v)) end.
(** positions i - h .. i + h (0-based) of [l], those that exist *)
Definition around (l : list (option R)) (i h : nat) : list (option R) :=
  firstn (i + h + 1 - (i - h)) (skipn (i - h) l).

(** sample [i] (0-based) is above sample [i+1] *)
Definition decreases (l : list (option R)) (i : nat) : Prop :=
  exists a b, nth_error l i = Some (Some a) /\ nth_error l (S i) = Some (Some b) /\ b < a.

(** a correct generalized eigenvalue solver: each triple with beta <> 0 is an
    eigenvalue (alfr + i alfi)/beta of the pencil *)
Definition solver_sound (qz : list (list R) -> list (list R) -> option (list (R * R * R))) : Prop :=
  forall A B l, qz A B = Some l -> forall ar ai be, In (ar, ai, be) l -> be <> 0 ->
    eigenvalue (length A) (mv A) (mv B) (ar / be) (ai / be).
(** it reports no imaginary part for a zero left matrix *)
Definition zero_matrix (A : list (list R)) : Prop := forall row x, In row A -> In x row -> x = 0.
Definition solver_zero (qz : list (list R) -> list (list R) -> option (list (R * R * R))) : Prop :=
  forall A B l, qz A B = Some l -> zero_matrix A -> forall ar ai be, In (ar, ai, be) l -> ai = 0.

(** * The grids *)
(** latitudes in degrees, strictly increasing, between the poles *)
Definition lat_ok (lat : list R) : Prop :=
  (forall n, (1 <= n < length lat)%nat -> at1 lat n < at1 lat (n + 1)) /\
  (forall n, (1 <= n <= length lat)%nat -> -90 <= at1 lat n <= 90).
Definition deg : R := PI / 180.
Definition earth : R := 6371000.
Definition spin : R := 7292 / 100000000.
(** distance between two latitudes, shortened by the cosine of the middle latitude *)
Definition gap (lat : list R) (n : nat) : R :=
  earth * deg * (at1 lat (n + 1) - at1 lat n) * cos (deg * ((at1 lat (n + 1) + at1 lat n) / 2)).
(** conductances and widths of the latitude grid with N points: walls one gap
    outside the first and last point *)
Definition lat_c (lat : list R) (n : nat) : R :=
  / gap lat (if (n =? 0)%nat then 1 else if (n =? length lat)%nat then length lat - 1 else n).
Definition lat_w (lat : list R) (n : nat) : R :=
  if (n =? 1)%nat then gap lat 1
  else if (n =? length lat)%nat then gap lat (length lat - 1)
  else earth * deg * ((at1 lat (n + 1) - at1 lat (n - 1)) / 2).
Definition lat_beta (lat : list R) (n : nat) : R := 2 * spin * cos (deg * at1 lat n) / earth.

(** static stability between levels n and n+1: -(1 / (rho theta)) d theta, with rho = p / (R T) *)
Definition static (theta p t : list R) (n : nat) : R :=
  (at1 theta n - at1 theta (n + 1)) / (at1 p n / (28704 / 100 * at1 t n) * at1 theta n).
(** conductances and widths of the pressure grid: no flux through the ends *)
Definition lev_c (theta p t : list R) (f : R) (n : nat) : R :=
  if (n =? 0)%nat then 0 else if (n =? length p)%nat then 0 else f * f / static theta p t n.
Definition lev_w (p : list R) (n : nat) : R :=
  if (n =? 1)%nat then at1 p 2 - at1 p 1
  else if (n =? length p)%nat then at1 p n - at1 p (n - 1)
  else (at1 p (n + 1) - at1 p (n - 1)) / 2.
(** pressures strictly increasing; stability nowhere zero *)
Definition column_ok (theta p t : list R) : Prop :=
  (forall n, (1 <= n < length p)%nat -> at1 p n < at1 p (n + 1)) /\
  (forall n, (1 <= n < length p)%nat -> static theta p t n <> 0).
(** statically stable *)
Definition column_stable (theta p t : list R) : Prop :=
  (forall n, (1 <= n < length p)%nat -> at1 p n < at1 p (n + 1)) /\
  (forall n, (1 <= n < length p)%nat -> 0 < static theta p t n).
