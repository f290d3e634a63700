(** Specification vocabulary for the triangular spectral storage, independent
    of the loops of SH_Model: the documented order of the coefficients
    (spherical_harmonics.py:76-81: "nm=0 is for spherical harmonic coefficient
    m=0,n=0, nm=1 is m=0,n=1, nm=ntrunc is m=0,n=ntrunc, nm=ntrunc+1 is
    m=1,n=1, etc."). *)
From Coq Require Import List Arith ZArith.
Import ListNotations.

(** Orders and degrees (m, n) with m <= n <= N, in storage order. *)
Definition pairs (N : nat) : list (nat * nat) :=
  flat_map (fun m => map (fun n => (m, n)) (seq m (N + 1 - m))) (seq 0 (N + 1)).

(** Position of (m, n): the m rows before it have N+1, N, ... entries. *)
Definition index (N m n : nat) : nat := m * (2 * N + 3 - m) / 2 + (n - m).

(** Number of coefficients. *)
Definition tri (N : nat) : nat := (N + 1) * (N + 2) / 2.

(** Numbering a list from [k]. *)
Definition enum {X : Type} (k : nat) (l : list X) : list (nat * X) := combine (seq k (length l)) l.

(** Applying a function of the coefficient and of its (m, n) to a spectrum. *)
Definition pointwise {X Y : Type} (N : nat) (f : nat -> nat -> X -> Y) (d : list X) : list Y :=
  map (fun xp => f (fst (snd xp)) (snd (snd xp)) (fst xp)) (combine d (pairs N)).

(** A matrix read through [get] (subscripts from 1 to [nlat]) holds [f m n c]
    for every coefficient [c] of the spectrum [d], at row m+1 and column n+1,
    and [z] everywhere else. *)
Definition is_matrix {X Y : Type} (N : nat) (nlat : Z) (get : Z -> Z -> option Y) (z : Y)
    (f : nat -> nat -> X -> Y) (d : list X) : Prop :=
  (forall m n c, m <= n <= N -> nth_error d (index N m n) = Some c ->
     get (Z.of_nat m + 1)%Z (Z.of_nat n + 1)%Z = Some (f m n c)) /\
  (forall i j, (1 <= i <= nlat -> 1 <= j <= nlat -> ~ (i <= j <= Z.of_nat N + 1) -> get i j = Some z)%Z).
