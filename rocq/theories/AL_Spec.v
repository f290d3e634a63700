(** What the Legendre functions at a point should be, independently of the model. *)
From Coq Require Import Reals List Arith ZArith.
From Verif Require Import LG_Spec.
Local Open Scope R_scope.

(** The normalised function of order m, negative orders included, with
    the usual convention that the function of order -m is (-1)^m that of order m. *)
Definition legendre (m : Z) (n : nat) (th : R) : R :=
  if (m <? 0)%Z then (-1) ^ Z.abs_nat m * Pbar (Z.abs_nat m) n th else Pbar (Z.abs_nat m) n th.
(** Degrees of latitude to a colatitude in radians, and back. *)
Definition colatitude_of (lat : R) : R := PI / 2 - lat * PI / 180.
Definition latitude_of (th : R) : R := 90 - th * 180 / PI.
(** (2n)! / (2^n n! n!), which is the leading coefficient of the Legendre polynomial. *)
Definition leading (n : nat) : R := INR (fact (2 * n)) / (2 ^ n * (INR (fact n) * INR (fact n))).
