(** Normalised associated Legendre functions, without reference to the code:
    Legendre polynomials by Bonnet's recursion, their derivatives, the
    normalisation, and what a Gaussian quadrature is. *)
From Coq Require Import Reals List Arith Lia.
From Verif Require Import RS_Spec.
Import ListNotations.
Local Open Scope R_scope.

(** (P_n, P_{n+1}); (n+2) P_{n+2} = (2n+3) x P_{n+1} - (n+1) P_n *)
Fixpoint leg_pair (n : nat) (x : R) : R * R :=
  match n with
  | O => (1, x)
  | S k => let (p, q) := leg_pair k x in (q, ((2 * INR k + 3) * x * q - (INR k + 1) * p) / (INR k + 2))
  end.
Definition leg (n : nat) (x : R) : R := fst (leg_pair n x).
(** The m-th derivative of P_n: P_n for m = 0, and
    D (m+1) (n+2) = D (m+1) n + (2n+3) D m (n+1).
    That it is the derivative is C96_derivative. *)
Fixpoint D (m : nat) : nat -> R -> R :=
  match m with
  | O => leg
  | S m' => fun n x => fst (nat_rect (fun _ => (R * R)%type) (0, D m' 0 x)
              (fun k pq => (snd pq, fst pq + (2 * INR k + 3) * D m' (S k) x)) n)
  end.
(** sqrt ((2n+1)/2 (n-m)!/(n+m)!) *)
Definition pnorm (m n : nat) : R := sqrt ((2 * INR n + 1) / 2 * (INR (fact (n - m)) / INR (fact (n + m)))).
(** The normalised function of order m and degree n at colatitude t *)
Definition Pbar (m n : nat) (t : R) : R := pnorm m n * (sin t ^ m * D m n (cos t)).

(** Colatitudes, north to south, symmetric about the equator *)
Definition symmetric_colatitudes (nlat : nat) (th : nat -> R) : Prop :=
  forall i, (1 <= i <= nlat)%nat -> th (nlat + 1 - i)%nat = PI - th i.
(** The weights integrate x^k over [-1, 1] exactly for k < 2 nlat, x = cos of the colatitude *)
Definition gaussian (nlat : nat) (wts : list R) (th : nat -> R) : Prop :=
  forall k, (k < 2 * nlat)%nat -> sumR nlat (fun q => nth q wts 0 * cos (th (S q)) ^ k) = (1 + (-1) ^ k) / (INR k + 1).
