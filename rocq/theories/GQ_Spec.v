(** What the Gaussian points and weights should be, without reference to the code *)
From Coq Require Import Reals List Arith.
From Verif Require Import RS_Spec LG_Spec.
Import ListNotations.
Local Open Scope R_scope.

(** (2n)! / (4^n n!^2); P_n(cos t) = 2 lead(n) cos(nt) + waves of lower number *)
Definition lead (n : nat) : R := INR (fact (2 * n)) / (4 ^ n * (INR (fact n) * INR (fact n))).
(** P_n(cos t) and its derivative in t, scaled to make the coefficient of cos(nt) one *)
Definition value (n : nat) (t : R) : R := leg n (cos t) / (2 * lead n).
Definition slope (n : nat) (t : R) : R := - (sin t * D 1 n (cos t)) / (2 * lead n).

(** Newton's step, at most cmax either way; where the derivative is negligible, eps towards the side of the sign *)
Definition small : R := 1000 / 2 ^ 52.
Definition step (n : nat) (eps cmax : R) (t : R) : R :=
  let d := if Rlt_dec (Rabs (slope n t)) small then (if Rlt_dec (value n t) 0 then - eps else eps) else value n t / slope n t in
  t - Rmax (- cmax) (Rmin d cmax).
Definition settled (eps : R) (t t' : R) : Prop := Rabs (t' - t) <= eps * Rmax (Rabs t') 1.
(** z is the first settled iterate from the guess g, or the 51st; zl is the one before it *)
Definition iterate (n : nat) (eps cmax g zl z : R) : Prop :=
  exists k, (k <= 50)%nat /\ zl = Nat.iter k (step n eps cmax) g /\ z = step n eps cmax zl /\
    (forall j, (j < k)%nat -> ~ settled eps (Nat.iter j (step n eps cmax) g) (Nat.iter (S j) (step n eps cmax) g)) /\
    ((k < 50)%nat -> settled eps zl z).
(** the weight before normalisation, from the next to last iterate *)
Definition raw (n : nat) (t : R) : R :=
  if Rlt_dec small (Rabs (sin t)) then (2 * INR n + 1) / Rsqr (slope n t + value n t * (cos t / sin t)) else (2 * INR n + 1) / Rsqr (slope n t).

(** first guess: half a spacing off the equator when n is even, a whole one when n is odd *)
Definition spacing (n : nat) : R := PI / 2 / INR ((n + 1) / 2).
Definition guess (n : nat) (th : nat -> R) (i : nat) : R :=
  if (i =? n / 2)%nat then PI / 2 - (if Nat.even n then spacing n / 2 else spacing n)
  else 2 * th (i + 1)%nat - th (i + 2)%nat.

(** n points th 1 .. n and weights wt 1 .. n *)
Definition gauss_points (n : nat) (eps : R) (th wt : nat -> R) : Prop :=
  exists w : nat -> R,
    symmetric_colatitudes n th /\
    (forall i, (1 <= i <= n)%nat -> w (n + 1 - i)%nat = w i) /\
    (forall i, (1 <= i <= n / 2)%nat -> exists zl, iterate n eps (spacing n / 5) (guess n th i) zl (th i) /\ w i = raw n zl) /\
    (Nat.even n = false -> w ((n + 1) / 2)%nat = (2 * INR n + 1) / Rsqr (slope n (PI / 2))) /\
    let s := sumR n (fun q => w (S q)) in
    forall i, (1 <= i <= n)%nat -> wt i = 2 * w i / (if Rlt_dec (Rabs s) (INR n / 2 ^ 52) then 2 else s).
