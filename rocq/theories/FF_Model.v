(** Model of the real Fourier transforms of src/skyborn/spharm/src/hrfft.f90
    (cited as hrfft.f90): the forward transform hrfftf with its initialisation
    hrffti.  The backward transform is in FF_Model2.

    Simplifications:
    - one sequence: the leading dimension (m sequences transformed side by side,
      each statement being executed for every one of them) is dropped;
    - numbers are reals, without rounding: the decimal constants stand for the
      numbers they approximate (TWOPI for 2 pi, HSQT2 for sqrt 2 / 2, ...);
    - an array is the list of its elements in Fortran order.  A read outside the
      list gives the value [d], about which nothing is assumed; a write outside
      the list makes the whole run fail ([None]);
    - the factor list is kept as a list of integers instead of reals in the
      second half of wsave. *)
From Coq Require Import Reals List Arith Lia Bool.
From Verif Require Import Base Buffer VH_Model.
Import ListNotations.
Local Open Scope R_scope.

(** ** Programs: a list of assignments on the two arrays of a pass *)

(** 0-based position of element (i, j, k) of an array (n1, n2, n3) *)
Definition c3 (n1 n2 i j k : nat) : nat := ((i - 1) + n1 * ((j - 1) + n2 * (k - 1)))%nat.
(** 0-based position of element (i, j) of an array (n1, n2) *)
Definition c2 (n1 i j : nat) : nat := ((i - 1) + n1 * (j - 1))%nat.

(** One assignment: the array written (true: the argument ch, false: the
    argument cc, which is also c1 and c2), the position, and the value as a
    function of the current arrays cc and ch. *)
Record asg := mkasg { a_ch : bool; a_ix : nat; a_val : list R -> list R -> R }.

Definition exec (s : list R * list R) (a : asg) : option (list R * list R) :=
  let v := a_val a (fst s) (snd s) in
  if a_ch a then (let* ch := wrx (snd s) (a_ix a + 1) v in Some (fst s, ch))
  else (let* cc := wrx (fst s) (a_ix a + 1) v in Some (cc, snd s)).
Definition run (p : list asg) (s : list R * list R) : option (list R * list R) := foldM exec p s.

(** do k = lo, hi *)
Definition loop {A : Type} (lo hi : nat) (f : nat -> list A) : list A := flat_map f (seq lo (hi + 1 - lo)).
(** do i = 3, ido, 2 *)
Definition loop2 {A : Type} (ido : nat) (f : nat -> list A) : list A :=
  flat_map (fun q => f (2 * q + 1)%nat) (seq 1 ((ido - 1) / 2)).

Notation "c @[ i , j , k ]" := (c (i)%nat (j)%nat (k)%nat) (at level 8, i at level 200, j at level 200, k at level 200, only parsing).
Notation "c @[ i , j ]" := (c (i)%nat (j)%nat) (at level 8, i at level 200, j at level 200, only parsing).

Section FFT.
Variable d : R.

(** Element (i, j, k) of an array (n1, n2, n3), element (i, j) of an array (n1, n2) *)
Definition el3 (n1 n2 : nat) (a : list R) (i j k : nat) : R := nth (c3 n1 n2 i j k) a d.
Definition el2 (n1 : nat) (a : list R) (i j : nat) : R := nth (c2 n1 i j) a d.

(** In the passes of radix 2 to 5 only ch is written, with values computed from cc. *)
Definition outf (ido r l1 : nat) (x : nat * nat * nat) (e : (nat -> nat -> nat -> R) -> R) : asg :=
  let '(i, j, k) := x in mkasg true (c3 ido r i j k) (fun cc _ => e (el3 ido l1 cc)).

(** ** Constants *)
(** hrfft.f90:286 *)
Definition HSQT2 : R := sqrt 2 / 2.
(** hrfft.f90:467-468 *)
Definition taur : R := - (1 / 2).
Definition taui : R := sqrt 3 / 2.
(** hrfft.f90:542-543, 1620-1623 *)
Definition TR11 : R := cos (2 * PI / 5).
Definition TI11 : R := sin (2 * PI / 5).
Definition TR12 : R := cos (4 * PI / 5).
Definition TI12 : R := sin (4 * PI / 5).

(** ** Forward passes: cc is (ido, l1, r), ch is (ido, r, l1) *)

(** hrfft.f90:402-411, 430-436 *)
Definition hradf2_tail (ido l1 : nat) : list asg :=
  let ch := outf ido 2 l1 in
  loop 1 l1 (fun k => [
     ch (1, 2, k)%nat (fun cc => - cc@[ido, k, 2]);
     ch (ido, 1, k)%nat (fun cc => cc@[ido, k, 1])]).
(** hrfft.f90:382-437 *)
Definition hradf2 (ido l1 : nat) (wa1 : nat -> R) : list asg :=
  let ch := outf ido 2 l1 in
  loop 1 l1 (fun k => [
     ch (1, 1, k)%nat (fun cc => cc@[1, k, 1] + cc@[1, k, 2]);
     ch (ido, 2, k)%nat (fun cc => cc@[1, k, 1] - cc@[1, k, 2])]) ++
  if (ido <? 2)%nat then [] else if (ido =? 2)%nat then hradf2_tail ido l1 else
  loop 1 l1 (fun k => loop2 ido (fun i => let ic := (ido + 2 - i)%nat in [
     ch (i, 1, k)%nat (fun cc => cc@[i, k, 1] + (wa1 (i - 2)%nat * cc@[i, k, 2] - wa1 (i - 1)%nat *
       cc@[i - 1, k, 2]));
     ch (ic, 2, k)%nat (fun cc => (wa1 (i - 2)%nat * cc@[i, k, 2] - wa1 (i - 1)%nat * cc@[i - 1, k, 2]) -
       cc@[i, k, 1]);
     ch (i - 1, 1, k)%nat (fun cc => cc@[i - 1, k, 1] + (wa1 (i - 2)%nat * cc@[i - 1, k, 2] + wa1 (i - 1)%nat *
       cc@[i, k, 2]));
     ch (ic - 1, 2, k)%nat (fun cc => cc@[i - 1, k, 1] - (wa1 (i - 2)%nat * cc@[i - 1, k, 2] + wa1 (i - 1)%nat *
       cc@[i, k, 2]))])) ++
  if (ido mod 2 =? 1)%nat then [] else hradf2_tail ido l1.

(** hrfft.f90:301-312, 357-365 *)
Definition hradf4_tail (ido l1 : nat) : list asg :=
  let ch := outf ido 4 l1 in
  loop 1 l1 (fun k => [
     ch (ido, 1, k)%nat (fun cc => (HSQT2 * (cc@[ido, k, 2] - cc@[ido, k, 4])) + cc@[ido, k, 1]);
     ch (ido, 3, k)%nat (fun cc => cc@[ido, k, 1] - (HSQT2 * (cc@[ido, k, 2] - cc@[ido, k, 4])));
     ch (1, 2, k)%nat (fun cc => (- HSQT2 * (cc@[ido, k, 2] + cc@[ido, k, 4])) - cc@[ido, k, 3]);
     ch (1, 4, k)%nat (fun cc => (- HSQT2 * (cc@[ido, k, 2] + cc@[ido, k, 4])) + cc@[ido, k, 3])]).
(** hrfft.f90:274-366 *)
Definition hradf4 (ido l1 : nat) (wa1 wa2 wa3 : nat -> R) : list asg :=
  let ch := outf ido 4 l1 in
  loop 1 l1 (fun k => [
     ch (1, 1, k)%nat (fun cc => (cc@[1, k, 2] + cc@[1, k, 4]) + (cc@[1, k, 1] + cc@[1, k, 3]));
     ch (ido, 4, k)%nat (fun cc => (cc@[1, k, 1] + cc@[1, k, 3]) - (cc@[1, k, 2] + cc@[1, k, 4]));
     ch (ido, 2, k)%nat (fun cc => cc@[1, k, 1] - cc@[1, k, 3]);
     ch (1, 3, k)%nat (fun cc => cc@[1, k, 4] - cc@[1, k, 2])]) ++
  if (ido <? 2)%nat then [] else if (ido =? 2)%nat then hradf4_tail ido l1 else
  loop 1 l1 (fun k => loop2 ido (fun i => let ic := (ido + 2 - i)%nat in
     let wa1r := wa1 (i - 2)%nat in let wa1i := wa1 (i - 1)%nat in
     let wa2r := wa2 (i - 2)%nat in let wa2i := wa2 (i - 1)%nat in
     let wa3r := wa3 (i - 2)%nat in let wa3i := wa3 (i - 1)%nat in [
     ch (i - 1, 1, k)%nat (fun cc => ((wa1r * cc@[i - 1, k, 2] + wa1i * cc@[i, k, 2]) + (wa3r * cc@[i - 1, k, 4]
       + wa3i * cc@[i, k, 4])) + (cc@[i - 1, k, 1] + (wa2r * cc@[i - 1, k, 3] + wa2i * cc@[i, k, 3])));
     ch (ic - 1, 4, k)%nat (fun cc => (cc@[i - 1, k, 1] + (wa2r * cc@[i - 1, k, 3] + wa2i * cc@[i, k, 3])) -
       ((wa1r * cc@[i - 1, k, 2] + wa1i * cc@[i, k, 2]) + (wa3r * cc@[i - 1, k, 4] + wa3i * cc@[i, k, 4])));
     ch (i, 1, k)%nat (fun cc => ((wa1r * cc@[i, k, 2] - wa1i * cc@[i - 1, k, 2]) + (wa3r * cc@[i, k, 4] - wa3i
       * cc@[i - 1, k, 4])) + (cc@[i, k, 1] + (wa2r * cc@[i, k, 3] - wa2i * cc@[i - 1, k, 3])));
     ch (ic, 4, k)%nat (fun cc => ((wa1r * cc@[i, k, 2] - wa1i * cc@[i - 1, k, 2]) + (wa3r * cc@[i, k, 4] - wa3i
       * cc@[i - 1, k, 4])) - (cc@[i, k, 1] + (wa2r * cc@[i, k, 3] - wa2i * cc@[i - 1, k, 3])));
     ch (i - 1, 3, k)%nat (fun cc => ((wa1r * cc@[i, k, 2] - wa1i * cc@[i - 1, k, 2]) - (wa3r * cc@[i, k, 4] -
       wa3i * cc@[i - 1, k, 4])) + (cc@[i - 1, k, 1] - (wa2r * cc@[i - 1, k, 3] + wa2i * cc@[i, k, 3])));
     ch (ic - 1, 2, k)%nat (fun cc => (cc@[i - 1, k, 1] - (wa2r * cc@[i - 1, k, 3] + wa2i * cc@[i, k, 3])) -
       ((wa1r * cc@[i, k, 2] - wa1i * cc@[i - 1, k, 2]) - (wa3r * cc@[i, k, 4] - wa3i * cc@[i - 1, k, 4])));
     ch (i, 3, k)%nat (fun cc => ((wa3r * cc@[i - 1, k, 4] + wa3i * cc@[i, k, 4]) - (wa1r * cc@[i - 1, k, 2] +
       wa1i * cc@[i, k, 2])) + (cc@[i, k, 1] - (wa2r * cc@[i, k, 3] - wa2i * cc@[i - 1, k, 3])));
     ch (ic, 2, k)%nat (fun cc => ((wa3r * cc@[i - 1, k, 4] + wa3i * cc@[i, k, 4]) - (wa1r * cc@[i - 1, k, 2] +
       wa1i * cc@[i, k, 2])) - (cc@[i, k, 1] - (wa2r * cc@[i, k, 3] - wa2i * cc@[i - 1, k, 3])))])) ++
  if (ido mod 2 =? 1)%nat then [] else hradf4_tail ido l1.

(** hrfft.f90:457-517 *)
Definition hradf3 (ido l1 : nat) (wa1 wa2 : nat -> R) : list asg :=
  let ch := outf ido 3 l1 in
  loop 1 l1 (fun k => [
     ch (1, 1, k)%nat (fun cc => cc@[1, k, 1] + (cc@[1, k, 2] + cc@[1, k, 3]));
     ch (1, 3, k)%nat (fun cc => taui * (cc@[1, k, 3] - cc@[1, k, 2]));
     ch (ido, 2, k)%nat (fun cc => cc@[1, k, 1] + taur * (cc@[1, k, 2] + cc@[1, k, 3]))]) ++
  if (ido =? 1)%nat then [] else
  loop 1 l1 (fun k => loop2 ido (fun i => let ic := (ido + 2 - i)%nat in [
     ch (i - 1, 1, k)%nat (fun cc => cc@[i - 1, k, 1] + ((wa1 (i - 2)%nat * cc@[i - 1, k, 2] + wa1 (i - 1)%nat *
       cc@[i, k, 2]) + (wa2 (i - 2)%nat * cc@[i - 1, k, 3] + wa2 (i - 1)%nat * cc@[i, k, 3])));
     ch (i, 1, k)%nat (fun cc => cc@[i, k, 1] + ((wa1 (i - 2)%nat * cc@[i, k, 2] - wa1 (i - 1)%nat *
       cc@[i - 1, k, 2]) + (wa2 (i - 2)%nat * cc@[i, k, 3] - wa2 (i - 1)%nat * cc@[i - 1, k, 3])));
     ch (i - 1, 3, k)%nat (fun cc => (cc@[i - 1, k, 1] + taur * ((wa1 (i - 2)%nat * cc@[i - 1, k, 2] +
       wa1 (i - 1)%nat * cc@[i, k, 2]) + (wa2 (i - 2)%nat * cc@[i - 1, k, 3] + wa2 (i - 1)%nat * cc@[i, k, 3])))
       + (taui * ((wa1 (i - 2)%nat * cc@[i, k, 2] - wa1 (i - 1)%nat * cc@[i - 1, k, 2]) - (wa2 (i - 2)%nat *
       cc@[i, k, 3] - wa2 (i - 1)%nat * cc@[i - 1, k, 3]))));
     ch (ic - 1, 2, k)%nat (fun cc => (cc@[i - 1, k, 1] + taur * ((wa1 (i - 2)%nat * cc@[i - 1, k, 2] +
       wa1 (i - 1)%nat * cc@[i, k, 2]) + (wa2 (i - 2)%nat * cc@[i - 1, k, 3] + wa2 (i - 1)%nat * cc@[i, k, 3])))
       - (taui * ((wa1 (i - 2)%nat * cc@[i, k, 2] - wa1 (i - 1)%nat * cc@[i - 1, k, 2]) - (wa2 (i - 2)%nat *
       cc@[i, k, 3] - wa2 (i - 1)%nat * cc@[i - 1, k, 3]))));
     ch (i, 3, k)%nat (fun cc => (cc@[i, k, 1] + taur * ((wa1 (i - 2)%nat * cc@[i, k, 2] - wa1 (i - 1)%nat *
       cc@[i - 1, k, 2]) + (wa2 (i - 2)%nat * cc@[i, k, 3] - wa2 (i - 1)%nat * cc@[i - 1, k, 3]))) + (taui *
       ((wa2 (i - 2)%nat * cc@[i - 1, k, 3] + wa2 (i - 1)%nat * cc@[i, k, 3]) - (wa1 (i - 2)%nat *
       cc@[i - 1, k, 2] + wa1 (i - 1)%nat * cc@[i, k, 2]))));
     ch (ic, 2, k)%nat (fun cc => (taui * ((wa2 (i - 2)%nat * cc@[i - 1, k, 3] + wa2 (i - 1)%nat * cc@[i, k, 3])
       - (wa1 (i - 2)%nat * cc@[i - 1, k, 2] + wa1 (i - 1)%nat * cc@[i, k, 2]))) - (cc@[i, k, 1] + taur *
       ((wa1 (i - 2)%nat * cc@[i, k, 2] - wa1 (i - 1)%nat * cc@[i - 1, k, 2]) + (wa2 (i - 2)%nat * cc@[i, k, 3]
       - wa2 (i - 1)%nat * cc@[i - 1, k, 3]))))])).

(** hrfft.f90:532-646 *)
Definition hradf5 (ido l1 : nat) (wa1 wa2 wa3 wa4 : nat -> R) : list asg :=
  let ch := outf ido 5 l1 in
  loop 1 l1 (fun k => [
     ch (1, 1, k)%nat (fun cc => cc@[1, k, 1] + (cc@[1, k, 5] + cc@[1, k, 2]) + (cc@[1, k, 4] + cc@[1, k, 3]));
     ch (ido, 2, k)%nat (fun cc => cc@[1, k, 1] + TR11 * (cc@[1, k, 5] + cc@[1, k, 2]) + TR12 * (cc@[1, k, 4] +
       cc@[1, k, 3]));
     ch (1, 3, k)%nat (fun cc => TI11 * (cc@[1, k, 5] - cc@[1, k, 2]) + TI12 * (cc@[1, k, 4] - cc@[1, k, 3]));
     ch (ido, 4, k)%nat (fun cc => cc@[1, k, 1] + TR12 * (cc@[1, k, 5] + cc@[1, k, 2]) + TR11 * (cc@[1, k, 4] +
       cc@[1, k, 3]));
     ch (1, 5, k)%nat (fun cc => TI12 * (cc@[1, k, 5] - cc@[1, k, 2]) - TI11 * (cc@[1, k, 4] - cc@[1, k, 3]))]) ++
  if (ido =? 1)%nat then [] else
  loop 1 l1 (fun k => loop2 ido (fun i => let ic := (ido + 2 - i)%nat in [
     ch (i - 1, 1, k)%nat (fun cc => cc@[i - 1, k, 1] + ((wa1 (i - 2)%nat * cc@[i - 1, k, 2] + wa1 (i - 1)%nat *
       cc@[i, k, 2]) + (wa4 (i - 2)%nat * cc@[i - 1, k, 5] + wa4 (i - 1)%nat * cc@[i, k, 5])) +
       ((wa2 (i - 2)%nat * cc@[i - 1, k, 3] + wa2 (i - 1)%nat * cc@[i, k, 3]) + (wa3 (i - 2)%nat *
       cc@[i - 1, k, 4] + wa3 (i - 1)%nat * cc@[i, k, 4])));
     ch (i, 1, k)%nat (fun cc => cc@[i, k, 1] + ((wa1 (i - 2)%nat * cc@[i, k, 2] - wa1 (i - 1)%nat *
       cc@[i - 1, k, 2]) + (wa4 (i - 2)%nat * cc@[i, k, 5] - wa4 (i - 1)%nat * cc@[i - 1, k, 5])) +
       ((wa2 (i - 2)%nat * cc@[i, k, 3] - wa2 (i - 1)%nat * cc@[i - 1, k, 3]) + (wa3 (i - 2)%nat * cc@[i, k, 4]
       - wa3 (i - 1)%nat * cc@[i - 1, k, 4])));
     ch (i - 1, 3, k)%nat (fun cc => cc@[i - 1, k, 1] + TR11 * (wa1 (i - 2)%nat * cc@[i - 1, k, 2] +
       wa1 (i - 1)%nat * cc@[i, k, 2] + wa4 (i - 2)%nat * cc@[i - 1, k, 5] + wa4 (i - 1)%nat * cc@[i, k, 5]) +
       TR12 * (wa2 (i - 2)%nat * cc@[i - 1, k, 3] + wa2 (i - 1)%nat * cc@[i, k, 3] + wa3 (i - 2)%nat *
       cc@[i - 1, k, 4] + wa3 (i - 1)%nat * cc@[i, k, 4]) + TI11 * (wa1 (i - 2)%nat * cc@[i, k, 2] -
       wa1 (i - 1)%nat * cc@[i - 1, k, 2] - (wa4 (i - 2)%nat * cc@[i, k, 5] - wa4 (i - 1)%nat *
       cc@[i - 1, k, 5])) + TI12 * (wa2 (i - 2)%nat * cc@[i, k, 3] - wa2 (i - 1)%nat * cc@[i - 1, k, 3] -
       (wa3 (i - 2)%nat * cc@[i, k, 4] - wa3 (i - 1)%nat * cc@[i - 1, k, 4])));
     ch (ic - 1, 2, k)%nat (fun cc => cc@[i - 1, k, 1] + TR11 * (wa1 (i - 2)%nat * cc@[i - 1, k, 2] +
       wa1 (i - 1)%nat * cc@[i, k, 2] + wa4 (i - 2)%nat * cc@[i - 1, k, 5] + wa4 (i - 1)%nat * cc@[i, k, 5]) +
       TR12 * (wa2 (i - 2)%nat * cc@[i - 1, k, 3] + wa2 (i - 1)%nat * cc@[i, k, 3] + wa3 (i - 2)%nat *
       cc@[i - 1, k, 4] + wa3 (i - 1)%nat * cc@[i, k, 4]) - (TI11 * (wa1 (i - 2)%nat * cc@[i, k, 2] -
       wa1 (i - 1)%nat * cc@[i - 1, k, 2] - (wa4 (i - 2)%nat * cc@[i, k, 5] - wa4 (i - 1)%nat *
       cc@[i - 1, k, 5])) + TI12 * (wa2 (i - 2)%nat * cc@[i, k, 3] - wa2 (i - 1)%nat * cc@[i - 1, k, 3] -
       (wa3 (i - 2)%nat * cc@[i, k, 4] - wa3 (i - 1)%nat * cc@[i - 1, k, 4]))));
     ch (i, 3, k)%nat (fun cc => cc@[i, k, 1] + TR11 * ((wa1 (i - 2)%nat * cc@[i, k, 2] - wa1 (i - 1)%nat *
       cc@[i - 1, k, 2]) + (wa4 (i - 2)%nat * cc@[i, k, 5] - wa4 (i - 1)%nat * cc@[i - 1, k, 5])) + TR12 *
       ((wa2 (i - 2)%nat * cc@[i, k, 3] - wa2 (i - 1)%nat * cc@[i - 1, k, 3]) + (wa3 (i - 2)%nat * cc@[i, k, 4]
       - wa3 (i - 1)%nat * cc@[i - 1, k, 4])) + TI11 * ((wa4 (i - 2)%nat * cc@[i - 1, k, 5] + wa4 (i - 1)%nat *
       cc@[i, k, 5]) - (wa1 (i - 2)%nat * cc@[i - 1, k, 2] + wa1 (i - 1)%nat * cc@[i, k, 2])) + TI12 *
       ((wa3 (i - 2)%nat * cc@[i - 1, k, 4] + wa3 (i - 1)%nat * cc@[i, k, 4]) - (wa2 (i - 2)%nat *
       cc@[i - 1, k, 3] + wa2 (i - 1)%nat * cc@[i, k, 3])));
     ch (ic, 2, k)%nat (fun cc => TI11 * ((wa4 (i - 2)%nat * cc@[i - 1, k, 5] + wa4 (i - 1)%nat * cc@[i, k, 5])
       - (wa1 (i - 2)%nat * cc@[i - 1, k, 2] + wa1 (i - 1)%nat * cc@[i, k, 2])) + TI12 * ((wa3 (i - 2)%nat *
       cc@[i - 1, k, 4] + wa3 (i - 1)%nat * cc@[i, k, 4]) - (wa2 (i - 2)%nat * cc@[i - 1, k, 3] +
       wa2 (i - 1)%nat * cc@[i, k, 3])) - (cc@[i, k, 1] + TR11 * ((wa1 (i - 2)%nat * cc@[i, k, 2] -
       wa1 (i - 1)%nat * cc@[i - 1, k, 2]) + (wa4 (i - 2)%nat * cc@[i, k, 5] - wa4 (i - 1)%nat *
       cc@[i - 1, k, 5])) + TR12 * ((wa2 (i - 2)%nat * cc@[i, k, 3] - wa2 (i - 1)%nat * cc@[i - 1, k, 3]) +
       (wa3 (i - 2)%nat * cc@[i, k, 4] - wa3 (i - 1)%nat * cc@[i - 1, k, 4]))));
     ch (i - 1, 5, k)%nat (fun cc => cc@[i - 1, k, 1] + TR12 * ((wa1 (i - 2)%nat * cc@[i - 1, k, 2] +
       wa1 (i - 1)%nat * cc@[i, k, 2]) + (wa4 (i - 2)%nat * cc@[i - 1, k, 5] + wa4 (i - 1)%nat * cc@[i, k, 5]))
       + TR11 * ((wa2 (i - 2)%nat * cc@[i - 1, k, 3] + wa2 (i - 1)%nat * cc@[i, k, 3]) + (wa3 (i - 2)%nat *
       cc@[i - 1, k, 4] + wa3 (i - 1)%nat * cc@[i, k, 4])) + TI12 * ((wa1 (i - 2)%nat * cc@[i, k, 2] -
       wa1 (i - 1)%nat * cc@[i - 1, k, 2]) - (wa4 (i - 2)%nat * cc@[i, k, 5] - wa4 (i - 1)%nat *
       cc@[i - 1, k, 5])) - TI11 * ((wa2 (i - 2)%nat * cc@[i, k, 3] - wa2 (i - 1)%nat * cc@[i - 1, k, 3]) -
       (wa3 (i - 2)%nat * cc@[i, k, 4] - wa3 (i - 1)%nat * cc@[i - 1, k, 4])));
     ch (ic - 1, 4, k)%nat (fun cc => cc@[i - 1, k, 1] + TR12 * ((wa1 (i - 2)%nat * cc@[i - 1, k, 2] +
       wa1 (i - 1)%nat * cc@[i, k, 2]) + (wa4 (i - 2)%nat * cc@[i - 1, k, 5] + wa4 (i - 1)%nat * cc@[i, k, 5]))
       + TR11 * ((wa2 (i - 2)%nat * cc@[i - 1, k, 3] + wa2 (i - 1)%nat * cc@[i, k, 3]) + (wa3 (i - 2)%nat *
       cc@[i - 1, k, 4] + wa3 (i - 1)%nat * cc@[i, k, 4])) - (TI12 * ((wa1 (i - 2)%nat * cc@[i, k, 2] -
       wa1 (i - 1)%nat * cc@[i - 1, k, 2]) - (wa4 (i - 2)%nat * cc@[i, k, 5] - wa4 (i - 1)%nat *
       cc@[i - 1, k, 5])) - TI11 * ((wa2 (i - 2)%nat * cc@[i, k, 3] - wa2 (i - 1)%nat * cc@[i - 1, k, 3]) -
       (wa3 (i - 2)%nat * cc@[i, k, 4] - wa3 (i - 1)%nat * cc@[i - 1, k, 4]))));
     ch (i, 5, k)%nat (fun cc => cc@[i, k, 1] + TR12 * ((wa1 (i - 2)%nat * cc@[i, k, 2] - wa1 (i - 1)%nat *
       cc@[i - 1, k, 2]) + (wa4 (i - 2)%nat * cc@[i, k, 5] - wa4 (i - 1)%nat * cc@[i - 1, k, 5])) + TR11 *
       ((wa2 (i - 2)%nat * cc@[i, k, 3] - wa2 (i - 1)%nat * cc@[i - 1, k, 3]) + (wa3 (i - 2)%nat * cc@[i, k, 4]
       - wa3 (i - 1)%nat * cc@[i - 1, k, 4])) + TI12 * ((wa4 (i - 2)%nat * cc@[i - 1, k, 5] + wa4 (i - 1)%nat *
       cc@[i, k, 5]) - (wa1 (i - 2)%nat * cc@[i - 1, k, 2] + wa1 (i - 1)%nat * cc@[i, k, 2])) - TI11 *
       ((wa3 (i - 2)%nat * cc@[i - 1, k, 4] + wa3 (i - 1)%nat * cc@[i, k, 4]) - (wa2 (i - 2)%nat *
       cc@[i - 1, k, 3] + wa2 (i - 1)%nat * cc@[i, k, 3])));
     ch (ic, 4, k)%nat (fun cc => TI12 * ((wa4 (i - 2)%nat * cc@[i - 1, k, 5] + wa4 (i - 1)%nat * cc@[i, k, 5])
       - (wa1 (i - 2)%nat * cc@[i - 1, k, 2] + wa1 (i - 1)%nat * cc@[i, k, 2])) - TI11 * ((wa3 (i - 2)%nat *
       cc@[i - 1, k, 4] + wa3 (i - 1)%nat * cc@[i, k, 4]) - (wa2 (i - 2)%nat * cc@[i - 1, k, 3] +
       wa2 (i - 1)%nat * cc@[i, k, 3])) - (cc@[i, k, 1] + TR12 * ((wa1 (i - 2)%nat * cc@[i, k, 2] -
       wa1 (i - 1)%nat * cc@[i - 1, k, 2]) + (wa4 (i - 2)%nat * cc@[i, k, 5] - wa4 (i - 1)%nat *
       cc@[i - 1, k, 5])) + TR11 * ((wa2 (i - 2)%nat * cc@[i, k, 3] - wa2 (i - 1)%nat * cc@[i - 1, k, 3]) +
       (wa3 (i - 2)%nat * cc@[i, k, 4] - wa3 (i - 1)%nat * cc@[i - 1, k, 4]))))])).

(** hrfft.f90:803-809, 818-826, 1183-1189, 1197-1205: n rotations by (dc, ds) *)
Fixpoint turn (dc ds : R) (start : R * R) (n : nat) : R * R :=
  match n with
  | O => start
  | S n' => let '(ar, ai) := turn dc ds start n' in (dc * ar - ds * ai, dc * ai + ds * ar)
  end.

(** hrfft.f90:666-916, general radix; cc, c1 and c2 are the same array seen as
    (ido, ip, l1), (ido, l1, ip) and (idl1, ip), ch and ch2 the same array seen
    as (ido, l1, ip) and (idl1, ip); [wa n] is the n-th element of the dummy wa *)
Section General.
Variables ido ip l1 : nat.
Variable wa : nat -> R.
Let idl1 := (ido * l1)%nat.
Let ipph := ((ip + 1) / 2)%nat.
Let nbd := ((ido - 1) / 2)%nat.
Definition arg : R := 2 * PI / INR ip.
Definition at_cc (i j k : nat) (e : list R -> R) := mkasg false (c3 ido ip i j k) (fun _ ch => e ch).
Definition at_c1 (i k j : nat) (e : list R -> R) := mkasg false (c3 ido l1 i k j) (fun _ ch => e ch).
Definition at_c2 (ik j : nat) (e : list R -> R) := mkasg false (c2 idl1 ik j) (fun _ ch => e ch).
Definition at_ch (i k j : nat) (e : list R -> R) := mkasg true (c3 ido l1 i k j) (fun cc _ => e cc).
Definition at_ch2 (ik j : nat) (e : list R -> list R -> R) := mkasg true (c2 idl1 ik j) e.
Definition e_cc (a : list R) i j k := el3 ido ip a i j k.
Definition e_c1 (a : list R) i k j := el3 ido l1 a i k j.
Definition e_c2 (a : list R) ik j := el2 idl1 a ik j.
Definition e_ch (a : list R) i k j := el3 ido l1 a i k j.
Definition e_ch2 (a : list R) ik j := el2 idl1 a ik j.

(** hrfft.f90:720-721; idij is (j - 2) ido + i - 1 *)
Definition fg_twist (j i k : nat) : list asg :=
  let idij := ((j - 2) * ido + (i - 1))%nat in
  [at_ch (i - 1) k j (fun a => wa (idij - 1)%nat * e_c1 a (i - 1) k j + wa idij * e_c1 a i k j);
   at_ch i k j (fun a => wa (idij - 1)%nat * e_c1 a i k j - wa idij * e_c1 a (i - 1) k j)].
(** hrfft.f90:693-743 *)
Definition fg1 : list asg :=
  loop 1 idl1 (fun ik => (at_ch2 ik 1 (fun a _ => e_c2 a ik 1) :: nil)) ++
  loop 2 ip (fun j => loop 1 l1 (fun k => (at_ch 1 k j (fun a => e_c1 a 1 k j) :: nil))) ++
  if (l1 <? nbd)%nat then loop 2 ip (fun j => loop2 ido (fun i => loop 1 l1 (fun k => fg_twist j i k)))
  else loop 2 ip (fun j => loop 1 l1 (fun k => loop2 ido (fun i => fg_twist j i k))).
(** hrfft.f90:753-756 *)
Definition fg_pair (j i k : nat) : list asg :=
  let jc := (ip + 2 - j)%nat in
  [at_c1 (i - 1) k j (fun b => e_ch b (i - 1) k j + e_ch b (i - 1) k jc);
   at_c1 (i - 1) k jc (fun b => e_ch b i k j - e_ch b i k jc);
   at_c1 i k j (fun b => e_ch b i k j + e_ch b i k jc);
   at_c1 i k jc (fun b => e_ch b (i - 1) k jc - e_ch b (i - 1) k j)].
(** hrfft.f90:745-777 *)
Definition fg2 : list asg :=
  if (l1 <=? nbd)%nat then loop 2 ipph (fun j => loop 1 l1 (fun k => loop2 ido (fun i => fg_pair j i k)))
  else loop 2 ipph (fun j => loop2 ido (fun i => loop 1 l1 (fun k => fg_pair j i k))).
(** hrfft.f90:781-789 *)
Definition fg3 : list asg := loop 1 idl1 (fun ik => (at_c2 ik 1 (fun b => e_ch2 b ik 1) :: nil)).
(** hrfft.f90:791-801 *)
Definition fg4 : list asg :=
  loop 2 ipph (fun j => let jc := (ip + 2 - j)%nat in
    loop 1 l1 (fun k => [at_c1 1 k j (fun b => e_ch b 1 k j + e_ch b 1 k jc);
                         at_c1 1 k jc (fun b => e_ch b 1 k jc - e_ch b 1 k j)])).
(** hrfft.f90:803-836 *)
Definition fg5 : list asg :=
  loop 2 ipph (fun l => let lc := (ip + 2 - l)%nat in
    let '(ar1, ai1) := turn (cos arg) (sin arg) (1, 0) (l - 1) in
    loop 1 idl1 (fun ik => [at_ch2 ik l (fun a _ => e_c2 a ik 1 + ar1 * e_c2 a ik 2);
                            at_ch2 ik lc (fun a _ => ai1 * e_c2 a ik ip)]) ++
    loop 3 ipph (fun j => let jc := (ip + 2 - j)%nat in
      let '(ar2, ai2) := turn ar1 ai1 (ar1, ai1) (j - 2) in
      loop 1 idl1 (fun ik => [at_ch2 ik l (fun a b => e_ch2 b ik l + ar2 * e_c2 a ik j);
                              at_ch2 ik lc (fun a b => e_ch2 b ik lc + ai2 * e_c2 a ik jc)]))).
(** hrfft.f90:838-845 *)
Definition fg6 : list asg :=
  loop 2 ipph (fun j => loop 1 idl1 (fun ik => (at_ch2 ik 1 (fun a b => e_ch2 b ik 1 + e_c2 a ik j) :: nil))).
(** hrfft.f90:890-893 *)
Definition fg_unpair (j i k : nat) : list asg :=
  let jc := (ip + 2 - j)%nat in let j2 := (j + j)%nat in let ic := (ido + 2 - i)%nat in
  [at_cc (i - 1) (j2 - 1) k (fun b => e_ch b (i - 1) k j + e_ch b (i - 1) k jc);
   at_cc (ic - 1) (j2 - 2) k (fun b => e_ch b (i - 1) k j - e_ch b (i - 1) k jc);
   at_cc i (j2 - 1) k (fun b => e_ch b i k j + e_ch b i k jc);
   at_cc ic (j2 - 2) k (fun b => e_ch b i k jc - e_ch b i k j)].
(** hrfft.f90:847-915 *)
Definition fg7 : list asg :=
  (if (ido <? l1)%nat then loop 1 l1 (fun k => loop 1 ido (fun i => (at_cc i 1 k (fun b => e_ch b i k 1) :: nil)))
   else loop 1 ido (fun i => loop 1 l1 (fun k => (at_cc i 1 k (fun b => e_ch b i k 1) :: nil)))) ++
  loop 2 ipph (fun j => let jc := (ip + 2 - j)%nat in let j2 := (j + j)%nat in
    loop 1 l1 (fun k => [at_cc ido (j2 - 2) k (fun b => e_ch b 1 k j);
                         at_cc 1 (j2 - 1) k (fun b => e_ch b 1 k jc)])) ++
  if (ido =? 1)%nat then [] else
  if (nbd <? l1)%nat then loop 2 ipph (fun j => loop2 ido (fun i => loop 1 l1 (fun k => fg_unpair j i k)))
  else loop 2 ipph (fun j => loop 1 l1 (fun k => loop2 ido (fun i => fg_unpair j i k))).
(** hrfft.f90:666-916 *)
Definition hradfg : list asg :=
  (if (ido =? 1)%nat then fg3 else fg1 ++ fg2) ++ fg4 ++ fg5 ++ fg6 ++ fg7.
End General.

(** ** Initialisation *)
(** hrfft.f90:84-89: the next trial divisor (ntryh is 4, 2, 3, 5) *)
Definition next_try (j ntry : nat) : nat :=
  match j with 1 => 4 | 2 => 2 | 3 => 3 | 4 => 5 | _ => ntry + 2 end%nat.
(** hrfft.f90:98-107: the last factor found is moved to the front when it is 2 *)
Definition finish (ntry : nat) (fac : list nat) : list nat :=
  if andb (ntry =? 2)%nat (1 <? length fac)%nat then 2%nat :: removelast fac else fac.
(** hrfft.f90:83-109; [fuel] bounds the number of trial divisions *)
Fixpoint factorize (fuel j ntry nl : nat) (fac : list nat) : option (list nat) :=
  match fuel with
  | O => None
  | S fuel' =>
      if (nl mod ntry =? 0)%nat then
        let fac' := fac ++ (ntry :: nil) in
        let nl' := (nl / ntry)%nat in
        if (nl' =? 1)%nat then Some (finish ntry fac') else factorize fuel' j ntry nl' fac'
      else factorize fuel' (j + 1) (next_try (j + 1) ntry) nl fac
  end.

(** hrfft.f90:127-140: the twiddle factors of one factor ip, with ld = j l1,
    fi = q and is advanced by ido for each j *)
Definition twiddles (n l1 is ip : nat) : list (nat * R) :=
  let ido := (n / (l1 * ip))%nat in
  let argh := 2 * PI / INR n in
  loop 1 (ip - 1) (fun j =>
    let argld := INR (j * l1) * argh in
    flat_map (fun q => [((is + (j - 1) * ido + (2 * q - 1) - 1)%nat, cos (INR q * argld));
                        ((is + (j - 1) * ido + 2 * q - 1)%nat, sin (INR q * argld))])
             (seq 1 ((ido - 1) / 2))).
(** hrfft.f90:118-143: all factors but the last *)
Fixpoint all_twiddles (n l1 is : nat) (fac : list nat) : list (nat * R) :=
  match fac with
  | ip :: ((_ :: _) as rest) => twiddles n l1 is ip ++ all_twiddles n (l1 * ip) (is + (ip - 1) * (n / (l1 * ip))) rest
  | _ => []
  end.
(** hrfft.f90:45-144; [wa0] is the content of wsave on entry *)
Definition hrffti (fuel n : nat) (wa0 : list R) : option (list R * list nat) :=
  if (n =? 1)%nat then Some (wa0, [])
  else
    let* fac := factorize fuel 1 4 n [] in
    let* wa := foldM (fun w e => wrx w (fst e + 1) (snd e)) (all_twiddles n 1 0 fac) wa0 in
    Some (wa, fac).

(** ** The forward transform *)
(** hrfft.f90:208-248: the pass of one factor; [wa n] is wa(n), [iw] as in the code *)
Definition radf (n ip l1 ido iw : nat) (wa : nat -> R) : list asg :=
  let w s i := wa (iw + s * ido + i - 1)%nat in
  match ip with
  | 4 => hradf4 ido l1 (w 0) (w 1) (w 2)
  | 2 => hradf2 ido l1 (w 0)
  | 3 => hradf3 ido l1 (w 0) (w 1)
  | 5 => hradf5 ido l1 (w 0) (w 1) (w 2) (w 3)
  | _ => hradfg ido ip l1 (w 0)
  end%nat.
Definition is_small (ip : nat) : bool := orb (orb (ip =? 4)%nat (ip =? 2)%nat) (orb (ip =? 3)%nat (ip =? 5)%nat).
Definition swap2 {A : Type} (b : bool) (s : A * A) : A * A := if b then (snd s, fst s) else s.

(** The state: c, ch, na (true for 1), l2, iw *)
Definition stf := (list R * list R * bool * nat * nat)%type.
(** hrfft.f90:199-250, one factor *)
Definition stepf (n : nat) (wa : nat -> R) (s : stf) (ip : nat) : option stf :=
  let '(c, ch, na, l2, iw) := s in
  let l1 := (l2 / ip)%nat in
  let ido := (n / l2)%nat in
  let iw := (iw - (ip - 1) * ido)%nat in
  let na := negb na in
  let na := if andb (negb (is_small ip)) (ido =? 1)%nat then negb na else na in
  let* r := run (radf n ip l1 ido iw wa) (swap2 na (c, ch)) in
  let '(c, ch) := swap2 na r in
  Some (c, ch, (if is_small ip then na else negb na), l1, iw).
(** hrfft.f90:182-259 *)
Definition hrftf1 (n : nat) (c ch : list R) (wa : list R) (fac : list nat) : option (list R * list R) :=
  let* s := foldM (stepf n (fun i => nth (i - 1) wa d)) (rev fac) (c, ch, true, n, n) in
  let '(c, ch, na, _, _) := s in
  if na then Some (c, ch) else Some (ch, ch).
(** hrfft.f90:157-168 *)
Definition hrfftf (n : nat) (r work : list R) (wsave : list R * list nat) : option (list R * list R) :=
  if (n =? 1)%nat then Some (r, work) else hrftf1 n r work (fst wsave) (snd wsave).
End FFT.
