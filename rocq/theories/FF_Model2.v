(** Model of the backward real Fourier transform of
    src/skyborn/spharm/src/hrfft.f90 (cited as hrfft.f90): hrfftb and its
    passes.  The simplifications are those of FF_Model. *)
From Coq Require Import Reals List Arith Lia Bool.
From Verif Require Import Base Buffer VH_Model FF_Model.
Import ListNotations.
Local Open Scope R_scope.

(** hrfft.f90:1365 *)
Definition SQRT2 : R := sqrt 2.

Section FFT.
Variable d : R.

(** In the passes of radix 2 to 5 only ch (ido, l1, r) is written, with values
    computed from cc (ido, r, l1). *)
Definition outb (ido r l1 : nat) (x : nat * nat * nat) (e : (nat -> nat -> nat -> R) -> R) : asg :=
  let '(i, k, j) := x in mkasg true (c3 ido l1 i k j) (fun cc _ => e (el3 d ido r cc)).

(** hrfft.f90:1489-1496, 1521-1528 *)
Definition hradb2_tail (ido l1 : nat) : list asg :=
  let ch := outb ido 2 l1 in
  loop 1 l1 (fun k => [
     ch (ido, k, 1)%nat (fun cc => 2 * cc@[ido, 1, k]);
     ch (ido, k, 2)%nat (fun cc => - 2 * cc@[1, 2, k])]).
(** hrfft.f90:1465-1529 *)
Definition hradb2 (ido l1 : nat) (wa1 : nat -> R) : list asg :=
  let ch := outb ido 2 l1 in
  loop 1 l1 (fun k => [
     ch (1, k, 1)%nat (fun cc => cc@[1, 1, k] + cc@[ido, 2, k]);
     ch (1, k, 2)%nat (fun cc => cc@[1, 1, k] - cc@[ido, 2, k])]) ++
  if (ido <? 2)%nat then [] else if (ido =? 2)%nat then hradb2_tail ido l1 else
  loop 1 l1 (fun k => loop2 ido (fun i => let ic := (ido + 2 - i)%nat in [
     ch (i - 1, k, 1)%nat (fun cc => cc@[i - 1, 1, k] + cc@[ic - 1, 2, k]);
     ch (i, k, 1)%nat (fun cc => cc@[i, 1, k] - cc@[ic, 2, k]);
     ch (i - 1, k, 2)%nat (fun cc => wa1 (i - 2)%nat * (cc@[i - 1, 1, k] - cc@[ic - 1, 2, k]) - wa1 (i - 1)%nat
       * (cc@[i, 1, k] + cc@[ic, 2, k]));
     ch (i, k, 2)%nat (fun cc => wa1 (i - 2)%nat * (cc@[i, 1, k] + cc@[ic, 2, k]) + wa1 (i - 1)%nat *
       (cc@[i - 1, 1, k] - cc@[ic - 1, 2, k]))])) ++
  if (ido mod 2 =? 1)%nat then [] else hradb2_tail ido l1.

(** hrfft.f90:1384-1392, 1441-1449 *)
Definition hradb4_tail (ido l1 : nat) : list asg :=
  let ch := outb ido 4 l1 in
  loop 1 l1 (fun k => [
     ch (ido, k, 1)%nat (fun cc => 2 * (cc@[ido, 1, k] + cc@[ido, 3, k]));
     ch (ido, k, 2)%nat (fun cc => SQRT2 * ((cc@[ido, 1, k] - cc@[ido, 3, k]) - (cc@[1, 2, k] + cc@[1, 4, k])));
     ch (ido, k, 3)%nat (fun cc => 2 * (cc@[1, 4, k] - cc@[1, 2, k]));
     ch (ido, k, 4)%nat (fun cc => - SQRT2 * ((cc@[ido, 1, k] - cc@[ido, 3, k]) + (cc@[1, 2, k] +
       cc@[1, 4, k])))]).
(** hrfft.f90:1357-1450 *)
Definition hradb4 (ido l1 : nat) (wa1 wa2 wa3 : nat -> R) : list asg :=
  let ch := outb ido 4 l1 in
  loop 1 l1 (fun k => [
     ch (1, k, 3)%nat (fun cc => (cc@[1, 1, k] + cc@[ido, 4, k]) - 2 * cc@[ido, 2, k]);
     ch (1, k, 1)%nat (fun cc => (cc@[1, 1, k] + cc@[ido, 4, k]) + 2 * cc@[ido, 2, k]);
     ch (1, k, 4)%nat (fun cc => (cc@[1, 1, k] - cc@[ido, 4, k]) + 2 * cc@[1, 3, k]);
     ch (1, k, 2)%nat (fun cc => (cc@[1, 1, k] - cc@[ido, 4, k]) - 2 * cc@[1, 3, k])]) ++
  if (ido <? 2)%nat then [] else if (ido =? 2)%nat then hradb4_tail ido l1 else
  loop 1 l1 (fun k => loop2 ido (fun i => let ic := (ido + 2 - i)%nat in
     let wa1r := wa1 (i - 2)%nat in let wa1i := wa1 (i - 1)%nat in
     let wa2r := wa2 (i - 2)%nat in let wa2i := wa2 (i - 1)%nat in
     let wa3r := wa3 (i - 2)%nat in let wa3i := wa3 (i - 1)%nat in [
     ch (i - 1, k, 1)%nat (fun cc => (cc@[i - 1, 1, k] + cc@[ic - 1, 4, k]) + (cc@[i - 1, 3, k] +
       cc@[ic - 1, 2, k]));
     ch (i, k, 1)%nat (fun cc => (cc@[i, 1, k] - cc@[ic, 4, k]) + (cc@[i, 3, k] - cc@[ic, 2, k]));
     ch (i - 1, k, 2)%nat (fun cc => wa1r * ((cc@[i - 1, 1, k] - cc@[ic - 1, 4, k]) - (cc@[i, 3, k] +
       cc@[ic, 2, k])) - wa1i * ((cc@[i, 1, k] + cc@[ic, 4, k]) + (cc@[i - 1, 3, k] - cc@[ic - 1, 2, k])));
     ch (i, k, 2)%nat (fun cc => wa1r * ((cc@[i, 1, k] + cc@[ic, 4, k]) + (cc@[i - 1, 3, k] -
       cc@[ic - 1, 2, k])) + wa1i * ((cc@[i - 1, 1, k] - cc@[ic - 1, 4, k]) - (cc@[i, 3, k] + cc@[ic, 2, k])));
     ch (i - 1, k, 3)%nat (fun cc => wa2r * ((cc@[i - 1, 1, k] + cc@[ic - 1, 4, k]) - (cc@[i - 1, 3, k] +
       cc@[ic - 1, 2, k])) - wa2i * ((cc@[i, 1, k] - cc@[ic, 4, k]) - (cc@[i, 3, k] - cc@[ic, 2, k])));
     ch (i, k, 3)%nat (fun cc => wa2r * ((cc@[i, 1, k] - cc@[ic, 4, k]) - (cc@[i, 3, k] - cc@[ic, 2, k])) + wa2i
       * ((cc@[i - 1, 1, k] + cc@[ic - 1, 4, k]) - (cc@[i - 1, 3, k] + cc@[ic - 1, 2, k])));
     ch (i - 1, k, 4)%nat (fun cc => wa3r * ((cc@[i - 1, 1, k] - cc@[ic - 1, 4, k]) + (cc@[i, 3, k] +
       cc@[ic, 2, k])) - wa3i * ((cc@[i, 1, k] + cc@[ic, 4, k]) - (cc@[i - 1, 3, k] - cc@[ic - 1, 2, k])));
     ch (i, k, 4)%nat (fun cc => wa3r * ((cc@[i, 1, k] + cc@[ic, 4, k]) - (cc@[i - 1, 3, k] -
       cc@[ic - 1, 2, k])) + wa3i * ((cc@[i - 1, 1, k] - cc@[ic - 1, 4, k]) + (cc@[i, 3, k] + cc@[ic, 2, k])))])) ++
  if (ido mod 2 =? 1)%nat then [] else hradb4_tail ido l1.

(** hrfft.f90:1544-1593 *)
Definition hradb3 (ido l1 : nat) (wa1 wa2 : nat -> R) : list asg :=
  let ch := outb ido 3 l1 in
  let arg := 2 * PI / 3 in let taur := cos arg in let taui := sin arg in
  loop 1 l1 (fun k => [
     ch (1, k, 1)%nat (fun cc => cc@[1, 1, k] + 2 * cc@[ido, 2, k]);
     ch (1, k, 2)%nat (fun cc => cc@[1, 1, k] + (2 * taur) * cc@[ido, 2, k] - (2 * taui) * cc@[1, 3, k]);
     ch (1, k, 3)%nat (fun cc => cc@[1, 1, k] + (2 * taur) * cc@[ido, 2, k] + (2 * taui) * cc@[1, 3, k])]) ++
  if (ido =? 1)%nat then [] else
  loop 1 l1 (fun k => loop2 ido (fun i => let ic := (ido + 2 - i)%nat in [
     ch (i - 1, k, 1)%nat (fun cc => cc@[i - 1, 1, k] + (cc@[i - 1, 3, k] + cc@[ic - 1, 2, k]));
     ch (i, k, 1)%nat (fun cc => cc@[i, 1, k] + (cc@[i, 3, k] - cc@[ic, 2, k]));
     ch (i - 1, k, 2)%nat (fun cc => wa1 (i - 2)%nat * (cc@[i - 1, 1, k] + taur * (cc@[i - 1, 3, k] +
       cc@[ic - 1, 2, k]) - taui * (cc@[i, 3, k] + cc@[ic, 2, k])) - wa1 (i - 1)%nat * (cc@[i, 1, k] + taur *
       (cc@[i, 3, k] - cc@[ic, 2, k]) + taui * (cc@[i - 1, 3, k] - cc@[ic - 1, 2, k])));
     ch (i, k, 2)%nat (fun cc => wa1 (i - 2)%nat * (cc@[i, 1, k] + taur * (cc@[i, 3, k] - cc@[ic, 2, k]) + taui
       * (cc@[i - 1, 3, k] - cc@[ic - 1, 2, k])) + wa1 (i - 1)%nat * (cc@[i - 1, 1, k] + taur *
       (cc@[i - 1, 3, k] + cc@[ic - 1, 2, k]) - taui * (cc@[i, 3, k] + cc@[ic, 2, k])));
     ch (i - 1, k, 3)%nat (fun cc => wa2 (i - 2)%nat * (cc@[i - 1, 1, k] + taur * (cc@[i - 1, 3, k] +
       cc@[ic - 1, 2, k]) + taui * (cc@[i, 3, k] + cc@[ic, 2, k])) - wa2 (i - 1)%nat * (cc@[i, 1, k] + taur *
       (cc@[i, 3, k] - cc@[ic, 2, k]) - taui * (cc@[i - 1, 3, k] - cc@[ic - 1, 2, k])));
     ch (i, k, 3)%nat (fun cc => wa2 (i - 2)%nat * (cc@[i, 1, k] + taur * (cc@[i, 3, k] - cc@[ic, 2, k]) - taui
       * (cc@[i - 1, 3, k] - cc@[ic - 1, 2, k])) + wa2 (i - 1)%nat * (cc@[i - 1, 1, k] + taur *
       (cc@[i - 1, 3, k] + cc@[ic - 1, 2, k]) + taui * (cc@[i, 3, k] + cc@[ic, 2, k])))])).

(** hrfft.f90:1608-1736 *)
Definition hradb5 (ido l1 : nat) (wa1 wa2 wa3 wa4 : nat -> R) : list asg :=
  let ch := outb ido 5 l1 in
  loop 1 l1 (fun k => [
     ch (1, k, 1)%nat (fun cc => cc@[1, 1, k] + 2 * cc@[ido, 2, k] + 2 * cc@[ido, 4, k]);
     ch (1, k, 2)%nat (fun cc => (cc@[1, 1, k] + TR11 * 2 * cc@[ido, 2, k] + TR12 * 2 * cc@[ido, 4, k]) - (TI11
       * 2 * cc@[1, 3, k] + TI12 * 2 * cc@[1, 5, k]));
     ch (1, k, 3)%nat (fun cc => (cc@[1, 1, k] + TR12 * 2 * cc@[ido, 2, k] + TR11 * 2 * cc@[ido, 4, k]) - (TI12
       * 2 * cc@[1, 3, k] - TI11 * 2 * cc@[1, 5, k]));
     ch (1, k, 4)%nat (fun cc => (cc@[1, 1, k] + TR12 * 2 * cc@[ido, 2, k] + TR11 * 2 * cc@[ido, 4, k]) + (TI12
       * 2 * cc@[1, 3, k] - TI11 * 2 * cc@[1, 5, k]));
     ch (1, k, 5)%nat (fun cc => (cc@[1, 1, k] + TR11 * 2 * cc@[ido, 2, k] + TR12 * 2 * cc@[ido, 4, k]) + (TI11
       * 2 * cc@[1, 3, k] + TI12 * 2 * cc@[1, 5, k]))]) ++
  if (ido =? 1)%nat then [] else
  loop 1 l1 (fun k => loop2 ido (fun i => let ic := (ido + 2 - i)%nat in [
     ch (i - 1, k, 1)%nat (fun cc => cc@[i - 1, 1, k] + (cc@[i - 1, 3, k] + cc@[ic - 1, 2, k]) +
       (cc@[i - 1, 5, k] + cc@[ic - 1, 4, k]));
     ch (i, k, 1)%nat (fun cc => cc@[i, 1, k] + (cc@[i, 3, k] - cc@[ic, 2, k]) + (cc@[i, 5, k] - cc@[ic, 4, k]));
     ch (i - 1, k, 2)%nat (fun cc => wa1 (i - 2)%nat * (cc@[i - 1, 1, k] + TR11 * (cc@[i - 1, 3, k] +
       cc@[ic - 1, 2, k]) + TR12 * (cc@[i - 1, 5, k] + cc@[ic - 1, 4, k]) - (TI11 * (cc@[i, 3, k] +
       cc@[ic, 2, k]) + TI12 * (cc@[i, 5, k] + cc@[ic, 4, k]))) - wa1 (i - 1)%nat * (cc@[i, 1, k] + TR11 *
       (cc@[i, 3, k] - cc@[ic, 2, k]) + TR12 * (cc@[i, 5, k] - cc@[ic, 4, k]) + (TI11 * (cc@[i - 1, 3, k] -
       cc@[ic - 1, 2, k]) + TI12 * (cc@[i - 1, 5, k] - cc@[ic - 1, 4, k]))));
     ch (i, k, 2)%nat (fun cc => wa1 (i - 2)%nat * (cc@[i, 1, k] + TR11 * (cc@[i, 3, k] - cc@[ic, 2, k]) + TR12
       * (cc@[i, 5, k] - cc@[ic, 4, k]) + (TI11 * (cc@[i - 1, 3, k] - cc@[ic - 1, 2, k]) + TI12 *
       (cc@[i - 1, 5, k] - cc@[ic - 1, 4, k]))) + wa1 (i - 1)%nat * (cc@[i - 1, 1, k] + TR11 * (cc@[i - 1, 3, k]
       + cc@[ic - 1, 2, k]) + TR12 * (cc@[i - 1, 5, k] + cc@[ic - 1, 4, k]) - (TI11 * (cc@[i, 3, k] +
       cc@[ic, 2, k]) + TI12 * (cc@[i, 5, k] + cc@[ic, 4, k]))));
     ch (i - 1, k, 3)%nat (fun cc => wa2 (i - 2)%nat * (cc@[i - 1, 1, k] + TR12 * (cc@[i - 1, 3, k] +
       cc@[ic - 1, 2, k]) + TR11 * (cc@[i - 1, 5, k] + cc@[ic - 1, 4, k]) - (TI12 * (cc@[i, 3, k] +
       cc@[ic, 2, k]) - TI11 * (cc@[i, 5, k] + cc@[ic, 4, k]))) - wa2 (i - 1)%nat * (cc@[i, 1, k] + TR12 *
       (cc@[i, 3, k] - cc@[ic, 2, k]) + TR11 * (cc@[i, 5, k] - cc@[ic, 4, k]) + (TI12 * (cc@[i - 1, 3, k] -
       cc@[ic - 1, 2, k]) - TI11 * (cc@[i - 1, 5, k] - cc@[ic - 1, 4, k]))));
     ch (i, k, 3)%nat (fun cc => wa2 (i - 2)%nat * (cc@[i, 1, k] + TR12 * (cc@[i, 3, k] - cc@[ic, 2, k]) + TR11
       * (cc@[i, 5, k] - cc@[ic, 4, k]) + (TI12 * (cc@[i - 1, 3, k] - cc@[ic - 1, 2, k]) - TI11 *
       (cc@[i - 1, 5, k] - cc@[ic - 1, 4, k]))) + wa2 (i - 1)%nat * (cc@[i - 1, 1, k] + TR12 * (cc@[i - 1, 3, k]
       + cc@[ic - 1, 2, k]) + TR11 * (cc@[i - 1, 5, k] + cc@[ic - 1, 4, k]) - (TI12 * (cc@[i, 3, k] +
       cc@[ic, 2, k]) - TI11 * (cc@[i, 5, k] + cc@[ic, 4, k]))));
     ch (i - 1, k, 4)%nat (fun cc => wa3 (i - 2)%nat * (cc@[i - 1, 1, k] + TR12 * (cc@[i - 1, 3, k] +
       cc@[ic - 1, 2, k]) + TR11 * (cc@[i - 1, 5, k] + cc@[ic - 1, 4, k]) + (TI12 * (cc@[i, 3, k] +
       cc@[ic, 2, k]) - TI11 * (cc@[i, 5, k] + cc@[ic, 4, k]))) - wa3 (i - 1)%nat * (cc@[i, 1, k] + TR12 *
       (cc@[i, 3, k] - cc@[ic, 2, k]) + TR11 * (cc@[i, 5, k] - cc@[ic, 4, k]) - (TI12 * (cc@[i - 1, 3, k] -
       cc@[ic - 1, 2, k]) - TI11 * (cc@[i - 1, 5, k] - cc@[ic - 1, 4, k]))));
     ch (i, k, 4)%nat (fun cc => wa3 (i - 2)%nat * (cc@[i, 1, k] + TR12 * (cc@[i, 3, k] - cc@[ic, 2, k]) + TR11
       * (cc@[i, 5, k] - cc@[ic, 4, k]) - (TI12 * (cc@[i - 1, 3, k] - cc@[ic - 1, 2, k]) - TI11 *
       (cc@[i - 1, 5, k] - cc@[ic - 1, 4, k]))) + wa3 (i - 1)%nat * (cc@[i - 1, 1, k] + TR12 * (cc@[i - 1, 3, k]
       + cc@[ic - 1, 2, k]) + TR11 * (cc@[i - 1, 5, k] + cc@[ic - 1, 4, k]) + (TI12 * (cc@[i, 3, k] +
       cc@[ic, 2, k]) - TI11 * (cc@[i, 5, k] + cc@[ic, 4, k]))));
     ch (i - 1, k, 5)%nat (fun cc => wa4 (i - 2)%nat * (cc@[i - 1, 1, k] + TR11 * (cc@[i - 1, 3, k] +
       cc@[ic - 1, 2, k]) + TR12 * (cc@[i - 1, 5, k] + cc@[ic - 1, 4, k]) + (TI11 * (cc@[i, 3, k] +
       cc@[ic, 2, k]) + TI12 * (cc@[i, 5, k] + cc@[ic, 4, k]))) - wa4 (i - 1)%nat * (cc@[i, 1, k] + TR11 *
       (cc@[i, 3, k] - cc@[ic, 2, k]) + TR12 * (cc@[i, 5, k] - cc@[ic, 4, k]) - (TI11 * (cc@[i - 1, 3, k] -
       cc@[ic - 1, 2, k]) + TI12 * (cc@[i - 1, 5, k] - cc@[ic - 1, 4, k]))));
     ch (i, k, 5)%nat (fun cc => wa4 (i - 2)%nat * (cc@[i, 1, k] + TR11 * (cc@[i, 3, k] - cc@[ic, 2, k]) + TR12
       * (cc@[i, 5, k] - cc@[ic, 4, k]) - (TI11 * (cc@[i - 1, 3, k] - cc@[ic - 1, 2, k]) + TI12 *
       (cc@[i - 1, 5, k] - cc@[ic - 1, 4, k]))) + wa4 (i - 1)%nat * (cc@[i - 1, 1, k] + TR11 * (cc@[i - 1, 3, k]
       + cc@[ic - 1, 2, k]) + TR12 * (cc@[i - 1, 5, k] + cc@[ic - 1, 4, k]) + (TI11 * (cc@[i, 3, k] +
       cc@[ic, 2, k]) + TI12 * (cc@[i, 5, k] + cc@[ic, 4, k]))))])).

(** hrfft.f90:1066-1342, general radix; cc, c1 and c2 are the same array seen
    as (ido, ip, l1), (ido, l1, ip) and (idl1, ip), ch and ch2 the same array
    seen as (ido, l1, ip) and (idl1, ip); [wa n] is the n-th element of the
    dummy wa *)
Section General.
Variables ido ip l1 : nat.
Variable wa : nat -> R.
Let idl1 := (ido * l1)%nat.
Let ipph := ((ip + 1) / 2)%nat.
Let nbd := ((ido - 1) / 2)%nat.
Let ch (i k j : nat) (e : list R -> R) := mkasg true (c3 ido l1 i k j) (fun cc _ => e cc).
Let c1 (i k j : nat) (e : list R -> R) := mkasg false (c3 ido l1 i k j) (fun _ ch => e ch).
Let ch2 (ik j : nat) (e : list R -> list R -> R) := mkasg true (c2 idl1 ik j) e.
Let c2_ (ik j : nat) (e : list R -> list R -> R) := mkasg false (c2 idl1 ik j) e.
Let e_cc (a : list R) i j k := el3 d ido ip a i j k.
Let e_1 (a : list R) i k j := el3 d ido l1 a i k j.
Let e_2 (a : list R) ik j := el2 d idl1 a ik j.

(** hrfft.f90:1091-1099 *)
Definition bg0 : list asg := loop 1 ip (fun j => loop 1 idl1 (fun ik => (ch2 ik j (fun a _ => e_2 a ik j) :: nil))).
(** hrfft.f90:1156-1159 *)
Definition bg_pair (j i k : nat) : list asg :=
  let jc := (ip + 2 - j)%nat in let ic := (ido + 2 - i)%nat in
  [ch (i - 1) k j (fun a => e_cc a (i - 1) (2 * j - 1) k + e_cc a (ic - 1) (2 * j - 2) k);
   ch (i - 1) k jc (fun a => e_cc a (i - 1) (2 * j - 1) k - e_cc a (ic - 1) (2 * j - 2) k);
   ch i k j (fun a => e_cc a i (2 * j - 1) k - e_cc a ic (2 * j - 2) k);
   ch i k jc (fun a => e_cc a i (2 * j - 1) k + e_cc a ic (2 * j - 2) k)].
(** hrfft.f90:1101-1181 *)
Definition bg1 : list asg :=
  (if (ido <? l1)%nat then loop 1 l1 (fun k => loop 1 ido (fun i => (ch i k 1%nat (fun a => e_cc a i 1 k) :: nil)))
   else loop 1 ido (fun i => loop 1 l1 (fun k => (ch i k 1%nat (fun a => e_cc a i 1 k) :: nil)))) ++
  loop 2 ipph (fun j => let jc := (ip + 2 - j)%nat in let j2 := (j + j)%nat in
    loop 1 l1 (fun k => [ch 1%nat k j (fun a => e_cc a ido (j2 - 2) k + e_cc a ido (j2 - 2) k);
                         ch 1%nat k jc (fun a => e_cc a 1 (j2 - 1) k + e_cc a 1 (j2 - 1) k)])) ++
  if (ido =? 1)%nat then [] else
  if (nbd <? l1)%nat then loop 2 ipph (fun j => loop2 ido (fun i => loop 1 l1 (fun k => bg_pair j i k)))
  else loop 2 ipph (fun j => loop 1 l1 (fun k => loop2 ido (fun i => bg_pair j i k))).
(** hrfft.f90:1183-1217 *)
Definition bg2 : list asg :=
  loop 2 ipph (fun l => let lc := (ip + 2 - l)%nat in
    let '(ar1, ai1) := turn (cos (arg ip)) (sin (arg ip)) (1, 0) (l - 1) in
    loop 1 idl1 (fun ik => [c2_ ik l (fun _ b => e_2 b ik 1 + ar1 * e_2 b ik 2);
                            c2_ ik lc (fun _ b => ai1 * e_2 b ik ip)]) ++
    loop 3 ipph (fun j => let jc := (ip + 2 - j)%nat in
      let '(ar2, ai2) := turn ar1 ai1 (ar1, ai1) (j - 2) in
      loop 1 idl1 (fun ik => [c2_ ik l (fun a b => e_2 a ik l + ar2 * e_2 b ik j);
                              c2_ ik lc (fun a b => e_2 a ik lc + ai2 * e_2 b ik jc)]))).
(** hrfft.f90:1219-1228 *)
Definition bg3 : list asg :=
  loop 2 ipph (fun j => loop 1 idl1 (fun ik => (ch2 ik 1%nat (fun _ b => e_2 b ik 1 + e_2 b ik j) :: nil))).
(** hrfft.f90:1256-1259 *)
Definition bg_unpair (j i k : nat) : list asg :=
  let jc := (ip + 2 - j)%nat in
  [ch (i - 1) k j (fun a => e_1 a (i - 1) k j - e_1 a i k jc);
   ch (i - 1) k jc (fun a => e_1 a (i - 1) k j + e_1 a i k jc);
   ch i k j (fun a => e_1 a i k j + e_1 a (i - 1) k jc);
   ch i k jc (fun a => e_1 a i k j - e_1 a (i - 1) k jc)].
(** hrfft.f90:1230-1282 *)
Definition bg4 : list asg :=
  loop 2 ipph (fun j => let jc := (ip + 2 - j)%nat in
    loop 1 l1 (fun k => [ch 1%nat k j (fun a => e_1 a 1 k j - e_1 a 1 k jc);
                         ch 1%nat k jc (fun a => e_1 a 1 k j + e_1 a 1 k jc)])) ++
  if (ido =? 1)%nat then [] else
  if (nbd <? l1)%nat then loop 2 ipph (fun j => loop2 ido (fun i => loop 1 l1 (fun k => bg_unpair j i k)))
  else loop 2 ipph (fun j => loop 1 l1 (fun k => loop2 ido (fun i => bg_unpair j i k))).
(** hrfft.f90:1316-1317; idij is (j - 2) ido + i - 1 *)
Definition bg_twist (j i k : nat) : list asg :=
  let idij := ((j - 2) * ido + (i - 1))%nat in
  [c1 (i - 1) k j (fun b => wa (idij - 1)%nat * e_1 b (i - 1) k j - wa idij * e_1 b i k j);
   c1 i k j (fun b => wa (idij - 1)%nat * e_1 b i k j + wa idij * e_1 b (i - 1) k j)].
(** hrfft.f90:1286-1341 *)
Definition bg5 : list asg :=
  loop 1 idl1 (fun ik => (c2_ ik 1%nat (fun _ b => e_2 b ik 1) :: nil)) ++
  loop 2 ip (fun j => loop 1 l1 (fun k => (c1 1%nat k j (fun b => e_1 b 1 k j) :: nil))) ++
  if (l1 <? nbd)%nat then loop 2 ip (fun j => loop2 ido (fun i => loop 1 l1 (fun k => bg_twist j i k)))
  else loop 2 ip (fun j => loop 1 l1 (fun k => loop2 ido (fun i => bg_twist j i k))).
(** hrfft.f90:1066-1342 *)
Definition hradbg : list asg :=
  bg0 ++ bg1 ++ bg2 ++ bg3 ++ bg4 ++ if (ido =? 1)%nat then [] else bg5.
End General.

(** hrfft.f90:978-1020: the pass of one factor; [wa n] is wa(n), [iw] as in the code *)
Definition radb (ip l1 ido iw : nat) (wa : nat -> R) : list asg :=
  let w s i := wa (iw + s * ido + i - 1)%nat in
  match ip with
  | 4 => hradb4 ido l1 (w 0) (w 1) (w 2)
  | 2 => hradb2 ido l1 (w 0)
  | 3 => hradb3 ido l1 (w 0) (w 1)
  | 5 => hradb5 ido l1 (w 0) (w 1) (w 2) (w 3)
  | _ => hradbg ido ip l1 (w 0)
  end%nat.
(** The state: c, ch, na (true for 1), l1, iw *)
(** hrfft.f90:972-1023, one factor *)
Definition stepb (n : nat) (wa : nat -> R) (s : stf) (ip : nat) : option stf :=
  let '(c, ch, na, l1, iw) := s in
  let l2 := (ip * l1)%nat in
  let ido := (n / l2)%nat in
  let* r := run (radb ip l1 ido iw wa) (swap2 na (c, ch)) in
  let '(c, ch) := swap2 na r in
  let na := if orb (is_small ip) (ido =? 1)%nat then negb na else na in
  Some (c, ch, na, l2, (iw + (ip - 1) * ido)%nat).
(** hrfft.f90:955-1036 *)
Definition hrftb1 (n : nat) (c ch : list R) (wa : list R) (fac : list nat) : option (list R * list R) :=
  let* s := foldM (stepb n (fun i => nth (i - 1) wa d)) fac (c, ch, false, 1, 1)%nat in
  let '(c, ch, na, _, _) := s in
  if na then Some (ch, ch) else Some (c, ch).
(** hrfft.f90:929-941 *)
Definition hrfftb (n : nat) (r work : list R) (wsave : list R * list nat) : option (list R * list R) :=
  if (n =? 1)%nat then Some (r, work) else hrftb1 n r work (fst wsave) (snd wsave).
End FFT.
