(** Independent vocabulary for the grid-filling properties. *)
From Verif Require Import Base Loops.
Local Open Scope nat_scope.

(** Reflection of an integer position about the edges of [0, n-1]. *)
Definition mirror (n : nat) (z : Z) : Z :=
  if (z <? 0)%Z then (- z)%Z
  else if (Z.of_nat n - 1 <? z)%Z then (2 * (Z.of_nat n - 1) - z)%Z else z.

(** The four neighbours of cell (i,j): rows mirrored at the poles, columns
    wrapped when cyclic and mirrored otherwise. *)
Definition col_nbr (cyc : bool) (nlon : nat) (z : Z) : nat :=
  Z.to_nat (if cyc then (z mod Z.of_nat nlon)%Z else mirror nlon z).
Definition row_nbr (nlat : nat) (z : Z) : nat := Z.to_nat (mirror nlat z).
Definition nbrs (cyc : bool) (nlat nlon i j : nat) : list (nat * nat) :=
  [ (row_nbr nlat (Z.of_nat i - 1), j); (row_nbr nlat (Z.of_nat i + 1), j);
    (i, col_nbr cyc nlon (Z.of_nat j - 1)); (i, col_nbr cyc nlon (Z.of_nat j + 1)) ].

(** Mean of a field over the four neighbours. *)
Definition nbr_mean (cyc : bool) (nlat nlon : nat) (g : nat -> nat -> Qc) (i j : nat) : Qc :=
  (qsum (map (fun c => g (fst c) (snd c)) (nbrs cyc nlat nlon i j)) / qz 4)%Qc.

(** The discrete Laplace equation on the missing cells. *)
Definition harmonic_on (mk : nat -> nat -> bool) (cyc : bool) (nlat nlon : nat) (g : nat -> nat -> Qc) : Prop :=
  forall i j, i < nlat -> j < nlon -> mk i j = true -> g i j = nbr_mean cyc nlat nlon g i j.

(** Row-major visiting order. *)
Definition earlier (c d : nat * nat) : Prop :=
  fst c < fst d \/ (fst c = fst d /\ snd c < snd d).
Definition earlierb (c d : nat * nat) : bool :=
  (fst c <? fst d) || ((fst c =? fst d) && (snd c <? snd d)).

(** A stencil path from (i,j) through missing cells to an observed cell. *)
Inductive reaches_observed (mk : nat -> nat -> bool) (cyc : bool) (nlat nlon : nat) : nat -> nat -> Prop :=
| ro_here i j : mk i j = false -> reaches_observed mk cyc nlat nlon i j
| ro_step i j a b : In (a, b) (nbrs cyc nlat nlon i j) ->
    reaches_observed mk cyc nlat nlon a b -> reaches_observed mk cyc nlat nlon i j.
