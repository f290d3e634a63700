(** Specification vocabulary for the axis bookkeeping: how multi-indices relate. *)
From Verif Require Import Base Loops NdArray.
Local Close Scope Qc_scope.
Local Open Scope nat_scope.

(** The axes other than x and y, in increasing order, and the row-major number
    of a multi-index restricted to them. *)
Definition others (n x y : nat) : list nat := filter (fun d => negb (d =? y)) (filter (fun d => negb (d =? x)) (seq 0 n)).
Definition other_index (sh : list nat) (x y : nat) (ix : list nat) : nat :=
  ravel (map (nthn sh) (others (length sh) x y)) (map (nthn ix) (others (length sh) x y)).
(** The multi-index with coordinate y replaced by i and coordinate x by j. *)
Definition at_yx (x y : nat) (ix : list nat) (i j : nat) : list nat := set_nth x j (set_nth y i ix).
(** Insert coordinate k at axis lev; remove axis lev. *)
Definition insert_at (lev k : nat) (ix : list nat) : list nat := firstn lev ix ++ k :: skipn lev ix.
Definition drop_axis (lev : nat) (sh : list nat) : list nat := firstn lev sh ++ skipn (S lev) sh.
(** A column kernel looks only at the levels of its column. *)
Definition kernel_local {T R} (F : list Qc -> (nat -> T) -> R) : Prop :=
  forall p c c', (forall k, k < length p -> c k = c' k) -> F p c = F p c'.
(** Latitudes strictly from north to south. *)
Definition north_to_south (l : list Qc) : Prop := forall i j, i < j < length l -> (nth j l 0 < nth i l 0)%Qc.
