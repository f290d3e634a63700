(** What pressure interpolation should return, stated on the set of usable
    levels only; nothing here refers to the searches or the storage order. *)
From Verif Require Import Base.
Local Open Scope nat_scope.

(** [v] counts as missing: not finite, or equal to the missing value *)
Definition is_missing (mv v : option Qc) : Prop :=
  v = None \/ exists m, mv = Some m /\ v = Some m.

(** there is a source level at pressure [p] with value [x], neither missing *)
Definition level (mv : option Qc) (src data : list (option Qc)) (p x : Qc) : Prop :=
  exists i, nth_error src i = Some (Some p) /\ nth_error data i = Some (Some x) /\
            ~ is_missing mv (Some p) /\ ~ is_missing mv (Some x).

(** the straight line through [(c p0, x0)] and [(c p1, x1)] in the coordinate [c] *)
Definition on_line (c : Qc -> Qc) (p0 x0 p1 x1 t : Qc) : Qc :=
  (x1 + (x0 - x1) * ((c t - c p1) / (c p0 - c p1)))%Qc.

(** [p1 < p0] are usable levels with no usable level strictly between them *)
Definition neighbours (L : Qc -> Qc -> Prop) (p0 x0 p1 x1 : Qc) : Prop :=
  L p0 x0 /\ L p1 x1 /\ (p1 < p0)%Qc /\ forall p x, L p x -> (p <= p1)%Qc \/ (p0 <= p)%Qc.

(** the value at target [t] over the levels [L], [None] meaning missing.
    [low c …] is the rule used below the lowest pressure. *)
Inductive pvalue (L : Qc -> Qc -> Prop) (c : Qc -> Qc) (extrap : bool)
  (low : Qc -> Qc -> Qc -> Qc -> Qc -> Qc) (t : Qc) : option Qc -> Prop :=
| pv_level x : L t x -> pvalue L c extrap low t (Some x)
| pv_between p0 x0 p1 x1 :
    neighbours L p0 x0 p1 x1 -> (p1 < t)%Qc -> (t < p0)%Qc ->
    pvalue L c extrap low t (Some (on_line c p0 x0 p1 x1 t))
| pv_outside :
    extrap = false ->
    ((forall p x, L p x -> (p < t)%Qc) \/ (forall p x, L p x -> (t < p)%Qc)) ->
    pvalue L c extrap low t None
| pv_above p0 x0 p1 x1 :
    extrap = true -> (forall p x, L p x -> (p < t)%Qc) ->
    neighbours L p0 x0 p1 x1 -> (forall p x, L p x -> (p <= p0)%Qc) ->
    pvalue L c extrap low t (Some (on_line c p0 x0 p1 x1 t))
| pv_below p0 x0 p1 x1 :
    extrap = true -> (forall p x, L p x -> (t < p)%Qc) ->
    neighbours L p0 x0 p1 x1 -> (forall p x, L p x -> (p1 <= p)%Qc) ->
    pvalue L c extrap low t (Some (low p0 x0 p1 x1 t)).

(** the archived convention below the lowest level in log pressure: the line
    value plus the difference of the two lowest values *)
Definition low_log (c : Qc -> Qc) (p0 x0 p1 x1 t : Qc) : Qc :=
  (on_line c p0 x0 p1 x1 t + (x1 - x0))%Qc.

(** strictly increasing where pressures live *)
Definition increasing_on_positive (lg : Qc -> Qc) : Prop :=
  forall a b, (0 < a)%Qc -> (a < b)%Qc -> (lg a < lg b)%Qc.

(** every finite number of the array is below the bound *)
Definition all_below (b : Qc) (l : list (option Qc)) : Prop :=
  forall q, In (Some q) l -> (q < b)%Qc.

(** the usable pressures in storage order, one after the other, go up / down *)
Definition usable_by (R : Qc -> Qc -> Prop) (mv : option Qc) (src data : list (option Qc)) : Prop :=
  forall i j p p' x x', i < j ->
    nth_error src i = Some (Some p) -> nth_error data i = Some (Some x) ->
    nth_error src j = Some (Some p') -> nth_error data j = Some (Some x') ->
    ~ is_missing mv (Some p) -> ~ is_missing mv (Some x) ->
    ~ is_missing mv (Some p') -> ~ is_missing mv (Some x') -> R p p'.
Definition usable_up := usable_by Qclt.
Definition usable_down := usable_by (fun a b => (b < a)%Qc).

(** at least two places hold a usable level *)
Definition two_usable (mv : option Qc) (src data : list (option Qc)) : Prop :=
  exists i j p p' x x', i < j /\
    nth_error src i = Some (Some p) /\ nth_error data i = Some (Some x) /\
    nth_error src j = Some (Some p') /\ nth_error data j = Some (Some x') /\
    ~ is_missing mv (Some p) /\ ~ is_missing mv (Some x) /\
    ~ is_missing mv (Some p') /\ ~ is_missing mv (Some x').

(** the first two entries of the source pressures reveal the storage order:
    both are present and they step the same way as the usable levels *)
Definition order_visible (mv : option Qc) (src data : list (option Qc)) : Prop :=
  exists a b rest, src = Some a :: Some b :: rest /\
    ~ is_missing mv (Some a) /\ ~ is_missing mv (Some b) /\
    ((a < b)%Qc <-> usable_up mv src data).
