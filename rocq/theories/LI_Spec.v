(** Pointwise linear interpolation on a strictly monotone list of points. *)
From Verif Require Import Base Loops VH_Spec.
Local Open Scope nat_scope.

(** [m] marks missing.  On a point: its value; between two neighbouring points:
    the straight line when both are present; outside, or next to a missing point:
    missing. *)
Inductive linear_at (xs fs : list Qc) (m t : Qc) : Qc -> Prop :=
| la_point i f : nth_error xs i = Some t -> nth_error fs i = Some f -> linear_at xs fs m t f
| la_line i x0 x1 f0 f1 : nth_error xs i = Some x0 -> nth_error xs (i + 1) = Some x1 ->
    nth_error fs i = Some f0 -> nth_error fs (i + 1) = Some f1 -> strictly_between t x0 x1 -> f0 <> m -> f1 <> m ->
    linear_at xs fs m t (along f0 f1 (linear_part t x0 x1))
| la_gap i x0 x1 f0 f1 : nth_error xs i = Some x0 -> nth_error xs (i + 1) = Some x1 ->
    nth_error fs i = Some f0 -> nth_error fs (i + 1) = Some f1 -> strictly_between t x0 x1 -> f0 = m \/ f1 = m ->
    linear_at xs fs m t m
| la_outside : (forall x, In x xs -> (t < x)%Qc) \/ (forall x, In x xs -> (x < t)%Qc) -> linear_at xs fs m t m.

(** the points used: all of them, or only those that are present *)
Definition points (drop : bool) (m : Qc) (xs fs : list Qc) : list (Qc * Qc) :=
  if drop then filter (fun p => negb (snd p =? m)%Qc) (combine xs fs) else combine xs fs.
(** the number of missing values at the start *)
Fixpoint leading (m : Qc) (fs : list Qc) : nat :=
  match fs with f :: r => if (f =? m)%Qc then 1 + leading m r else 0 | [] => 0 end.
(** [W] is [L] with the last point repeated before it and the first after it; the
    step is the first (last) spacing of [xs] times [s] *)
Definition wrapped (xs : list Qc) (s : nat) (L W : list (Qc * Qc)) : Prop :=
  exists p q x1 x2 xm xn,
    nth_error L 0 = Some p /\ nth_error L (length L - 1) = Some q /\
    nth_error xs 0 = Some x1 /\ nth_error xs 1 = Some x2 /\ nth_error xs (length xs - 2) = Some xm /\ nth_error xs (length xs - 1) = Some xn /\
    W = ((fst p - qz (Z.of_nat s) * (x2 - x1))%Qc, snd q) :: L ++ ((fst q + qz (Z.of_nat s) * (xn - xm))%Qc, snd p) :: nil.
(** the interpolation source of a row *)
Definition source (cyclic drop : bool) (m : Qc) (xs fs : list Qc) (W : list (Qc * Qc)) : Prop :=
  let L := points drop m xs fs in
  if cyclic then wrapped xs (if drop then leading m fs + leading m (rev fs) + 1 else 1) L W else W = L.

(** a cell of [xs] containing [t], lower end included *)
Definition in_cell (xs : list Qc) (t : Qc) (i : nat) (x0 x1 : Qc) : Prop :=
  nth_error xs i = Some x0 /\ nth_error xs (i + 1) = Some x1 /\ (x0 <= t)%Qc /\ (t < x1)%Qc.
Definition entry (f : list (list Qc)) (i j : nat) : option Qc := match nth_error f j with Some row => nth_error row i | None => None end.

(** [g] are the rows of [fi] interpolated at [x] *)
Definition rows_at (cyclic drop : bool) (m : Qc) (xs : list Qc) (fi : list (list Qc)) (x : Qc) (g : list Qc) : Prop :=
  Forall2 (fun row v => exists W, source cyclic drop m xs row W /\ linear_at (map fst W) (map snd W) m x v) fi g.
(** first in x on every row, then in y *)
Definition grid_value (cyclic drop : bool) (m : Qc) (xs ys : list Qc) (fi : list (list Qc)) (x y v : Qc) : Prop :=
  exists g, rows_at cyclic drop m xs fi x g /\ linear_at (map fst (points drop m ys g)) (map snd (points drop m ys g)) m y v.

(** a target inside a cell of a matrix listed by rows, [f j] being row j: the
    corner itself, the bilinear value when the four corners are present, the mean
    weighted by [isq] of the squared distance otherwise *)
Definition weighted (isq : Qc -> Qc) (m x y : Qc) (corners : list (Qc * (Qc * Qc))) (v : Qc) : Prop :=
  let there := filter (fun c => negb (fst c =? m)%Qc) corners in
  let w c := isq ((fst (snd c) - x) * (fst (snd c) - x) + (snd (snd c) - y) * (snd (snd c) - y))%Qc in
  (v * qsum (map w there))%Qc = qsum (map (fun c => fst c * w c)%Qc there).
Inductive point_at (isq : Qc -> Qc) (xs ys : list Qc) (fi : list (list Qc)) (m x y : Qc) : Qc -> Prop :=
| pa_outside : (forall i x0 x1, ~ in_cell xs x i x0 x1) \/ (forall j y0 y1, ~ in_cell ys y j y0 y1) -> point_at isq xs ys fi m x y m
| pa_corner i j x1 y1 v : in_cell xs x i x x1 -> in_cell ys y j y y1 -> entry fi i j = Some v -> point_at isq xs ys fi m x y v
| pa_bilinear i j x0 x1 y0 y1 f00 f10 f01 f11 : in_cell xs x i x0 x1 -> in_cell ys y j y0 y1 ->
    entry fi i j = Some f00 -> entry fi (i + 1) j = Some f10 -> entry fi i (j + 1) = Some f01 -> entry fi (i + 1) (j + 1) = Some f11 ->
    f00 <> m -> f10 <> m -> f01 <> m -> f11 <> m -> ~ (x = x0 /\ y = y0) ->
    point_at isq xs ys fi m x y (along (along f00 f10 (linear_part x x0 x1)) (along f01 f11 (linear_part x x0 x1)) (linear_part y y0 y1))
| pa_empty i j x0 x1 y0 y1 : in_cell xs x i x0 x1 -> in_cell ys y j y0 y1 ->
    entry fi i j = Some m -> entry fi (i + 1) j = Some m -> entry fi i (j + 1) = Some m -> entry fi (i + 1) (j + 1) = Some m ->
    point_at isq xs ys fi m x y m
| pa_weighted i j x0 x1 y0 y1 f00 f10 f01 f11 v : in_cell xs x i x0 x1 -> in_cell ys y j y0 y1 ->
    entry fi i j = Some f00 -> entry fi (i + 1) j = Some f10 -> entry fi i (j + 1) = Some f01 -> entry fi (i + 1) (j + 1) = Some f11 ->
    f00 = m \/ f10 = m \/ f01 = m \/ f11 = m -> f00 <> m \/ f10 <> m \/ f01 <> m \/ f11 <> m -> ~ (x = x0 /\ y = y0) ->
    weighted isq m x y [(f00, (x0, y0)); (f10, (x1, y0)); (f01, (x0, y1)); (f11, (x1, y1))] v ->
    point_at isq xs ys fi m x y v.
