(** What vertical remapping should return, stated on a column given as two
    lists: level coordinates [P] and level values [X].  Nothing here refers to
    searches, buffers or units. *)
From Verif Require Import Base.
Local Open Scope nat_scope.

(** the coordinates strictly increase (decrease) along the storage order *)
Definition goes_up (P : list Qc) : Prop :=
  forall i j p q, i < j -> nth_error P i = Some p -> nth_error P j = Some q -> (p < q)%Qc.
Definition goes_down (P : list Qc) : Prop :=
  forall i j p q, i < j -> nth_error P i = Some p -> nth_error P j = Some q -> (q < p)%Qc.
Definition strictly_monotone (P : list Qc) : Prop := goes_up P \/ goes_down P.

(** the part of the way from [p] to [q] at which [t] lies *)
Definition linear_part (t p q : Qc) : Qc := ((t - p) / (q - p))%Qc.
Definition log_part (lg : Qc -> Qc) (t p q : Qc) : Qc := (lg (t / p) / lg (q / p))%Qc.
(** the archived log-log coordinate, pressure in Pa *)
Definition loglog (lg : Qc -> Qc) (p : Qc) : Qc := lg (lg (p * (qz 1 / qz 100) + qz 272 / qz 100))%Qc.
Definition loglog_part (lg : Qc -> Qc) (t p q : Qc) : Qc :=
  ((loglog lg t - loglog lg p) / (loglog lg q - loglog lg p))%Qc.

(** the proportion by interpolation method: 1 linear, 2 log, otherwise log-log *)
Definition part (lg : Qc -> Qc) (intyp : Z) : Qc -> Qc -> Qc -> Qc :=
  if (intyp =? 1)%Z then linear_part else if (intyp =? 2)%Z then log_part lg else loglog_part lg.

Definition along (x y w : Qc) : Qc := (x + (y - x) * w)%Qc.
Definition strictly_between (t p q : Qc) : Prop := ((p < t)%Qc /\ (t < q)%Qc) \/ ((q < t)%Qc /\ (t < p)%Qc).

(** the value at [t]: exact on a level; in proportion between two neighbouring
    levels; [below] past the largest coordinate; continued from the two smallest
    coordinates below all of them *)
Inductive column_value (part : Qc -> Qc -> Qc -> Qc) (P X : list Qc) (below : option Qc) (t : Qc) : option Qc -> Prop :=
| cv_level i x : nth_error P i = Some t -> nth_error X i = Some x -> column_value part P X below t (Some x)
| cv_between i p q x y :
    nth_error P i = Some p -> nth_error P (i + 1) = Some q ->
    nth_error X i = Some x -> nth_error X (i + 1) = Some y ->
    strictly_between t p q -> column_value part P X below t (Some (along x y (part t p q)))
| cv_below : (forall p, In p P -> (p < t)%Qc) -> column_value part P X below t below
| cv_top i p q x y :
    (forall r, In r P -> (t < r)%Qc) ->
    (goes_up P /\ i = 0 \/ goes_down P /\ i + 2 = length P) ->
    nth_error P i = Some p -> nth_error P (i + 1) = Some q ->
    nth_error X i = Some x -> nth_error X (i + 1) = Some y ->
    column_value part P X below t (Some (along x y (part t p q))).

(** what the logarithm has to satisfy *)
Definition log_like (lg : Qc -> Qc) : Prop :=
  lg 1%Qc = 0%Qc /\ forall a b, (0 < a)%Qc -> (a < b)%Qc -> (lg a < lg b)%Qc.
Definition all_positive (P : list Qc) : Prop := forall p, In p P -> (0 < p)%Qc.

(** method 1, or method 2 or 3 on positive coordinates with a proper logarithm *)
Definition usable (lg : Qc -> Qc) (intyp : Z) (P : list Qc) : Prop := intyp = 1%Z \/ (log_like lg /\ all_positive P).

(** hybrid pressure a*p0 + b*ps at every level *)
Definition hybrid_pressures (a b : list Qc) (p0 ps : Qc) : list Qc :=
  map (fun ab => (fst ab * p0 + snd ab * ps)%Qc) (combine a b).

(** [n] adjacent differences, and a total *)
Definition total (l : list Qc) : Qc := fold_right Qcplus 0%Qc l.
Definition distance (x y : Qc) : Qc := if (x <=? y)%Qc then (y - x)%Qc else (x - y)%Qc.

(** the distances between neighbours of a list *)
Fixpoint gaps (P : list Qc) : list Qc :=
  match P with
  | x :: ((y :: _) as r) => distance x y :: gaps r
  | _ => []
  end.
(** monotone in the weak sense, either way *)
Definition weakly_monotone (P : list Qc) : Prop :=
  (forall i j p q, i < j -> nth_error P i = Some p -> nth_error P j = Some q -> (p <= q)%Qc) \/
  (forall i j p q, i < j -> nth_error P i = Some p -> nth_error P j = Some q -> (q <= p)%Qc).

(** element (o, k, i), counted from 0, of an array of shape (no, nk, ni) stored
    row by row *)
Definition flat_index (nk ni o k i : nat) : nat := (o * nk + k) * ni + i.
Definition elt3 {T : Type} (a : list T) (nk ni o k i : nat) : option T := nth_error a (flat_index nk ni o k i).
(** its column (o, _, i) *)
Definition column3 {T : Type} (a : list T) (nk ni o i : nat) (c : list T) : Prop :=
  length c = nk /\ forall k, k < nk -> nth_error c k = elt3 a nk ni o k i.

(** ** ECMWF continuation below ground (Trenberth, Berry and Buja 1993), in Pa:
    [xb], [pb] the value and pressure of the lowest level, [ps] and [ph] the
    surface pressure and geopotential *)
Section Ecmwf.
Local Open Scope Qc_scope.
Variable lg : Qc -> Qc.
Definition gas : Qc := qz 28704 / qz 100.
Definition grav : Qc := qz 980616 / qz 100000.
Definition standard_lapse : Qc := qz 65 / qz 10000.
Definition smaller (x y : Qc) : Qc := if x <=? y then x else y.
(** surface temperature from the lowest level by the standard lapse rate *)
Definition t_star (xb pb ps : Qc) : Qc := xb * (1 + standard_lapse * gas / grav * (ps / pb - 1)).
(** sea-level temperature, bent to at most 298 K over plateaus *)
Definition t_plateau (ts h : Qc) : Qc :=
  let t0 := ts + standard_lapse * h in
  if h <=? qz 2500 then ((qz 2500 - h) * t0 + (h - qz 2000) * smaller t0 (qz 298)) / qz 500 else smaller t0 (qz 298).
Definition ecmwf_temperature (xb pb t ps ph : Qc) : Qc :=
  let ts := t_star xb pb ps in
  let h := ph / grav in
  let slope := if h <? qz 2000 then standard_lapse * gas / grav
               else if t_plateau ts h <? ts then 0 else gas * (t_plateau ts h - ts) / ph in
  let y := slope * lg (t / ps) in
  ts * (1 + y + y * y / qz 2 + y * y * y / qz 6).
Definition ecmwf_height (tb pb t ps ph : Qc) : Qc :=
  let ts := t_star tb pb ps in
  let h := ph / grav in
  let t0 := ts + standard_lapse * h in
  let hot := qz 581 / qz 2 in
  let slope := if hot <? t0 then (if hot <? ts then 0 else gas * (hot - ts) / ph) else standard_lapse * gas / grav in
  let ts' := if (hot <? t0) && (hot <? ts) then (hot + ts) / qz 2 else ts in
  let ts'' := if ts' <? qz 255 then (ts' + qz 255) / qz 2 else ts' in
  let y := slope * lg (t / ps) in
  h - gas * ts'' / grav * lg (t / ps) * (1 + y / qz 2 + y * y / qz 6).
End Ecmwf.

(** the value past the lowest level, by kind of variable *)
Definition below_value (lg : Qc -> Qc) (varflg : Z) (xb pb t ps tb ph : Qc) : Qc :=
  if (varflg =? 1)%Z then ecmwf_temperature lg xb pb t ps ph
  else if (varflg =? -1)%Z then ecmwf_height lg tb pb t ps ph
  else xb.
(** the level with the largest coordinate: coordinate and value *)
Definition lowest_level (P X : list Qc) (pb xb : Qc) : Prop :=
  exists j, nth_error P j = Some pb /\ nth_error X j = Some xb /\ forall r, In r P -> (r <= pb)%Qc.

(** ** Geopotential height *)
(** what the logarithm has to satisfy: 1 - 1/x < log x < x - 1 above 1 *)
Definition log_bounds (lg : Qc -> Qc) : Prop :=
  log_like lg /\ forall x, (1 < x)%Qc -> (1 - / x < lg x)%Qc /\ (lg x < x - 1)%Qc.
Definition gravity : Qc := (qz 980665 / qz 100000)%Qc.
(** a layer between two interface pressures: the lower one larger, the upper one
    positive, or (top layer only) non-positive with the lower one above 0.2 Pa *)
Definition layer_ok (k : nat) (pu pl : Qc) : Prop :=
  (pu < pl)%Qc /\ ((0 < pu)%Qc \/ k = 1 /\ (pu <= 0)%Qc /\ (qz 1 / qz 5 < pl)%Qc).
