(** What grid_to_triple and triple_to_grid should compute, stated without the
    loops of the code. *)
From Verif Require Import Base Buffer VH_Model TG_Model.
Local Open Scope nat_scope.

(** all cells of an (ny, mx) array in row order, with their coordinates *)
Definition cells (x y : list Qc) (z : list cell) : list triple :=
  map (fun k => (nth (k mod length x) x 0%Qc, (nth (k / length x) y 0%Qc, nth k z None)))
      (seq 0 (length x * length y)).
Definition present (missing : cell -> Prop) (o : triple) : Prop := ~ missing (tz o).
(** [out] are the members of [l] satisfying [P], in order *)
Inductive kept {A : Type} (P : A -> Prop) : list A -> list A -> Prop :=
| kept_nil : kept P [] []
| kept_yes a l out : P a -> kept P l out -> kept P (a :: l) (a :: out)
| kept_no a l out : ~ P a -> kept P l out -> kept P (a :: l) out.

(** node (m, n) of a grid, and the observations that lie exactly on it *)
Definition node (gx gy : list Qc) (m n : nat) (a b : Qc) : Prop := rd gx m = Some a /\ rd gy n = Some b.
Definition on_node (a b : Qc) (o : triple) : Prop := tx o = a /\ ty o = b.
(** [v] is the value of the last member of [obs] satisfying [P] *)
Definition last_value (P : triple -> Prop) (obs : list triple) (v : cell) : Prop :=
  exists l1 o l2, obs = l1 ++ o :: l2 /\ P o /\ tz o = v /\ (forall q, In q l2 -> ~ P q).
(** [v] is the value of the nearest usable member of [obs], the first of equals,
    or [missing] when there is none *)
Definition nearest_value (usable : triple -> Prop) (dist : triple -> Qc) (obs : list triple) (missing v : cell) : Prop :=
  (exists l1 o l2, obs = l1 ++ o :: l2 /\ usable o /\ tz o = v /\
     (forall q, In q l1 -> usable q -> (dist o < dist q)%Qc) /\
     (forall q, In q l2 -> usable q -> (dist o <= dist q)%Qc)) \/
  (v = missing /\ forall q, In q obs -> ~ usable q).

(** strictly increasing, and exactly equally spaced *)
Definition increasing (g : list Qc) : Prop :=
  forall i j a b, i < j -> rd g i = Some a -> rd g j = Some b -> (a < b)%Qc.
Definition equally_spaced (g : list Qc) (d : Qc) : Prop :=
  (0 < d)%Qc /\ exists g1, forall i a, rd g i = Some a -> a = (g1 + qz (Z.of_nat (i - 1)) * d)%Qc.

(** the nearest value of an axis, the upper one of two at the same distance;
    only for t between the first and (strictly) the last value *)
Definition nearest_index (g : list Qc) (t : Qc) (m : nat) : Prop :=
  (exists lo hi, rd g 1 = Some lo /\ rd g (length g) = Some hi /\ (lo <= t /\ t < hi)%Qc) /\
  exists a, rd g m = Some a /\
    (forall j b, rd g j = Some b -> (qcabs (t - a) <= qcabs (t - b))%Qc) /\
    (forall j b, rd g j = Some b -> qcabs (t - a) = qcabs (t - b) -> j <= m).
(** the index reached by counting whole steps [d] from [lo] towards [t], plus two *)
Definition steps_plus_two (lo d t : Qc) (m : Z) : Prop :=
  ((lo <= t)%Qc /\ (qz (m - 2) * d <= t - lo)%Qc /\ (t - lo < qz (m - 1) * d)%Qc) \/
  ((t < lo)%Qc /\ (qz (2 - m) * d <= lo - t)%Qc /\ (lo - t < qz (3 - m) * d)%Qc).

(** the element [i, j] of an (ny, mx) result should be node (j+1, i+1) of the grid *)
Definition grid_entry (mx : nat) (g : list cell) (i j : nat) : option cell := rd g (i * mx + (j + 1)).

(** the index given to [t] in the second pass: by counting steps on an axis
    flagged as equally spaced, else the nearest *)
Definition reached (flag : bool) (g : list Qc) (t : Qc) (m : nat) : Prop :=
  if flag then exists lo p q, rd g 1 = Some lo /\ rd g 2 = Some p /\ rd g 3 = Some q /\
                              steps_plus_two lo (qcabs (q - p)%Qc) t (Z.of_nat m)
  else nearest_index g t m.
(** the position of [t] between its two neighbours on the axis *)
Definition fraction (g : list Qc) (t s : Qc) : Prop :=
  exists n a b, rd g n = Some a /\ rd g (n + 1) = Some b /\ (a <= t)%Qc /\ (t < b)%Qc /\ s = ((t - a) / (b - a))%Qc.

(** every step of the axis is within a thousandth of the first *)
Definition nearly_equal (g : list Qc) : Prop :=
  exists a b, rd g 1 = Some a /\ rd g 2 = Some b /\
    forall m c d, 2 <= m -> rd g m = Some c -> rd g (m + 1) = Some d -> (qcabs ((d - c) - (b - a)) <= dec 1 1000)%Qc.
(** strictly inside or on the border of the rectangle of the grid *)
Definition in_grid (gx gy : list Qc) (o : triple) : Prop :=
  exists x1 xn y1 yn, rd gx 1 = Some x1 /\ rd gx (length gx) = Some xn /\ rd gy 1 = Some y1 /\ rd gy (length gy) = Some yn /\
    (x1 <= tx o <= xn)%Qc /\ (y1 <= ty o <= yn)%Qc.
(** an axis with one value more on each side, [domain] first (last) steps away *)
Definition widened (g : list Qc) (domain : Qc) (w : list Qc) : Prop :=
  exists g1 g2 gm gn, rd g 1 = Some g1 /\ rd g 2 = Some g2 /\ rd g (length g - 1) = Some gm /\ rd g (length g) = Some gn /\
    w = (g1 - domain * (g2 - g1))%Qc :: g ++ (gn + domain * (gn - gm))%Qc :: nil.
(** a square root as far as its order is concerned *)
Definition rootlike (f : Qc -> Qc) : Prop :=
  (forall q, (0 <= q)%Qc -> (0 <= f q)%Qc) /\ (forall p q, (0 <= p)%Qc -> (p < q)%Qc -> (f p < f q)%Qc).
Definition plane2 (a b : Qc) (o : triple) : Qc := ((tx o - a) * (tx o - a) + (ty o - b) * (ty o - b))%Qc.

(** arc length from the cosine of the angle, which is first forced into [-1, 1] *)
Definition arc (T : trig) (c : Qc) : Qc :=
  (ac T (if Qcleb 1 (if Qcleb (0 - 1) c then c else (0 - 1)) then 1 else if Qcleb (0 - 1) c then c else (0 - 1)) * re T)%Qc.
(** distance from an observation to the node (a, b): on the sphere, in the plane *)
Definition sphere (T : trig) (a b : Qc) (o : triple) : Qc :=
  let r := rad T in
  arc T (sn T (b * r) * sn T (ty o * r) + cs T (b * r) * cs T (ty o * r) * cs T ((tx o - a) * r))%Qc.
Definition plane (T : trig) (a b : Qc) (o : triple) : Qc := sq T (plane2 a b o).
(** what the second pass ranks by: on the sphere with the node's longitude in
    the place of its latitude in one sine; otherwise by the fractions [s1], [s2] of
    the way from the lower neighbours *)
Definition ranking (T : trig) (great_circle : bool) (a b s1 s2 : Qc) (o : triple) : Qc :=
  if great_circle then
    let r := rad T in
    arc T (sn T (ty o * r) * sn T (a * r) + cs T (ty o * r) * cs T (b * r) * cs T ((tx o - a) * r))%Qc
  else sq T (s1 * s1 + s2 * s2)%Qc.

(** the value of node (m, n) at (a, b): an observation on the node, the last one;
    else, unless all observations are on nodes, the best of the [usable] ones *)
Definition node_rule (gx gy : list Qc) (usable : triple -> Prop) (dist : triple -> Qc) (obs : list triple)
    (missing : cell) (a b : Qc) (v : cell) : Prop :=
  let all := forall o, In o obs -> exists m n, node gx gy m n (tx o) (ty o) in
  last_value (on_node a b) obs v \/
  ((forall o, In o obs -> ~ on_node a b o) /\
   ((all /\ v = missing) \/ (~ all /\ nearest_value usable dist obs missing v))).
(** the two coordinates [s1 o], [s2 o] used by [ranking]: fractions on axes that are not
    treated as equally spaced, and on the others what the variable held on entry *)
Definition coordinate (flag : bool) (g : list Qc) (entry t s : Qc) : Prop :=
  if flag then s = entry else forall s', fraction g t s' -> s = s'.
Definition second_pass (T : trig) (great_circle mflag nflag : bool) (gx gy : list Qc) (ddcrit : Qc) (s1 s2 : triple -> Qc)
    (obs : list triple) (missing : cell) (m n : nat) (a b : Qc) (v : cell) : Prop :=
  let dist o := ranking T great_circle a b (s1 o) (s2 o) o in
  node_rule gx gy
    (fun o => reached mflag gx (tx o) m /\ reached nflag gy (ty o) n /\ (dist o < far)%Qc /\ (dist o < ddcrit)%Qc)
    dist obs missing a b v.
Definition axes_fit (both : bool) (gx gy : list Qc) : Prop :=
  3 <= length gx /\ 3 <= length gy /\ increasing gx /\ increasing gy /\
  (both = true -> (exists d, equally_spaced gx d) /\ (exists d, equally_spaced gy d)).
