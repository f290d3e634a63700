(** Specification of the curvilinear remapping kernels, independent of the model.
    Nodes are numbered from 1; fields are functions of the node numbers. *)
From Verif Require Import Base Buffer Loops TG_Model.
Local Open Scope nat_scope.

(** a strictly increasing axis *)
Definition ascending (x : list Qc) : Prop :=
  forall i j a b, i < j -> rd x i = Some a -> rd x j = Some b -> (a < b)%Qc.
(** consecutive values further apart than [e] *)
Definition spaced (e : Qc) (x : list Qc) : Prop :=
  forall i a b, rd x i = Some a -> rd x (i + 1) = Some b -> (a + e < b)%Qc.
(** the 2-D coordinate arrays are the outer product of two axes *)
Definition separable (nx ny : nat) (xi yi : nat -> nat -> Qc) (x y : list Qc) : Prop :=
  length x = nx /\ length y = ny /\
  forall ix iy, 1 <= ix <= nx -> 1 <= iy <= ny -> rd x ix = Some (xi ix iy) /\ rd y iy = Some (yi ix iy).

(** [h] is the first pair, rows first, that satisfies [P] among 1..nx, 1..ny *)
Definition first_pair (P : nat -> nat -> Prop) (nx ny : nat) (h : option (nat * nat)) : Prop :=
  match h with
  | Some (ix, iy) =>
      1 <= ix <= nx /\ 1 <= iy <= ny /\ P ix iy /\
      forall jx jy, 1 <= jx <= nx -> 1 <= jy <= ny -> P jx jy -> iy < jy \/ (iy = jy /\ ix <= jx)
  | None => forall jx jy, 1 <= jx <= nx -> 1 <= jy <= ny -> ~ P jx jy
  end.

(** |a - b| <= e *)
Definition within (e a b : Qc) : Prop := (b - e <= a /\ a <= b + e)%Qc.
(** the target lies in the box spanned by the corner (ix, iy) and its neighbours
    k steps to the east and to the north *)
Definition in_cell (xi yi : nat -> nat -> Qc) (k : nat) (xo yo : Qc) (ix iy : nat) : Prop :=
  (xi ix iy <= xo /\ xo <= xi (ix + k)%nat iy /\ yi ix iy <= yo /\ yo <= yi ix (iy + k)%nat)%Qc.

(** weighted mean of the pairs (value, weight) whose value is present *)
Definition present (m : Qc) (l : list (Qc * Qc)) : list (Qc * Qc) := filter (fun p => negb (Qceqb (fst p) m)) l.
Definition wmean (l : list (Qc * Qc)) : Qc := (qsum (map (fun p => fst p * snd p) l) / qsum (map snd l))%Qc.
(** inverse squared distance weights *)
Definition inverse_square (l : list (Qc * Qc)) : list (Qc * Qc) := map (fun p => (fst p, / (snd p * snd p))%Qc) l.

(** value that the corners (value, distance) give: the first present corner at
    distance zero; otherwise the inverse-square mean of the present ones when there
    are at least [ncrit]; otherwise missing *)
Definition corner_mean (m : Qc) (ncrit : Z) (l : list (Qc * Qc)) (v : Qc) : Prop :=
  (exists p, find (fun p => Qceqb (snd p) 0%Qc) (present m l) = Some p /\ v = fst p) \/
  (find (fun p => Qceqb (snd p) 0%Qc) (present m l) = None /\
   ((1 <= length (present m l) /\ (ncrit <= Z.of_nat (length (present m l)))%Z /\ v = wmean (inverse_square (present m l))) \/
    (length (present m l) = 0 \/ (Z.of_nat (length (present m l)) < ncrit)%Z) /\ v = m)).

(** the four corners of a cell as (value, distance) *)
Definition corners (dist : Qc -> Qc -> Qc -> Qc -> Qc) (xi yi : nat -> nat -> Qc) (f : nat -> nat -> Qc) (k : nat)
    (xo yo : Qc) (ix iy : nat) : list (Qc * Qc) :=
  map (fun c => (f (fst c) (snd c), dist yo xo (yi (fst c) (snd c)) (xi (fst c) (snd c))))
      [(ix, iy); (ix + k, iy); (ix, iy + k); (ix + k, iy + k)].

(** what the first pass of rcm2rgrid is meant to give at one target: the value of
    the first node within [eps] in both coordinates, if present; otherwise the
    corner mean of the first stride-2 cell that contains the target; else missing *)
Definition curv_target (nx ny : nat) (xi yi : nat -> nat -> Qc) (f : nat -> nat -> Qc)
    (dist : Qc -> Qc -> Qc -> Qc -> Qc) (m eps : Qc) (ncrit : Z) (xo yo v : Qc) : Prop :=
  exists e c,
    first_pair (fun ix iy => within eps xo (xi ix iy) /\ within eps yo (yi ix iy)) nx ny e /\
    first_pair (in_cell xi yi 2 xo yo) (nx - 2) (ny - 2) c /\
    let node := match e with Some (ix, iy) => f ix iy | None => m end in
    (node <> m /\ v = node \/
     node = m /\ match c with
                 | Some (ix, iy) => corner_mean m ncrit (corners dist xi yi f 2 xo yo ix iy) v
                 | None => v = m
                 end).

(** the bilinear interpolant of the cell values at (xo, yo) *)
Definition bilinear_at (x0 x1 y0 y1 f11 f21 f12 f22 xo yo : Qc) : Qc :=
  ((f11 * (x1 - xo) * (y1 - yo) + f21 * (xo - x0) * (y1 - yo) + f12 * (x1 - xo) * (yo - y0) + f22 * (xo - x0) * (yo - y0))
   / ((x1 - x0) * (y1 - y0)))%Qc.
(** the target is in the half-open cell (ix, iy) of a rectilinear grid *)
Definition in_half_open (x y : list Qc) (xo yo : Qc) (ix iy : nat) : Prop :=
  exists x0 x1 y0 y1, rd x ix = Some x0 /\ rd x (ix + 1) = Some x1 /\ rd y iy = Some y0 /\ rd y (iy + 1) = Some y1 /\
    (x0 <= xo /\ xo < x1 /\ y0 <= yo /\ yo < y1)%Qc.
Definition near_node (eps : Qc) (x y : list Qc) (xo yo : Qc) (ix iy : nat) : Prop :=
  exists a b, rd x ix = Some a /\ rd y iy = Some b /\ within eps xo a /\ within eps yo b.

(** between two bounds, or missing *)
Definition missing_or_between (m lo hi v : Qc) : Prop := v = m \/ (lo <= v /\ v <= hi)%Qc.

(** what rgrid2rcm is meant to give at one target on a rectilinear grid *)
Definition regular_target (x y : list Qc) (f : nat -> nat -> Qc) (dist : Qc -> Qc -> Qc -> Qc -> Qc) (m eps : Qc)
    (xo yo v : Qc) : Prop :=
  exists e c,
    first_pair (near_node eps x y xo yo) (length x) (length y) e /\
    first_pair (in_half_open x y xo yo) (length x - 1) (length y - 1) c /\
    let node := match e with Some (ix, iy) => f ix iy | None => m end in
    (node <> m /\ v = node \/
     node = m /\
     match c with
     | None => v = m
     | Some (ix, iy) =>
         let fs := [f ix iy; f (ix + 1) iy; f ix (iy + 1); f (ix + 1) (iy + 1)] in
         forall x0 x1 y0 y1, rd x ix = Some x0 -> rd x (ix + 1) = Some x1 -> rd y iy = Some y0 -> rd y (iy + 1) = Some y1 ->
         let ds := [dist yo xo y0 x0; dist yo xo y0 x1; dist yo xo y1 x0; dist yo xo y1 x1] in
         (Forall (fun u => u <> m) fs /\
            v = bilinear_at x0 x1 y0 y1 (f ix iy) (f (ix + 1) iy) (f ix (iy + 1)) (f (ix + 1) (iy + 1)) xo yo) \/
         (~ Forall (fun u => u <> m) fs /\ present m (combine fs ds) <> [] /\ v = wmean (inverse_square (present m (combine fs ds)))) \/
         (present m (combine fs ds) = [] /\ v = m)
     end).

(** what rcm2points is meant to give at one target.
    [corner_weights]: the four corners of a cell with their weights, inverse
    squared distances or, for |opt| = 2, the bilinear weights *)
Definition corner_weights (dist : Qc -> Qc -> Qc -> Qc -> Qc) (xi yi : nat -> nat -> Qc) (f : nat -> nat -> Qc) (opt : Z) (k : nat)
    (xo yo : Qc) (ix iy : nat) : list (Qc * Qc) :=
  if (Z.abs opt =? 2)%Z then
    let wx := ((xo - xi ix iy) / (xi (ix + k)%nat iy - xi ix iy))%Qc in
    let wy := ((yo - yi ix iy) / (yi ix (iy + k)%nat - yi ix iy))%Qc in
    [(f ix iy, (1 - wx) * (1 - wy)); (f (ix + k)%nat iy, wx * (1 - wy)); (f ix (iy + k)%nat, (1 - wx) * wy); (f (ix + k)%nat (iy + k)%nat, wx * wy)]%Qc
  else inverse_square (corners dist xi yi f k xo yo ix iy).
(** at least [ncrit] present values with a positive total weight give their mean *)
Definition enough_mean (m : Qc) (ncrit : Z) (l : list (Qc * Qc)) (v : Qc) : Prop :=
  let p := present m l in
  ((ncrit <= Z.of_nat (length p))%Z /\ (0 < qsum (map snd p))%Qc /\ v = wmean p) \/
  (((Z.of_nat (length p) < ncrit)%Z \/ ~ (0 < qsum (map snd p))%Qc) /\ v = m).
(** the nodes at a positive distance of at most [dkm] and at most 5 degrees of latitude away *)
Definition around (dist : Qc -> Qc -> Qc -> Qc -> Qc) (nx ny : nat) (xi yi : nat -> nat -> Qc) (f : nat -> nat -> Qc) (dkm xo yo : Qc) : list (Qc * Qc) :=
  flat_map (fun iy => flat_map (fun ix =>
    let d := dist yo xo (yi ix iy) (xi ix iy) in
    if Qcleb (yo - qz 5)%Qc (yi ix iy) && Qcleb (yi ix iy) (yo + qz 5)%Qc && (Qcleb d dkm && Qcltb 0%Qc d) then (f ix iy, d) :: nil else []) (seq 1 nx)) (seq 1 ny).
Definition points_target (nx ny : nat) (xi yi : nat -> nat -> Qc) (f : nat -> nat -> Qc) (dist : Qc -> Qc -> Qc -> Qc -> Qc)
    (m dkm : Qc) (opt ncrit : Z) (k : nat) (xo yo v : Qc) : Prop :=
  exists e c,
    first_pair (fun ix iy => xi ix iy = xo /\ yi ix iy = yo) nx ny e /\
    first_pair (in_cell xi yi k xo yo) (nx - k) (ny - k) c /\
    let node := match e with Some (ix, iy) => f ix iy | None => m end in
    (node <> m /\ v = node \/
     node = m /\ exists u,
       match c with
       | None => u = m
       | Some (ix, iy) =>
           ((Z.abs opt = 2)%Z /\ (xi ix iy = xi (ix + k)%nat iy \/ yi ix iy = yi ix (iy + k)%nat) /\ u = m) \/
           (~ ((Z.abs opt = 2)%Z /\ (xi ix iy = xi (ix + k)%nat iy \/ yi ix iy = yi ix (iy + k)%nat)) /\
            enough_mean m ncrit (corner_weights dist xi yi f opt k xo yo ix iy) u)
       end /\
       (u <> m /\ v = u \/
        u = m /\ (present m (around dist nx ny xi yi f dkm xo yo) = [] /\ v = m \/
                  present m (around dist nx ny xi yi f dkm xo yo) <> [] /\
                  v = wmean (inverse_square (present m (around dist nx ny xi yi f dkm xo yo)))))).

(** tolerances of the documentation: a target within these of a node is that node *)
Definition tol_curv : Qc := Q2Qc (1 # 10000).
Definition tol_regular : Qc := Q2Qc (1 # 1000).
(** nodes on two spaced axes *)
Definition on_axes (nx ny : nat) (xi yi : nat -> nat -> Qc) : Prop :=
  exists x y, separable nx ny xi yi x y /\ spaced tol_curv x /\ spaced tol_curv y.
(** first row and first column and the targets are all increasing *)
Definition lines_ascending (nx ny : nat) (xi yi : nat -> nat -> Qc) (xo yo : list Qc) : Prop :=
  ascending (map (fun ix => xi ix 1) (seq 1 nx)) /\ ascending (map (fun iy => yi 1 iy) (seq 1 ny)) /\ ascending xo /\ ascending yo.
(** every node is on one side of the target by more than [e] *)
Definition beyond (e : Qc) (nx ny : nat) (xi yi : nat -> nat -> Qc) (x y : Qc) : Prop :=
  let all (P : nat -> nat -> Prop) := forall ix iy, 1 <= ix <= nx -> 1 <= iy <= ny -> P ix iy in
  all (fun ix iy => x < xi ix iy - e)%Qc \/ all (fun ix iy => xi ix iy + e < x)%Qc \/
  all (fun ix iy => y < yi ix iy - e)%Qc \/ all (fun ix iy => yi ix iy + e < y)%Qc.
(** value number [i] of row [j] of field [g] *)
Definition entry {A : Type} (out : list (list (list A))) (g j i : nat) : option A :=
  match rd out g with Some plane => match rd plane j with Some row => rd row i | None => None end | None => None end.
(** no two nodes at the same place *)
Definition distinct_nodes (nx ny : nat) (xi yi : nat -> nat -> Qc) : Prop :=
  forall a b c d, 1 <= a <= nx -> 1 <= b <= ny -> 1 <= c <= nx -> 1 <= d <= ny -> xi a b = xi c d -> yi a b = yi c d -> a = c /\ b = d.
(** no node other than the target itself is at distance zero of it *)
Definition separates (nx ny : nat) (xi yi : nat -> nat -> Qc) (dist : Qc -> Qc -> Qc -> Qc -> Qc) (xo yo : Qc) : Prop :=
  forall ix iy, 1 <= ix <= nx -> 1 <= iy <= ny -> dist yo xo (yi ix iy) (xi ix iy) = 0%Qc -> yo = yi ix iy /\ xo = xi ix iy.
