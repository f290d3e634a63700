(** What regridding should compute, stated without the loops of the code. *)
From Verif Require Import Base Buffer Loops.
Local Open Scope nat_scope.

Definition ascending (l : list Qc) : Prop :=
  forall i j a b, i < j -> nth_error l i = Some a -> nth_error l j = Some b -> (a < b)%Qc.

(** [x] lies the fraction [f] of the way from sample [k] to the next one; positions before the
    first or after the last sample are those of the end samples *)
Definition position (xs : list Qc) (x : Qc) (k : nat) (f : Qc) : Prop :=
  (length xs = 1 /\ k = 0 /\ f = 0%Qc) \/
  exists a b, nth_error xs k = Some a /\ nth_error xs (k + 1) = Some b /\
    (((x <= a)%Qc /\ k = 0 /\ f = 0%Qc) \/ ((b <= x)%Qc /\ k + 2 = length xs /\ f = 1%Qc) \/
     ((a <= x)%Qc /\ (x < b)%Qc /\ (f * (b - a) = x - a)%Qc)).
(** bilinear interpolation of the values [F i j] given at (xs_i, ys_j) *)
Definition bilinear_at (xs ys : list Qc) (F : nat -> nat -> Qc) (x y v : Qc) : Prop :=
  exists k f l g, position xs x k f /\ position ys y l g /\
    v = ((1 - f) * (1 - g) * F k l + f * (1 - g) * F (k + 1)%nat l + (1 - f) * g * F k (l + 1)%nat + f * g * F (k + 1)%nat (l + 1)%nat)%Qc.
(** the array holds the values of [F], no NaN *)
Definition holds (nlon nlat : nat) (field : list (option Qc)) (F : nat -> nat -> Qc) : Prop :=
  length field = nlon * nlat /\ forall i j, i < nlon -> j < nlat -> nth_error field (i * nlat + j) = Some (Some (F i j)).
(** [x] moved into the range of [xs] *)
Definition into_range (xs : list Qc) (x c : Qc) : Prop :=
  exists lo hi, nth_error xs 0 = Some lo /\ nth_error xs (length xs - 1) = Some hi /\
    (((x < lo)%Qc /\ c = lo) \/ ((lo <= x <= hi)%Qc /\ c = x) \/ ((hi < x)%Qc /\ c = hi)).
(** rows.[i].[j] *)
Definition entry {A : Type} (rows : list (list A)) (i j : nat) : option A :=
  match nth_error rows i with Some r => nth_error r j | None => None end.
Definition shaped {A : Type} (rows : list (list A)) (n m : nat) : Prop :=
  length rows = n /\ forall r, In r rows -> length r = m.

(** a sum over i < n *)
Definition sum (n : nat) (f : nat -> Qc) : Qc := qsum (map f (seq 0 n)).

(** latitude cells: bounds half way between the points, and the poles [-h], [h] *)
Definition lat_lower (h : Qc) (l : list Qc) (i : nat) : Qc :=
  match i with O => (- h)%Qc | Datatypes.S p => ((nth p l 0 + nth (p + 1) l 0) / qz 2)%Qc end.
Definition lat_upper (h : Qc) (l : list Qc) (i : nat) : Qc :=
  if i + 1 =? length l then h else ((nth i l 0 + nth (i + 1) l 0) / qz 2)%Qc.
(** area of a band between two latitudes (sine is the integral of the cosine) *)
Definition lat_area (sn : Qc -> Qc) (h : Qc) (l : list Qc) (i : nat) : Qc := (sn (lat_upper h l i) - sn (lat_lower h l i))%Qc.
(** length of the part of [a, b] inside [c, d] *)
Definition common (a b c d : Qc) : Qc :=
  let u := if Qcleb b d then b else d in
  let l := if Qcleb a c then c else a in
  if Qcleb u l then 0%Qc else (u - l)%Qc.
(** area of the part of the band [a, b] inside the band [c, d] *)
Definition common_area (sn : Qc -> Qc) (a b c d : Qc) : Qc :=
  let u := if Qcleb b d then b else d in
  let l := if Qcleb a c then c else a in
  if Qcleb u l then 0%Qc else (sn u - sn l)%Qc.
(** length on the circle of circumference [P]: over all turns of [c, d] *)
Definition circle_common (P a b c d v : Qc) : Prop :=
  exists K : nat, forall K' : nat, K <= K' ->
    v = sum (2 * K' + 1) (fun k => common a b (c + qz (Z.of_nat k - Z.of_nat K') * P)%Qc (d + qz (Z.of_nat k - Z.of_nat K') * P)%Qc).

(** a longitude grid whose cells (bounds half way to the neighbours, around the circle) are all shorter
    than half the circle *)
Definition lon_next (P : Qc) (l : list Qc) (i : nat) : Qc :=
  if i + 1 =? length l then (nth 0 l 0 + P)%Qc else nth (i + 1) l 0%Qc.
Definition lon_prev (P : Qc) (l : list Qc) (i : nat) : Qc :=
  match i with O => (nth (length l - 1) l 0 - P)%Qc | Datatypes.S p => nth p l 0%Qc end.
Definition lon_lower (P : Qc) (l : list Qc) (i : nat) : Qc := ((lon_prev P l i + nth i l 0) / qz 2)%Qc.
Definition lon_upper (P : Qc) (l : list Qc) (i : nat) : Qc := ((nth i l 0 + lon_next P l i) / qz 2)%Qc.
Definition lon_width (P : Qc) (l : list Qc) (i : nat) : Qc := (lon_upper P l i - lon_lower P l i)%Qc.
Definition global (P : Qc) (l : list Qc) : Prop :=
  0 < length l /\ ascending l /\ forall i, i < length l -> (0 < lon_next P l i - nth i l 0)%Qc /\ (lon_next P l i - nth i l 0 < P / qz 2)%Qc.

(** latitudes between the poles, south to north *)
Definition lat_grid (h : Qc) (l : list Qc) : Prop :=
  (0 < h)%Qc /\ 0 < length l /\ ascending l /\ forall x, In x l -> (- h <= x)%Qc /\ (x <= h)%Qc.
Definition nondecreasing_on (lo hi : Qc) (g : Qc -> Qc) : Prop :=
  forall x y, (lo <= x)%Qc -> (x <= y)%Qc -> (y <= hi)%Qc -> (g x <= g y)%Qc.
(** a value of a weight or field matrix; 0 outside *)
Definition at_ (rows : list (list Qc)) (i j : nat) : Qc := match entry rows i j with Some w => w | None => 0%Qc end.

(** the weighted mean of the present values: weight [a c * b d] for the value at (c, d) *)
Definition present (field : list (option Qc)) (k : nat) (v : Qc) : Prop := nth_error field k = Some (Some v).
Definition total_weight (nlon nlat : nat) (field : list (option Qc)) (a b : nat -> Qc) : Qc :=
  sum nlon (fun c => sum nlat (fun d => match nth_error field (c * nlat + d) with Some (Some _) => (a c * b d)%Qc | _ => 0%Qc end)).
Definition total_value (nlon nlat : nat) (field : list (option Qc)) (a b : nat -> Qc) : Qc :=
  sum nlon (fun c => sum nlat (fun d => match nth_error field (c * nlat + d) with Some (Some v) => (a c * b d * v)%Qc | _ => 0%Qc end)).
Definition mean_at (nlon nlat : nat) (field : list (option Qc)) (a b : nat -> Qc) (r : option Qc) : Prop :=
  ((0 < total_weight nlon nlat field a b)%Qc /\ r = Some (total_value nlon nlat field a b / total_weight nlon nlat field a b)%Qc) \/
  ((total_weight nlon nlat field a b <= 0)%Qc /\ r = None).
Definition nonneg_rows (W : list (list Qc)) (m : nat) : Prop := forall r, In r W -> length r = m /\ forall w, In w r -> (0 <= w)%Qc.
Definition narrow (P : Qc) (s t : list Qc) : Prop :=
  forall i j, i < length t -> j < length s -> (lon_width P t i + lon_width P s j <= P / qz 2)%Qc.
