(** Model of src/skyborn/interp/regrid_module.c and of the parts of
    src/skyborn/interp/regridding.py that call it or stand in for it.

    Coordinates and weights are exact rationals; sin, pi/2 and the period are
    arguments.  A field value is a [cell], [option Qc] with [None] for NaN, and
    arithmetic on cells gives NaN as soon as one operand is NaN.  Arrays are
    0-based lists read by [nth_error]; a 2-D array is the list of its values in
    C order.  The outer [option] is [None] for a read out of bounds; an inner
    [option] is [None] for a raised exception.

    Left out: infinities, memory allocation failures, conversion of the Python
    arguments to arrays, and the xarray bookkeeping of regrid_dataset. *)
From Coq Require Import Qround.
From Verif Require Import Base Buffer Loops VH_Model TG_Model.
Local Open Scope nat_scope.

Definition raising (A : Type) := option (option A).
Definition ebind {A B : Type} (r : raising A) (k : A -> raising B) : raising B :=
  match r with
  | None => None
  | Some None => Some None
  | Some (Some a) => k a
  end.
Fixpoint emap {A B : Type} (f : A -> raising B) (l : list A) : raising (list B) :=
  match l with
  | [] => Some (Some [])
  | a :: r => ebind (f a) (fun b => ebind (emap f r) (fun bs => Some (Some (b :: bs))))
  end.
Definition ok {A : Type} (r : option A) : raising A := option_map Some r.

Definition cadd (a b : cell) : cell := match a, b with Some p, Some q => Some (p + q)%Qc | _, _ => None end.
Definition csub (a b : cell) : cell := match a, b with Some p, Some q => Some (p - q)%Qc | _, _ => None end.
Definition cmul (a : Qc) (b : cell) : cell := match b with Some q => Some (a * q)%Qc | None => None end.

(** regrid_module.c:12-21 *)
Fixpoint increasing_after (p : Qc) (l : list Qc) : bool :=
  match l with
  | [] => true
  | a :: r => if Qcltb p a then increasing_after a r else false
  end.
Definition is_strictly_increasing (l : list Qc) : bool :=
  match l with [] => true | a :: r => increasing_after a r end.

(** regrid_module.c:546-556, the loop; [fuel] bounds its iterations *)
Fixpoint bisect (fuel : nat) (x : Qc) (values : list Qc) (lo hi : nat) : option nat :=
  match fuel with
  | O => None
  | Datatypes.S fuel =>
      if hi - lo <=? 1 then Some lo
      else let* v := nth_error values (lo + (hi - lo) / 2) in
           if Qcleb v x then bisect fuel x values (lo + (hi - lo) / 2) hi
           else bisect fuel x values lo (lo + (hi - lo) / 2)
  end.
(** regrid_module.c:522-569: (left, frac), or an exception for the status -1 *)
Definition bracket_clamped (x : Qc) (values : list Qc) : raising (nat * Qc) :=
  if length values <=? 1 then Some (Some (0, 0%Qc))
  else
    let* v0 := nth_error values 0 in
    if Qcleb x v0 then Some (Some (0, 0%Qc))
    else
      let* vn := nth_error values (length values - 1) in
      if Qcleb vn x then Some (Some (length values - 2, 1%Qc))
      else
        let* lo := bisect (length values) x values 0 (length values - 1) in
        let* b := nth_error values (lo + 1) in
        let* a := nth_error values lo in
        if Qcleb (b - a)%Qc 0%Qc then Some None
        else Some (Some (lo, ((x - a) / (b - a))%Qc)).
(** regrid_module.c:592 and 603-612: one value of the result *)
Definition bilinear_value (field : list cell) (nlon nlat : nat) (px py : nat * Qc) : option cell :=
  let lon_right := if 1 <? nlon then fst px + 1 else fst px in
  let lat_right := if 1 <? nlat then fst py + 1 else fst py in
  let* v00 := nth_error field (fst px * nlat + fst py) in
  let* v10 := nth_error field (lon_right * nlat + fst py) in
  let* v01 := nth_error field (fst px * nlat + lat_right) in
  let* v11 := nth_error field (lon_right * nlat + lat_right) in
  let v0 := cadd v00 (cmul (snd px) (csub v10 v00)) in
  let v1 := cadd v01 (cmul (snd px) (csub v11 v01)) in
  Some (cadd v0 (cmul (snd py) (csub v1 v0))).
(** regrid_module.c:571-617: the rows of the result *)
Definition bilinear_core (field : list cell) (src_lon src_lat tgt_lon tgt_lat : list Qc) : raising (list (list cell)) :=
  emap (fun x =>
          ebind (bracket_clamped x src_lon) (fun px =>
            emap (fun y => ebind (bracket_clamped y src_lat) (fun py =>
                     ok (bilinear_value field (length src_lon) (length src_lat) px py)))
                 tgt_lat))
       tgt_lon.
Definition empty {A : Type} (l : list A) : bool := match l with [] => true | _ => false end.
(** regrid_module.c:654-697 (and 758-790 for one plane of the n-dimensional entry) *)
Definition bilinear_regrid (field : list cell) (src_lon src_lat tgt_lon tgt_lat : list Qc) : raising (list (list cell)) :=
  if negb (length field =? length src_lon * length src_lat) then Some None
  else if empty src_lon || empty src_lat || empty tgt_lon || empty tgt_lat then Some None
  else if negb (is_strictly_increasing src_lon && is_strictly_increasing src_lat
                && is_strictly_increasing tgt_lon && is_strictly_increasing tgt_lat) then Some None
  else bilinear_core field src_lon src_lat tgt_lon tgt_lat.
(** regrid_module.c:809-838: the planes one after the other *)
Definition bilinear_regrid_nd (planes : list (list cell)) (src_lon src_lat tgt_lon tgt_lat : list Qc)
  : raising (list (list (list cell))) :=
  emap (fun field => bilinear_regrid field src_lon src_lat tgt_lon tgt_lat) planes.

(** numpy.interp for increasing [xs] and no left/right/period arguments, as its
    compiled loop does it: the interval found by bisection, the sample itself on a sample
    point, otherwise slope * (x - xs[j]) + ys[j] *)
Definition np_interp (xs : list Qc) (ys : list cell) (x : Qc) : option cell :=
  let n := length xs in
  let* x0 := nth_error xs 0 in
  let* xn := nth_error xs (n - 1) in
  if Qcltb x x0 then nth_error ys 0
  else if Qcleb xn x then nth_error ys (n - 1)
  else let* j := bisect n x xs 0 (n - 1) in
       let* a := nth_error xs j in let* b := nth_error xs (j + 1) in
       let* u := nth_error ys j in let* v := nth_error ys (j + 1) in
       if Qceqb a x then Some u
       else if Qceqb (b - a)%Qc 0%Qc then None
       else Some (cadd (cmul (x - a)%Qc (cmul (/ (b - a))%Qc (csub v u))) u).
(** regridding.py:440-450: the fallback, latitude first; row [i] of the field is
    the [length src_lat] values from position [i * length src_lat] *)
Definition field_row (field : list cell) (nlat i : nat) : list cell := firstn nlat (skipn (i * nlat) field).
Definition bilinear_fallback (field : list cell) (src_lon src_lat tgt_lon tgt_lat : list Qc) : option (list (list cell)) :=
  let* lat_interp := mapM (fun i => mapM (np_interp src_lat (field_row field (length src_lat) i)) tgt_lat)
                          (seq 0 (length src_lon)) in
  mapM (fun x => mapM (fun j => let* col := mapM (fun row => nth_error row j) lat_interp in np_interp src_lon col x)
                      (seq 0 (length tgt_lat)))
       tgt_lon.
(** regridding.py:55-66 *)
Definition supports_native (src_lon src_lat tgt_lon tgt_lat : list Qc) : bool :=
  (1 <? length src_lon) && (1 <? length src_lat) && (0 <? length tgt_lon) && (0 <? length tgt_lat)
  && is_strictly_increasing src_lon && is_strictly_increasing src_lat
  && is_strictly_increasing tgt_lon && is_strictly_increasing tgt_lat.
(** regridding.py:416-450 *)
Definition bilinear_2d (field : list cell) (src_lon src_lat tgt_lon tgt_lat : list Qc) : raising (list (list cell)) :=
  if negb (length field =? length src_lon * length src_lat) then Some None
  else if supports_native src_lon src_lat tgt_lon tgt_lat then bilinear_regrid field src_lon src_lat tgt_lon tgt_lat
  else ok (bilinear_fallback field src_lon src_lat tgt_lon tgt_lat).

(** regrid_module.c:23-58: one row; 1e-15 *)
Definition tiny : Qc := dec 1 (10 ^ 15).
Definition normalize_row (row : list Qc) : list Qc :=
  let row_sum := fold_left Qcplus row 0%Qc in
  if Qcltb tiny row_sum then map (fun w => (w / row_sum)%Qc) row
  else map (fun _ => (1 / qz (Z.of_nat (length row)))%Qc) row.
(** regrid_module.c:107-115 (also regridding.py:489-491) *)
Fixpoint midpoints (l : list Qc) : list Qc :=
  match l with
  | a :: (b :: _) as r => (dec 1 2 * (a + b))%Qc :: midpoints r
  | _ => []
  end.
Definition lat_bounds (h : Qc) (l : list Qc) : list Qc := (- h)%Qc :: midpoints l ++ [h].
(** the cells between neighbouring bounds *)
Definition cells_of (bounds : list Qc) : list (Qc * Qc) := combine bounds (tl bounds).
(** regrid_module.c:131-134, fmin and fmax *)
Definition lat_overlap (sn : Qc -> Qc) (t s : Qc * Qc) : Qc :=
  let upper := qcmin (snd t) (snd s) in
  let lower := qcmax (fst t) (fst s) in
  if Qcltb lower upper then (sn upper - sn lower)%Qc else 0%Qc.
(** regrid_module.c:60-155; [None] is a raised ValueError *)
Definition conservative_latitude_weights (sn : Qc -> Qc) (h : Qc) (src tgt : list Qc) : option (list (list Qc)) :=
  if empty src || empty tgt then None
  else if negb (is_strictly_increasing src && is_strictly_increasing tgt) then None
  else Some (map (fun t => normalize_row (map (lat_overlap sn t) (cells_of (lat_bounds h src))))
                 (cells_of (lat_bounds h tgt))).

(** regrid_module.c:157-163 *)
Definition align_phase_with (x target period : Qc) : Qc :=
  let x1 := if Qcltb (target + period / qz 2)%Qc x then (x - period)%Qc else x in
  if Qcltb x1 (target - period / qz 2)%Qc then (x1 + period)%Qc else x1.
(** C's fmod, and regrid_module.c:220-224 (also 225-229) *)
Definition c_fmod (x period : Qc) : Qc := (x - period * qz (f_int (x / period)))%Qc.
Definition reduce (period x : Qc) : Qc :=
  let m := c_fmod x period in if Qcltb m 0%Qc then (m + period)%Qc else m.
(** regrid_module.c:231-237 (also 239-245): (lower, upper) of every cell *)
Definition lon_bounds (period : Qc) (mods : list Qc) : option (list (Qc * Qc)) :=
  let n := length mods in
  mapM (fun i =>
          let* x := nth_error mods i in
          let* next := nth_error mods ((i + 1) mod n) in
          let* prev := nth_error mods ((i + n - 1) mod n) in
          Some ((dec 1 2 * (align_phase_with prev x period + x))%Qc, (dec 1 2 * (x + align_phase_with next x period))%Qc))
       (seq 0 n).
(** regrid_module.c:265-270; [t], [s] are (lower, upper) of the target and source cell *)
Definition lon_overlap (period : Qc) (t s : Qc * Qc) : Qc :=
  let y0 := align_phase_with (fst s) (fst t) period in
  let y1 := align_phase_with (snd s) (fst t) period in
  let upper := qcmin (snd t) y1 in
  let lower := qcmax (fst t) y0 in
  if Qcltb 0%Qc (upper - lower)%Qc then (upper - lower)%Qc else 0%Qc.
(** regrid_module.c:165-295 *)
Definition conservative_longitude_weights (period : Qc) (src tgt : list Qc) : raising (list (list Qc)) :=
  if empty src || empty tgt then Some None
  else if negb (is_strictly_increasing src && is_strictly_increasing tgt) then Some None
  else
    let* sb := lon_bounds period (map (reduce period) src) in
    let* tb := lon_bounds period (map (reduce period) tgt) in
    Some (Some (map (fun t => normalize_row (map (lon_overlap period t) sb)) tb)).

(** regrid_module.c:393-415 (also 417-439): first and one past the last positive weight *)
Definition window (row : list Qc) : option (nat * nat) :=
  let n := length row in
  let* st := foldM (fun st i => let* w := nth_error row i in
                      Some (if Qcltb 0%Qc w then (if fst st =? n then i else fst st, i + 1) else st))
                   (seq 0 n) (n, 0) in
  Some (if fst st =? n then (0, n) else st).
(** regrid_module.c:455-470: (total, count) of one source row *)
Definition lat_step (field : list cell) (nlat i : nat) (row : list Qc) (w : nat * nat) : option (Qc * Qc) :=
  foldM (fun acc k =>
           let* value := nth_error field (i * nlat + k) in
           let* weight := nth_error row k in
           Some (match value with
                 | Some v => ((fst acc + weight * v)%Qc, (snd acc + weight)%Qc)
                 | None => acc
                 end))
        (seq (fst w) (snd w - fst w)) (0%Qc, 0%Qc).
(** regrid_module.c:482-493; [tmp] is tmp_total and tmp_count, (nsrc_lon, ntgt_lat) *)
Definition lon_step (tmp : list (list (Qc * Qc))) (j : nat) (row : list Qc) (w : nat * nat) : option cell :=
  let* p := foldM (fun acc k =>
                     let* weight := nth_error row k in
                     let* line := nth_error tmp k in
                     let* t := nth_error line j in
                     Some ((fst acc + weight * fst t)%Qc, (snd acc + weight * snd t)%Qc))
                  (seq (fst w) (snd w - fst w)) (0%Qc, 0%Qc) in
  Some (if Qcltb 0%Qc (snd p) then Some (fst p / snd p)%Qc else None).
(** regrid_module.c:393-496 for one plane of shape (nlon, nlat) *)
Definition regrid_plane (nlon nlat : nat) (field : list cell) (lonw latw : list (list Qc)) : option (list (list cell)) :=
  let* lonwin := mapM window lonw in
  let* latwin := mapM window latw in
  let* tmp := mapM (fun i => mapM (fun rw => lat_step field nlat i (fst rw) (snd rw)) (combine latw latwin)) (seq 0 nlon) in
  mapM (fun rw => mapM (fun j => lon_step tmp j (fst rw) (snd rw)) (seq 0 (length latw))) (combine lonw lonwin).
(** regrid_module.c:297-520: the planes one after the other; a mismatch of shapes raises *)
Definition conservative_regrid (nlon nlat : nat) (planes : list (list cell)) (lonw latw : list (list Qc))
  : raising (list (list (list cell))) :=
  if negb (forallb (fun r => length r =? nlon) lonw && forallb (fun r => length r =? nlat) latw) then Some None
  else ok (mapM (fun field => regrid_plane nlon nlat field lonw latw) planes).
(** regridding.py:653-674: the fallback, einsum "ac,bd,...cd->...ab" of the field with
    zeros for NaN and of the validity *)
Definition einsum (nlon nlat : nat) (g : nat -> Qc) (a b : list Qc) : Qc :=
  qsum (map (fun c => qsum (map (fun d => (nth c a 0 * nth d b 0 * g (c * nlat + d)%nat)%Qc) (seq 0 nlat))) (seq 0 nlon)).
Definition python_nanmean (nlon nlat : nat) (field : list cell) (lonw latw : list (list Qc)) : list (list cell) :=
  map (fun a => map (fun b =>
         let total := einsum nlon nlat (fun k => match nth k field None with Some v => v | None => 0%Qc end) a b in
         let count := einsum nlon nlat (fun k => match nth k field None with Some _ => 1%Qc | None => 0%Qc end) a b in
         if Qceqb count 0%Qc then None else Some (total / count)%Qc) latw) lonw.

(** regrid_module.c:963-985: the search over all source points; score is a function of the two
    source indices.  The tie rule of lines 976-977 is kept as written *)
Definition nearest_index_of (nlon nlat : nat) (score : nat -> nat -> Qc) : nat :=
  fst (fold_left (fun best p =>
                    let cur := fst p * nlat + snd p in
                    let s := score (fst p) (snd p) in
                    if Qcltb (snd best) s || (Qcleb (qcabs (s - snd best)%Qc) tiny && (cur <? fst best))
                    then (cur, s) else best)
                 (flat_map (fun i => map (fun j => (i, j)) (seq 0 nlat)) (seq 0 nlon)) (0, (- qz 2)%Qc)).
(** regrid_module.c:1076-1110 (one plane): bounds test of every index, then the gather *)
Definition nearest_apply {A : Type} (plane : list A) (ntgt : nat) (indices : list Z) : raising (list A) :=
  if negb (length indices =? ntgt) then Some None
  else if existsb (fun i => (i <? 0)%Z || (Z.of_nat (length plane) <=? i)%Z) indices then Some None
  else ok (mapM (fun i => nth_error plane (Z.to_nat i)) indices).
