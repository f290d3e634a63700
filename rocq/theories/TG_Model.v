(** Model of src/skyborn/interp/fortran/grid2triple.f90, of
    src/skyborn/interp/fortran/triple2grid.f90, of their C entry points
    (grid2triple_module.c, triple2grid_module.c) and of the wrappers in
    src/skyborn/interp/triple_to_grid.py and missing_values.py.

    Coordinates and distances are exact rationals.  A data value is a [cell],
    [option Qc] with [None] for NaN (a comparison with NaN is false, so
    [z /= zmsg] holds of a NaN).  The outer [option]: [None] is a read or write
    out of bounds or a division by zero.  sqrt, sin, cos, acos and the constants
    rad and re are the fields of an argument [trig].  A 2-D Fortran array
    a(mx, ny) is the list of its values in storage order, a(m, n) at position
    (n-1)*mx + m.

    Simplifications: infinities are left out; the compound tests of
    triple2grid.f90:198-199 and 323-324 are read left to right (Fortran leaves
    the order open, the last operand then reads outside the axis); machine
    integers do not wrap; dask chunking and xarray bookkeeping are left out. *)
From Coq Require Import Qround.
From Verif Require Import Base Buffer Loops VH_Model.
Local Open Scope nat_scope.

Definition cell := option Qc.
Definition triple := (Qc * (Qc * cell))%type.
Definition tx (o : triple) : Qc := fst o.
Definition ty (o : triple) : Qc := fst (snd o).
Definition tz (o : triple) : cell := snd (snd o).

(** Fortran int() and nint(): towards zero, and to the nearest integer with
    halves away from zero *)
Definition f_int (q : Qc) : Z :=
  if Qcleb 0%Qc q then Qfloor q else (- Qfloor (- q)%Qc)%Z.
Definition f_nint (q : Qc) : Z :=
  if Qcleb 0%Qc q then Qfloor (q + dec 1 2)%Qc else (- Qfloor (- q + dec 1 2)%Qc)%Z.

(** [a == v] and [a /= v] on data values *)
Definition cell_is (v : Qc) (a : cell) : bool :=
  match a with Some q => Qceqb q v | None => false end.

(** grid2triple.f90:49-56, the body of the inner loop *)
Definition pack_cell (x : list Qc) (z : list cell) (zmsg : Qc) (n : nat) (y_n : Qc)
    (st : nat * list triple) (m : nat) : option (nat * list triple) :=
  let* v := rd z ((n - 1) * length x + m) in
  if cell_is zmsg v then Some st
  else let* x_m := rd x m in
       let* d := wrx (snd st) (fst st + 1) (x_m, (y_n, v)) in
       Some (fst st + 1, d).
(** grid2triple.f90:13-63: (d, (ld, ier)); [d] has ldmax rows *)
Definition grid2triple_impl (x y : list Qc) (z : list cell) (d : list triple) (zmsg : Qc)
  : option (list triple * (nat * Z)) :=
  let* st := foldM (fun st n => let* y_n := rd y n in
                                foldM (pack_cell x z zmsg n y_n) (seq 1 (length x)) st)
                   (seq 1 (length y)) (0, d) in
  Some (snd st, (fst st, if fst st =? 0 then (-10)%Z else 0%Z)).

(** missing_values.py:36-66 for a floating array: values equal to msg_py (NaN
    when msg_py is NaN) are overwritten in place *)
Definition is_msg (msg_py : cell) (a : cell) : bool :=
  match msg_py with
  | None => match a with None => true | Some _ => false end
  | Some m => cell_is m a
  end.
Definition py2fort_msg (a : list cell) (msg_py : cell) (msg_fort : Qc) : list cell :=
  map (fun v => if is_msg msg_py v then Some msg_fort else v) a.
(** missing_values.py:71-98 for a floating array, also in place *)
Definition fort2py_msg (a : list cell) (msg_fort : Qc) (msg_py : cell) : list cell :=
  map (fun v => if cell_is msg_fort v then msg_py else v) a.

(** triple_to_grid.py:44-60 and 96-112: is the in-place rewrite done? *)
Definition needs_rewrite (a : list cell) (msg_py : cell) (msg_fort : Qc) : bool :=
  match msg_py with
  | None => existsb (is_msg None) a
  | Some m => negb (Qceqb m msg_fort) && existsb (is_msg msg_py) a
  end.

(** triple_to_grid.py:34-74 with grid2triple_module.c:50-104.  [z] is the
    caller's (ny, mx) array in C order, which is the storage order of its
    transpose; [d] is the block of mx*ny rows that grid2triple_module.c:69-72
    allocates without clearing; [convertible] says that the coordinates convert
    to double (grid2triple_module.c:50-67; if not, the call raises).
    Result: (None for a raised exception, otherwise the triples; the caller's
    array afterwards).  [msg_py] is the value after the default of lines 39-40. *)
Definition grid_to_triple (convertible : bool) (x y : list Qc) (z : list cell) (d : list triple)
    (msg_py : cell) (msg_fort : Qc) : option (option (list triple) * list cell) :=
  let rewrite := needs_rewrite z msg_py msg_fort in
  let z1 := if rewrite then py2fort_msg z msg_py msg_fort else z in
  if negb (convertible && (length z =? length x * length y)) then Some (None, z1)
  else let* r := grid2triple_impl x y z1 d msg_fort in
       Some (Some (firstn (fst (snd r)) (fst r)),
             if rewrite then fort2py_msg z1 msg_fort msg_py else z1).

Record trig := { sq : Qc -> Qc; sn : Qc -> Qc; cs : Qc -> Qc; ac : Qc -> Qc; rad : Qc; re : Qc }.

(** triple2grid.f90:57, 189 and 315: the value 1.0d20 *)
Definition far : Qc := qz (10 ^ 20).

(** triple2grid.f90:87-105: approximately equal spacing of one axis *)
Definition ddeps : Qc := dec 1 1000.
Fixpoint equal_steps (dd : Qc) (g : list Qc) (ms : list nat) : option bool :=
  match ms with
  | [] => Some true
  | m :: r =>
      let* b := rd g (m + 1) in let* a := rd g m in
      if Qcltb dd (b - a - ddeps)%Qc || Qcltb (b - a + ddeps)%Qc dd then Some false
      else equal_steps dd g r
  end.
Definition spacing_flag (g : list Qc) : option bool :=
  let* b := rd g 2 in let* a := rd g 1 in
  equal_steps (qcabs (b - a)%Qc) g (seq 2 (length g - 2)).

(** triple2grid.f90:186-187, 312-313 *)
Definition axis_step (g : list Qc) : option Qc :=
  let* b := rd g 3 in let* a := rd g 2 in Some (qcabs (b - a)%Qc).

(** triple2grid.f90:196, 198 (also 197, 199, 321-324): the index of an axis value found
    by arithmetic; [None] inside is the code's -1 *)
Definition index_by_step (g : list Qc) (d t : Qc) : option (option nat) :=
  let* g1 := rd g 1 in
  if Qceqb d 0%Qc then None
  else let mm := (f_nint ((t - g1) / d)%Qc + 1)%Z in
       if (mm <? 1)%Z || (Z.of_nat (length g) <? mm)%Z then Some None
       else let* v := rd g (Z.to_nat mm) in
            Some (if Qceqb t v then Some (Z.to_nat mm) else None).
(** triple2grid.f90:210-218 (also 335-343): the first index holding the value *)
Fixpoint first_index (g : list Qc) (t : Qc) (m : nat) : option nat :=
  match g with
  | [] => None
  | v :: r => if Qceqb t v then Some m else first_index r t (m + 1)
  end.
(** triple2grid.f90:207-221 (also 332-346): rows whose y matches, first with a
    matching x *)
Fixpoint first_node (gx gy : list Qc) (x y : Qc) (n : nat) : option (nat * nat) :=
  match gy with
  | [] => None
  | v :: r =>
      if Qceqb y v then
        match first_index gx x 1 with
        | Some m => Some (m, n)
        | None => first_node gx r x y (n + 1)
        end
      else first_node gx r x y (n + 1)
  end.
(** triple2grid.f90:195-222 (also 320-347): the node an observation coincides with *)
Definition exact_node (both : bool) (gx gy : list Qc) (dx dy : Qc) (o : triple) : option (option (nat * nat)) :=
  if both then
    let* mm := index_by_step gx dx (tx o) in
    let* nn := index_by_step gy dy (ty o) in
    Some (match mm, nn with Some m, Some n => Some (m, n) | _, _ => None end)
  else Some (first_node gx gy (tx o) (ty o) 1).

(** gout and dout *)
Definition grids := (list cell * list Qc)%type.
Definition store (mx : nat) (s : grids) (m n : nat) (v : cell) (dd : Qc) : option grids :=
  let* g := wrx (fst s) ((n - 1) * mx + m) v in
  let* d := wrx (snd s) ((n - 1) * mx + m) dd in
  Some (g, d).
(** triple2grid.f90:189-223 (also 315-348): the exact-match prepass; the count
    is ksum *)
Definition prepass (both : bool) (gx gy : list Qc) (dx dy : Qc) (obs : list triple) (zmsg : Qc)
  : option (grids * nat) :=
  let size := length gx * length gy in
  foldM (fun st o =>
           let* hit := exact_node both gx gy dx dy o in
           match hit with
           | Some p => let* s := store (length gx) (fst st) (fst p) (snd p) (tz o) 0%Qc in
                       Some (s, snd st + 1)
           | None => Some st
           end)
        obs ((repeat (Some zmsg) size, repeat far size), 0).

(** triple2grid.f90:238-246 (also 253-261): the bracketing scan of an unequal
    axis; the slope keeps its old value when nothing is found *)
Fixpoint bracket_scan (g : list Qc) (t slp : Qc) (ns : list nat) : option (Z * Qc) :=
  match ns with
  | [] => Some ((-1)%Z, slp)
  | n :: r =>
      let* a := rd g n in let* b := rd g (n + 1) in
      if Qcleb a t && Qcltb t b then
        let slp := ((t - a) / (b - a))%Qc in
        Some (f_nint (qz (Z.of_nat n) + slp)%Qc, slp)
      else bracket_scan g t slp r
  end.
(** triple2grid.f90:234-247 (also 249-262) *)
Definition assign_axis (flag : bool) (g : list Qc) (d t slp : Qc) : option (Z * Qc) :=
  if flag then
    let* g1 := rd g 1 in
    if Qceqb d 0%Qc then None else Some ((f_int ((t - g1) / d)%Qc + 2)%Z, slp)
  else bracket_scan g t slp (seq 1 (length g - 1)).

(** triple2grid.f90:269 and 372-374, with the code's choice of [lat2]: the cosine of
    the angle between (lon1, lat1) and (lon2, lat2), and the clamp of 270, 375 *)
Definition cos_angle {A : Type} (add sub mul : A -> A -> A) (sin cos : A -> A) (r : A)
    (lat1 lat2s lat2c lon1 lon2 : A) : A :=
  add (mul (sin (mul lat1 r)) (sin (mul lat2s r)))
      (mul (mul (cos (mul lat1 r)) (cos (mul lat2c r))) (cos (mul (sub lon1 lon2) r))).
Definition qcmax (x y : Qc) : Qc := if Qcleb x y then y else x.
Definition clamp1 (q : Qc) : Qc := qcmin 1%Qc (qcmax (- (1))%Qc q).

(** triple2grid.f90:265-272: the distance that ranks competing observations *)
Definition rank_distance (T : trig) (great_circle : bool) (o : triple) (gxm gyn slpx slpy : Qc) : Qc :=
  if great_circle then
    (ac T (clamp1 (cos_angle Qcplus Qcminus Qcmult (sn T) (cs T) (rad T) (ty o) gxm gyn (tx o) gxm)) * re T)%Qc
  else sq T (slpx * slpx + slpy * slpy)%Qc.

(** triple2grid.f90:233-280, one observation of the second pass; the state holds
    gout, dout, slpx and slpy *)
Definition place (T : trig) (great_circle mflag nflag : bool) (gx gy : list Qc) (dx dy ddcrit : Qc)
    (st : grids * (Qc * Qc)) (o : triple) : option (grids * (Qc * Qc)) :=
  let* py := assign_axis nflag gy dy (ty o) (snd (snd st)) in
  let* px := assign_axis mflag gx dx (tx o) (fst (snd st)) in
  let mm := fst px in let nn := fst py in
  if (1 <=? mm)%Z && (mm <=? Z.of_nat (length gx))%Z && (1 <=? nn)%Z && (nn <=? Z.of_nat (length gy))%Z then
    let m := Z.to_nat mm in let n := Z.to_nat nn in
    let* gxm := rd gx m in let* gyn := rd gy n in
    let dd := rank_distance T great_circle o gxm gyn (snd px) (snd py) in
    let* old := rd (snd (fst st)) ((n - 1) * length gx + m) in
    if Qcltb dd old && Qcltb dd ddcrit then
      let* s := store (length gx) (fst st) m n (tz o) dd in
      Some (s, (snd px, snd py))
    else Some (fst st, (snd px, snd py))
  else Some (fst st, (snd px, snd py)).
(** triple2grid.f90:168-281: (gout, ier); [slpx], [slpy] are the values of the
    two local variables on entry, which the routine never sets on equal axes *)
Definition trip2grd2_impl (T : trig) (obs : list triple) (zmsg : Qc) (gx gy : list Qc)
    (mflag nflag great_circle : bool) (ddcrit slpx slpy : Qc) : option (list cell * Z) :=
  let* dx := axis_step gx in
  let* dy := axis_step gy in
  let* p := prepass (mflag && nflag) gx gy dx dy obs zmsg in
  if snd p =? length obs then Some (fst (fst p), (-1)%Z)
  else let* q := foldM (place T great_circle mflag nflag gx gy dx dy ddcrit) obs (fst p, (slpx, slpy)) in
       Some (fst (fst q), 0%Z).

(** triple2grid.f90:363-378: dist(k) *)
Definition node_distance (T : trig) (great_circle : bool) (gxm gyn : Qc) (o : triple) : Qc :=
  if great_circle then
    (ac T (clamp1 (cos_angle Qcplus Qcminus Qcmult (sn T) (cs T) (rad T) gyn (ty o) (ty o) (tx o) gxm)) * re T)%Qc
  else sq T ((tx o - gxm) * (tx o - gxm) + (ty o - gyn) * (ty o - gyn))%Qc.
(** triple2grid.f90:380-387: the value and distance kept for one node *)
Definition search (dist : triple -> Qc) (zmsg ddcrit : Qc) (obs : list triple) (best : cell * Qc) : cell * Qc :=
  fold_left (fun best o =>
               if negb (cell_is zmsg (tz o)) && Qcltb (dist o) (snd best) && Qcltb (dist o) ddcrit
               then (tz o, dist o) else best) obs best.
(** triple2grid.f90:362-388: one node *)
Definition fill_node (T : trig) (great_circle : bool) (zmsg ddcrit : Qc) (obs : list triple) (gx gy : list Qc)
    (n : nat) (s : grids) (m : nat) : option grids :=
  let* d := rd (snd s) ((n - 1) * length gx + m) in
  if Qceqb d 0%Qc then Some s
  else let* gxm := rd gx m in
       let* gyn := rd gy n in
       let* g := rd (fst s) ((n - 1) * length gx + m) in
       let b := search (node_distance T great_circle gxm gyn) zmsg ddcrit obs (g, d) in
       store (length gx) s m n (fst b) (snd b).
(** triple2grid.f90:299-391: (gout, ier) *)
Definition trip2grd3_impl (T : trig) (obs : list triple) (zmsg : Qc) (gx gy : list Qc)
    (mflag nflag great_circle : bool) (ddcrit : Qc) : option (list cell * Z) :=
  let* dx := axis_step gx in
  let* dy := axis_step gy in
  let* p := prepass (mflag && nflag) gx gy dx dy obs zmsg in
  if snd p =? length obs then Some (fst (fst p), (-11)%Z)
  else
    let* s := foldM (fun s n => foldM (fill_node T great_circle zmsg ddcrit obs gx gy n) (seq 1 (length gx)) s)
                    (seq 1 (length gy)) (fst p) in
    Some (fst s, 0%Z).

(** triple2grid.f90:64-76: the non-missing observations *)
Definition strip (obs : list triple) (zmsg : Qc) : list triple :=
  filter (fun o => negb (cell_is zmsg (tz o))) obs.
(** triple2grid.f90:72: outside the target grid *)
Definition outside (gx1 gxn gy1 gyn : Qc) (o : triple) : bool :=
  Qcltb (tx o) gx1 || Qcltb gxn (tx o) || Qcltb (ty o) gy1 || Qcltb gyn (ty o).
(** triple2grid.f90:121-132: an axis with one more value on either side *)
Definition big_axis (g : list Qc) (domain : Qc) : option (list Qc) :=
  let* g1 := rd g 1 in let* g2 := rd g 2 in
  let* gn := rd g (length g) in let* gm := rd g (length g - 1) in
  Some ((g1 - domain * (g2 - g1))%Qc :: g ++ [(gn + domain * (gn - gm))%Qc]).
(** triple2grid.f90:142-147: the interior of the oversized grid *)
Definition interior (mx ny : nat) (big : list cell) : option (list cell) :=
  mapM (fun p => rd big (snd p * (mx + 2) + fst p + 1)) 
       (flat_map (fun n => map (fun m => (m, n)) (seq 1 mx)) (seq 1 ny)).
(** triple2grid.f90:40-149 with loop=0, the only value the C entry point passes
    (triple2grid_module.c:94); for kpts = 0 the bound tests of line 72 are not
    reached *)
Definition triple2grid1_impl (T : trig) (obs : list triple) (zmsg : Qc) (gx gy : list Qc)
    (domain : Qc) (great_circle : bool) (distmx slpx slpy : Qc) : option (list cell * Z) :=
  let ddcrit := if Qcleb distmx 0%Qc then far else distmx in
  match strip obs zmsg with
  | [] => Some (repeat (Some zmsg) (length gx * length gy), 0%Z)
  | valid =>
      let* gx1 := rd gx 1 in let* gxn := rd gx (length gx) in
      let* gy1 := rd gy 1 in let* gyn := rd gy (length gy) in
      let* mflag := spacing_flag gx in
      let* nflag := spacing_flag gy in
      if negb (existsb (outside gx1 gxn gy1 gyn) valid) then
        trip2grd2_impl T valid zmsg gx gy mflag nflag great_circle ddcrit slpx slpy
      else
        let* bx := big_axis gx domain in
        let* by_ := big_axis gy domain in
        let* r := trip2grd2_impl T valid zmsg bx by_ mflag nflag great_circle ddcrit slpx slpy in
        let* g := interior (length gx) (length gy) (fst r) in
        Some (g, snd r)
  end.

(** triple2grid_module.c:160-166 with triple_to_grid.py:128-129: an (mx, ny)
    array in Fortran order, flattened by reshape in C order *)
Definition c_flatten (mx ny : nat) (g : list cell) : option (list cell) :=
  mapM (fun p => rd g ((snd p - 1) * mx + fst p))
       (flat_map (fun m => map (fun n => (m, n)) (seq 1 ny)) (seq 1 mx)).
(** triple_to_grid.py:77-136: (None for an exception, else the flat result that
    lines 153-154 and 184 then read as (ny, mx) in C order; the caller's data
    afterwards) *)
Definition triple_to_grid (T : trig) (convertible : bool) (x_in y_in : list Qc) (data : list cell)
    (x_out y_out : list Qc) (domain : Qc) (great_circle : bool) (distmx slpx slpy : Qc)
    (msg_py : cell) (msg_fort : Qc) : option (option (list cell) * list cell) :=
  let rewrite := needs_rewrite data msg_py msg_fort in
  let d1 := if rewrite then py2fort_msg data msg_py msg_fort else data in
  if negb (convertible && (length y_in =? length x_in) && (length data =? length x_in)) then Some (None, d1)
  else
    let* r := triple2grid1_impl T (combine x_in (combine y_in d1)) msg_fort x_out y_out
                domain great_circle distmx slpx slpy in
    let* flat := c_flatten (length x_out) (length y_out) (fst r) in
    let differ := match msg_py with None => true | Some m => negb (Qceqb m msg_fort) end in
    Some (Some (if differ then fort2py_msg flat msg_fort msg_py else flat),
          if rewrite then fort2py_msg d1 msg_fort msg_py else d1).
