(** Model of the curvilinear remapping kernels
      src/skyborn/interp/fortran/rcm2rgrid.f90   (drcm2rgrid, drgrid2rcm)
      src/skyborn/interp/fortran/rcm2points.f90  (drcm2points)
    and of the wrappers interp/rcm2rgrid.py and interp/rcm2points.py.

    Coordinates and fields are exact rationals with the missing-value sentinel
    [xmsg].  A Fortran array a(n1, n2) is a function of its 1-based subscripts
    read through [at2]/[at3], which are [None] outside the declared extents;
    1-D arrays are lists read with [rd].  So [None] as the result of a kernel
    means an access outside an array (or an exhausted while loop), and
    [Some None] means ier = 1.  The great-circle distance is an argument [dist]
    (the real-number formula is in RC_Geo.v), [huge] the constant
    huge(1.0_real64), [dkm] the constant of rcm2points.f90:378. *)
From Verif Require Import Base Buffer Loops VH_Model LM_Model TG_Model.
Local Open Scope nat_scope.

(** a(ix, iy) for an array of extents (n1, n2) *)
Definition at2 {A : Type} (n1 n2 : nat) (a : nat -> nat -> A) (ix iy : nat) : option A :=
  if (1 <=? ix) && (ix <=? n1) && ((1 <=? iy) && (iy <=? n2)) then Some (a ix iy) else None.
(** a(ix, iy, ng) for an array of extents (n1, n2, n3) *)
Definition at3 {A : Type} (n1 n2 n3 : nat) (a : nat -> nat -> nat -> A) (ix iy ng : nat) : option A :=
  if (1 <=? ix) && (ix <=? n1) && ((1 <=? iy) && (iy <=? n2)) && ((1 <=? ng) && (ng <=? n3))
  then Some (a ix iy ng) else None.
(** the iterations of "do i = lo, hi" *)
Definition rng (lo hi : nat) : list nat := seq lo (hi + 1 - lo).

(** rcm2rgrid.f90:23-36 = rcm2points.f90:20-33 *)
Fixpoint is_strictly_increasing (x : list Qc) : bool :=
  match x with
  | a :: ((b :: _) as r) => if Qcleb b a then false else is_strictly_increasing r
  | _ => true
  end.

(** rcm2rgrid.f90:63-70 = rcm2points.f90:59-66, the bisection loop *)
Fixpoint bracket_loop (fuel : nat) (x : list Qc) (v : Qc) (lo hi : nat) : option nat :=
  match fuel with
  | O => None
  | S fuel =>
      if 1 <? hi - lo then
        let mid := (lo + hi) / 2 in
        let* xm := rd x mid in
        if Qcleb xm v then bracket_loop fuel x v mid hi else bracket_loop fuel x v lo mid
      else Some lo
  end.
(** rcm2rgrid.f90:40-73 = rcm2points.f90:37-69 *)
Definition lower_bracket_increasing (x : list Qc) (v : Qc) : option nat :=
  let n := length x in
  if n <=? 1 then Some 1
  else
    let* x1 := rd x 1 in
    if Qcleb v x1 then Some 1
    else
      let* xn := rd x n in
      if Qcleb xn v then Some (n - 1)
      else bracket_loop n x v 1 n.

(** rcm2rgrid.f90:77-91 = rcm2points.f90:73-86.  [base + 1 - stride] is the
    truncated difference; under max(1, .) that is the same as the integer one. *)
Definition stride_index (n stride base : nat) : nat := Nat.max 1 (Nat.min (n - stride) (base + 1 - stride)).
Definition earliest_stride_candidate (x : list Qc) (v : Qc) (stride : nat) : option nat :=
  let n := length x in
  if n <=? stride then Some 1
  else let* base := lower_bracket_increasing x v in Some (stride_index n stride base).

(** rcm2rgrid.f90:118-120, the cursor walk *)
Fixpoint advance (fuel : nat) (x : list Qc) (v : Qc) (cursor : nat) : option nat :=
  match fuel with
  | O => None
  | S fuel =>
      let* xc := rd x (cursor + 1) in
      if (cursor <? length x - 1) && Qcleb xc v then advance fuel x v (cursor + 1) else Some cursor
  end.
(** rcm2rgrid.f90:110-125, the loop over the targets with its cursor *)
Fixpoint stride_walk (x : list Qc) (stride : nat) (values : list Qc) (cursor : nat) : option (list nat) :=
  match values with
  | [] => Some []
  | v :: r =>
      let n := length x in
      let* x1 := rd x 1 in
      let* xn := rd x n in
      let* bc :=
        if Qcleb v x1 then Some (1, cursor)
        else if Qcleb xn v then Some (n - 1, n - 1)
        else let* c := advance n x v cursor in Some (c, c) in
      let* t := stride_walk x stride r (snd bc) in
      Some (stride_index n stride (fst bc) :: t)
  end.
(** rcm2rgrid.f90:96-126 *)
Definition build_stride_candidates_increasing (x values : list Qc) (stride : nat) : option (list nat) :=
  if length x <=? stride then Some (map (fun _ => 1) values)
  else stride_walk x stride values 1.

(** a loop that returns the first index whose test succeeds *)
Fixpoint first_in (test : nat -> option bool) (l : list nat) : option (option nat) :=
  match l with
  | [] => Some None
  | i :: r => let* b := test i in if b then Some (Some i) else first_in test r
  end.
(** the loop nest "do iy, do ix, if (test) return (ix, iy)" of all searches,
    e.g. rcm2rgrid.f90:143-153 *)
Fixpoint first_in2 (test : nat -> nat -> option bool) (ixs iys : list nat) : option (option (nat * nat)) :=
  match iys with
  | [] => Some None
  | iy :: r =>
      let* h := first_in (fun ix => test ix iy) ixs in
      match h with Some ix => Some (Some (ix, iy)) | None => first_in2 test ixs r end
  end.

(** x >= c - eps .and. x <= c + eps, rcm2rgrid.f90:145 *)
Definition near (eps x c : Qc) : bool := Qcleb (c - eps)%Qc x && Qcleb x (c + eps)%Qc.

Definition hit := option (nat * nat).

(** sums over the present corners, rcm2rgrid.f90:289-300 = 452-463 *)
Definition wstep (xmsg : Qc) (s : Qc * (Qc * nat)) (fw : Qc * Qc) : Qc * (Qc * nat) :=
  if Qceqb (fst fw) xmsg then s
  else (fst s + fst fw * snd fw, (fst (snd s) + snd fw, S (snd (snd s))))%Qc.
Definition wsum (xmsg : Qc) (l : list (Qc * Qc)) : Qc * (Qc * nat) :=
  fold_left (wstep xmsg) l (0%Qc, (0%Qc, 0)).
(** rcm2rgrid.f90:259-262 = 447-450: merge(huge, (1/dist)**2, dist == 0) *)
Definition idw (huge d : Qc) : Qc := if Qceqb d 0%Qc then huge else ((1 / d) * (1 / d))%Qc.

(** rcm2rgrid.f90:272-287: the first corner at distance zero with a value *)
Fixpoint zero_corner (xmsg : Qc) (l : list (Qc * Qc)) : option Qc :=
  match l with
  | [] => None
  | (f, d) :: r => if Qceqb d 0%Qc && negb (Qceqb f xmsg) then Some f else zero_corner xmsg r
  end.
(** rcm2rgrid.f90:272-304: one field; [l] is the list of (value, distance) of the
    corners (1,1), (2,1), (1,2), (2,2), [o] the current content of out(ng) *)
Definition curv_value (huge xmsg : Qc) (ncrit : Z) (l : list (Qc * Qc)) (o : Qc) : Qc :=
  match zero_corner xmsg l with
  | Some f => f
  | None =>
      let s := wsum xmsg (map (fun fd => (fst fd, idw huge (snd fd))) l) in
      if (ncrit <=? Z.of_nat (snd (snd s)))%Z && Qcltb 0%Qc (fst (snd s)) then (fst s / fst (snd s))%Qc else o
  end.

(** rcm2rgrid.f90:436-438 *)
Definition bilinear (sx sy f11 f21 f12 f22 : Qc) : Qc :=
  ((f11 + sx * (f21 - f11)) + sy * ((f12 + sx * (f22 - f12)) - (f11 + sx * (f21 - f11))))%Qc.
(** rcm2rgrid.f90:452-467: the missing-corner branch.  Line 465 tests
    "ncrit >= 1", not the number of corners. *)
Definition regular_idw (huge xmsg : Qc) (ncrit : Z) (l : list (Qc * Qc)) (o : Qc) : Qc :=
  let s := wsum xmsg (map (fun fd => (fst fd, idw huge (snd fd))) l) in
  if (1 <=? ncrit)%Z && Qcltb 0%Qc (fst (snd s)) then (fst s / fst (snd s))%Qc else o.

(** all(fo(nx, ny, :) /= xmsg), rcm2rgrid.f90:574 *)
Definition all_present (xmsg : Qc) (fo : list Qc) : bool := forallb (fun v => negb (Qceqb v xmsg)) fo.
Definition found (h : hit) : bool := match h with Some _ => true | None => false end.

Section Curvilinear.
(** the source grid: extents, longitudes xi, latitudes yi, fields fi *)
Variables (nxi nyi ngrd : nat) (xi yi : nat -> nat -> Qc) (fi : nat -> nat -> nat -> Qc).
Variables (dist : Qc -> Qc -> Qc -> Qc -> Qc) (huge xmsg : Qc).

(** rcm2rgrid.f90:145-146 = 172-173 *)
Definition exact_test (eps xo yo : Qc) (ix iy : nat) : option bool :=
  let* x := at2 nxi nyi xi ix iy in
  let* y := at2 nxi nyi yi ix iy in
  Some (near eps xo x && near eps yo y).
(** rcm2rgrid.f90:130-154 *)
Definition find_exact_curv_local (eps xo yo : Qc) (ix_lo ix_hi iy_lo iy_hi : nat) : option hit :=
  first_in2 (exact_test eps xo yo) (rng ix_lo ix_hi) (rng iy_lo iy_hi).
(** rcm2rgrid.f90:158-181 *)
Definition find_exact_curv_full (eps xo yo : Qc) : option hit :=
  first_in2 (exact_test eps xo yo) (rng 1 nxi) (rng 1 nyi).

(** rcm2rgrid.f90:200-201 = 228-229 = rcm2points.f90:105-106 = 133-134; all four
    corners are read (Fortran's .and. need not stop early) *)
Definition cell_test (k : nat) (xo yo : Qc) (ix iy : nat) : option bool :=
  let* x0 := at2 nxi nyi xi ix iy in
  let* x1 := at2 nxi nyi xi (ix + k) iy in
  let* y0 := at2 nxi nyi yi ix iy in
  let* y1 := at2 nxi nyi yi ix (iy + k) in
  Some (Qcleb x0 xo && Qcleb xo x1 && (Qcleb y0 yo && Qcleb yo y1)).
(** rcm2rgrid.f90:185-209 = rcm2points.f90:90-114 *)
Definition find_curv_cell_local (k : nat) (xo yo : Qc) (ix_lo ix_hi iy_lo iy_hi : nat) : option hit :=
  first_in2 (cell_test k xo yo) (rng ix_lo ix_hi) (rng iy_lo iy_hi).
(** rcm2rgrid.f90:213-237 = rcm2points.f90:118-142; an upper bound below 1 is an
    empty loop in both readings of the difference *)
Definition find_curv_cell_full (k : nat) (xo yo : Qc) : option hit :=
  first_in2 (cell_test k xo yo) (rng 1 (nxi - k)) (rng 1 (nyi - k)).

(** fo(...,:) = fi(ix, iy, :), rcm2rgrid.f90:573 *)
Definition copy_node (ix iy : nat) : option (list Qc) :=
  mapM (fun ng => at3 nxi nyi ngrd fi ix iy ng) (seq 1 ngrd).

(** rcm2rgrid.f90:254-257: coordinates of one corner give its distance *)
Definition corner_dist (xo yo : Qc) (ix iy : nat) : option Qc :=
  let* y := at2 nxi nyi yi ix iy in
  let* x := at2 nxi nyi xi ix iy in
  Some (dist yo xo y x).
(** rcm2rgrid.f90:243-306; each iteration of the field loop only touches out(ng) *)
Definition interpolate_curv_cell (k : nat) (ncrit : Z) (xo yo : Qc) (ix iy : nat) (out : list Qc) : option (list Qc) :=
  let* d11 := corner_dist xo yo ix iy in
  let* d21 := corner_dist xo yo (ix + k) iy in
  let* d12 := corner_dist xo yo ix (iy + k) in
  let* d22 := corner_dist xo yo (ix + k) (iy + k) in
  mapM (fun ng =>
    let* o := rd out ng in
    if negb (Qceqb o xmsg) then Some o
    else
      let* f11 := at3 nxi nyi ngrd fi ix iy ng in
      let* f21 := at3 nxi nyi ngrd fi (ix + k) iy ng in
      let* f12 := at3 nxi nyi ngrd fi ix (iy + k) ng in
      let* f22 := at3 nxi nyi ngrd fi (ix + k) (iy + k) ng in
      Some (curv_value huge xmsg ncrit [(f11, d11); (f21, d21); (f12, d12); (f22, d22)] o)) (seq 1 ngrd).

(** rcm2rgrid.f90:513 *)
Definition eps_curv : Qc := dec 1 10000.
(** rcm2rgrid.f90:586-601: what follows the two local searches; [e] is the local
    exact hit, [c] the local cell, [fo] the content of fo(nx, ny, :) *)
Definition rcm2rgrid_rest (ncrit : Z) (xo yo : Qc) (e c : hit) (fo : list Qc) : option (list Qc) :=
  match c with
  | Some p => interpolate_curv_cell 2 ncrit xo yo (fst p) (snd p) fo
  | None =>
      let* df :=
        match e with
        | Some _ => Some (false, fo)
        | None =>
            let* e2 := find_exact_curv_full eps_curv xo yo in
            match e2 with
            | None => Some (false, fo)
            | Some p => let* v := copy_node (fst p) (snd p) in Some (all_present xmsg v, v)
            end
        end in
      if fst df : bool then Some (snd df)
      else
        let* c2 := find_curv_cell_full 2 xo yo in
        match c2 with
        | None => Some (snd df)
        | Some p => interpolate_curv_cell 2 ncrit xo yo (fst p) (snd p) (snd df)
        end
  end.
(** rcm2rgrid.f90:561-603, one target point: fo(nx, ny, :) on exit.  [xa], [ya]
    are the anchors; the window bounds are those of lines 536-547 *)
Definition rcm2rgrid_point (fast : bool) (ncrit : Z) (xa ya : nat) (xo yo : Qc) : option (list Qc) :=
  let k := 2 in
  let fo := repeat xmsg ngrd in
  let* e :=
    if fast then find_exact_curv_local eps_curv xo yo (Nat.max 1 (xa - k)) (Nat.min nxi (xa + 2 * k))
                                       (Nat.max 1 (ya - k)) (Nat.min nyi (ya + 2 * k))
    else Some None in
  let* fo := match e with Some p => copy_node (fst p) (snd p) | None => Some fo end in
  if found e && all_present xmsg fo then Some fo
  else
    let* c :=
      if fast then find_curv_cell_local k xo yo (Nat.max 1 (xa - 1)) (Nat.min (nxi - k) (xa + 2))
                                        (Nat.max 1 (ya - 1)) (Nat.min (nyi - k) (ya + 2))
      else Some None in
    rcm2rgrid_rest ncrit xo yo e c fo.

(** x_ref = xi(:, 1) and y_ref = yi(1, :), rcm2rgrid.f90:528-529, also
    rcm2points.f90:211-219 *)
Definition x_ref : option (list Qc) := mapM (fun ix => at2 nxi nyi xi ix 1) (seq 1 nxi).
Definition y_ref : option (list Qc) := mapM (fun iy => at2 nxi nyi yi 1 iy) (seq 1 nyi).

(** rcm2rgrid.f90:312-322 on a plane (list of rows) of one field *)
Definition fill_missing_rows (plane : list (list Qc)) : option (list (list Qc)) :=
  mapM (fun row => dlinmsg_interior_short_gaps row xmsg) plane.

(** rcm2rgrid.f90:497-606.  The result is fo in the order (ng, ny, nx), that is,
    the array after the transposition of rcm2rgrid.py:29.  Iterations of the
    point loop write different elements of fo, so their results are collected. *)
Definition drcm2rgrid (ncrit : Z) (yo xo : list Qc) : option (option (list (list (list Qc)))) :=
  if (nxi <=? 1) || (nyi <=? 1) || (length xo <=? 1) || (length yo <=? 1) then Some None
  else
    let ncrit_use := Z.max 1 (Z.min 4 ncrit) in
    let* xr := x_ref in
    let* yr := y_ref in
    let fast := is_strictly_increasing xr && is_strictly_increasing yr &&
                is_strictly_increasing xo && is_strictly_increasing yo in
    let* xa := if fast then build_stride_candidates_increasing xr xo 2 else Some (map (fun _ => 1) xo) in
    let* ya := if fast then build_stride_candidates_increasing yr yo 2 else Some (map (fun _ => 1) yo) in
    let* rows := mapM (fun ny => let* y := rd yo ny in let* a := rd ya ny in
                   mapM (fun nx => let* x := rd xo nx in let* b := rd xa nx in
                     rcm2rgrid_point fast ncrit_use b a x y) (seq 1 (length xo))) (seq 1 (length yo)) in
    let* out := mapM (fun ng => let* plane := mapM (fun row => mapM (fun v => rd v ng) row) rows in
                        fill_missing_rows plane) (seq 1 ngrd) in
    Some (Some out).

(** * rcm2points *)
(** minval / maxval of a non-empty section, rcm2points.f90:231-238 *)
Definition minval (l : list Qc) : option Qc := match l with [] => None | a :: r => Some (fold_left qcmin r a) end.
Definition maxval (l : list Qc) : option Qc := match l with [] => None | a :: r => Some (fold_left qcmax r a) end.
Definition row_of (a : nat -> nat -> Qc) (iy : nat) : option (list Qc) := mapM (fun ix => at2 nxi nyi a ix iy) (seq 1 nxi).
Definition col_of (a : nat -> nat -> Qc) (ix : nat) : option (list Qc) := mapM (fun iy => at2 nxi nyi a ix iy) (seq 1 nyi).
Definition bounds_of (l : list Qc) : option (Qc * Qc) := let* a := minval l in let* b := maxval l in Some (a, b).
Definition row_lats : option (list (Qc * Qc)) := mapM (fun iy => let* r := row_of yi iy in bounds_of r) (seq 1 nyi).
Definition col_lons : option (list (Qc * Qc)) := mapM (fun ix => let* r := col_of xi ix in bounds_of r) (seq 1 nxi).

(** linint2.f90:361-372 as called in rcm2points.f90:214 and 222: the third
    argument is the code to report and the fourth receives it.  The caller passes
    [ier] third and [ner] fourth. *)
Definition dmonoinc_call (x : list Qc) (ner : Z) : Z := if is_strictly_increasing x then 0%Z else ner.

Definition inside (b : Qc * Qc) (v : Qc) : bool := Qcleb (fst b) v && Qcleb v (snd b).
(** rcm2points.f90:274-289: the row and column bounds only skip work *)
Definition points_exact_test (rl cl : list (Qc * Qc)) (xo yo : Qc) (ix iy : nat) : option bool :=
  let* rb := rd rl iy in
  if inside rb yo then
    let* cb := rd cl ix in
    if inside cb xo then
      let* x := at2 nxi nyi xi ix iy in
      let* y := at2 nxi nyi yi ix iy in
      Some (Qceqb xo x && Qceqb yo y)
    else Some false
  else Some false.

(** a weight: [None] is the infinity that 1/0 gives *)
Definition inv_square (d : Qc) : option Qc := if Qceqb d 0%Qc then None else Some ((1 / d) * (1 / d))%Qc.
(** rcm2points.f90:343-354: sums with possibly infinite weights; [None] is a sum
    that an infinite weight made NaN (sumf) and infinite (sumw) *)
Definition wstep_inf (s : option (Qc * (Qc * nat))) (fw : Qc * option Qc) : option (Qc * (Qc * nat)) :=
  if Qceqb (fst fw) xmsg then s
  else match s, snd fw with
       | Some s, Some w => Some (fst s + fst fw * w, (fst (snd s) + w, S (snd (snd s))))%Qc
       | _, _ => None
       end.
Definition wsum_inf (l : list (Qc * option Qc)) : option (Qc * (Qc * nat)) :=
  fold_left wstep_inf l (Some (0%Qc, (0%Qc, 0))).
(** rcm2points.f90:343-358.  With an infinite weight among the present corners
    (all corners are then counted as in the code, [ncrit] <= 1 passes) the quotient is
    infinity / infinity = NaN, the cell [None]. *)
Definition points_value (ncrit : Z) (l : list (Qc * option Qc)) (o : cell) : cell :=
  let nw := length (filter (fun fw => negb (Qceqb (fst fw) xmsg)) l) in
  match wsum_inf l with
  | Some s => if (ncrit <=? Z.of_nat nw)%Z && Qcltb 0%Qc (fst (snd s)) then Some (fst s / fst (snd s))%Qc else o
  | None => if (ncrit <=? Z.of_nat nw)%Z then None else o
  end.
(** rcm2points.f90:322-334: the four weights; the outer [None] stands for weights
    that are all NaN (opt = 2 with a zero denominator), the inner [option] is as in [inv_square] *)
Definition points_weights (opt : Z) (k : nat) (xo yo : Qc) (ix iy : nat) : option (option (list (option Qc))) :=
  if (Z.abs opt =? 2)%Z then
    let* x0 := at2 nxi nyi xi ix iy in
    let* x1 := at2 nxi nyi xi (ix + k) iy in
    let* y0 := at2 nxi nyi yi ix iy in
    let* y1 := at2 nxi nyi yi ix (iy + k) in
    if Qceqb (x1 - x0)%Qc 0%Qc || Qceqb (y1 - y0)%Qc 0%Qc then Some None
    else
      let wx := ((xo - x0) / (x1 - x0))%Qc in
      let wy := ((yo - y0) / (y1 - y0))%Qc in
      Some (Some [Some ((1 - wx) * (1 - wy))%Qc; Some (wx * (1 - wy))%Qc; Some ((1 - wx) * wy)%Qc; Some (wx * wy)%Qc])
  else
    let* d11 := corner_dist xo yo ix iy in
    let* d21 := corner_dist xo yo (ix + k) iy in
    let* d12 := corner_dist xo yo ix (iy + k) in
    let* d22 := corner_dist xo yo (ix + k) (iy + k) in
    Some (Some [inv_square d11; inv_square d21; inv_square d12; inv_square d22]).

(** rcm2points.f90:336-360 at one point *)
Definition points_cell (opt ncrit : Z) (k : nat) (xo yo : Qc) (ix iy : nat) (fo : list cell) : option (list cell) :=
  let* w := points_weights opt k xo yo ix iy in
  mapM (fun ng =>
    let* o := rd fo ng in
    if cell_is xmsg o then
      let* f11 := at3 nxi nyi ngrd fi ix iy ng in
      let* f21 := at3 nxi nyi ngrd fi (ix + k) iy ng in
      let* f12 := at3 nxi nyi ngrd fi ix (iy + k) ng in
      let* f22 := at3 nxi nyi ngrd fi (ix + k) (iy + k) ng in
      match w with
      | None => Some o
      | Some w => Some (points_value ncrit (combine [f11; f21; f12; f22] w) o)
      end
    else Some o) (seq 1 ngrd).

(** some field of the point is still missing, rcm2points.f90:297-303 and 385-391 *)
Definition has_missing (fo : list cell) : bool := existsb (cell_is xmsg) fo.

(** the cell windows of rcm2points.f90:252-263 *)
Definition points_cell_window (k n guess : nat) : nat * nat := (Nat.max 1 (guess - 1), Nat.min (n - k) (guess + 2)).
(** rcm2points.f90:305-319: the cell of one point *)
Definition points_find_cell (fast : bool) (k : nat) (lons lats : list Qc) (xo yo : Qc) : option hit :=
  let* c :=
    if fast then
      let* gx := earliest_stride_candidate lons xo k in
      let* gy := earliest_stride_candidate lats yo k in
      let wx := points_cell_window k nxi gx in
      let wy := points_cell_window k nyi gy in
      find_curv_cell_local k xo yo (fst wx) (snd wx) (fst wy) (snd wy)
    else Some None in
  match c with Some p => Some (Some p) | None => find_curv_cell_full k xo yo end.

(** rcm2points.f90:376 *)
Definition dlat : Qc := qz 5.
(** rcm2points.f90:404-418: the candidates (ix, iy, weight), in loop order.  The
    arrays of line 380 have room for nxi*nyi of them. *)
Definition candidate_at (dkm : Qc) (rl : list (Qc * Qc)) (xo yo : Qc) (ix iy : nat) : option (list (nat * (nat * Qc))) :=
  let* rb := rd rl iy in
  if Qcleb (yo - dlat)%Qc (snd rb) && Qcleb (fst rb) (yo + dlat)%Qc then
    let* y := at2 nxi nyi yi ix iy in
    if Qcleb (yo - dlat)%Qc y && Qcleb y (yo + dlat)%Qc then
      let* x := at2 nxi nyi xi ix iy in
      let d := dist yo xo y x in
      if Qcleb d dkm && Qcltb 0%Qc d then Some ((ix, (iy, (1 / (d * d))%Qc)) :: nil) else Some []
    else Some []
  else Some [].
Definition candidates (dkm : Qc) (rl : list (Qc * Qc)) (xo yo : Qc) : option (list (nat * (nat * Qc))) :=
  let* l := mapM (fun iy => let* r := mapM (fun ix => candidate_at dkm rl xo yo ix iy) (seq 1 nxi) in Some (concat r)) (seq 1 nyi) in
  let c := concat l in
  if length c <=? nxi * nyi then Some c else None.
(** rcm2points.f90:420-445 *)
Definition points_fallback (dkm : Qc) (rl : list (Qc * Qc)) (xo yo : Qc) (fo : list cell) : option (list cell) :=
  if has_missing fo then
    let* cs := candidates dkm rl xo yo in
    mapM (fun ng =>
      let* o := rd fo ng in
      if cell_is xmsg o then
        let* fw := mapM (fun c => let* f := at3 nxi nyi ngrd fi (fst c) (fst (snd c)) ng in Some (f, snd (snd c))) cs in
        let s := wsum xmsg fw in
        Some (if Qcltb 0%Qc (fst (snd s)) then Some (fst s / fst (snd s))%Qc else o)
      else Some o) (seq 1 ngrd)
  else Some fo.

(** rcm2points.f90:269-363 at one point: exact pass and cell pass *)
Definition points_first (fast : bool) (opt ncrit : Z) (k : nat) (lons lats : list Qc) (rl cl : list (Qc * Qc)) (xo yo : Qc)
    : option (list cell) :=
  let* e := first_in2 (points_exact_test rl cl xo yo) (rng 1 nxi) (rng 1 nyi) in
  let* fo := match e with
             | Some p => let* v := copy_node (fst p) (snd p) in Some (map Some v)
             | None => Some (repeat (Some xmsg) ngrd)
             end in
  if has_missing fo then
    let* c := points_find_cell fast k lons lats xo yo in
    match c with
    | None => Some fo
    | Some p => points_cell opt ncrit k xo yo (fst p) (snd p) fo
    end
  else Some fo.

(** rcm2points.f90:147-450.  The three loops over the points write only the
    row of their own point, so each pass is a map; the early return of line 373
    skips a pass that would change nothing.  The inner [None] is a nonzero ier;
    the result is in the order (nxyo, ngrd). *)
Definition drcm2points (dkm : Qc) (opt ncrit kval : Z) (yo xo : list Qc) : option (option (list (list cell))) :=
  let nxyo := length xo in
  if (nxi <=? 1) || (nyi <=? 1) || (nxyo <=? 0) then Some None
  else
    let* chklat := y_ref in
    let ier := 0%Z in
    let ner := dmonoinc_call chklat ier in
    if negb (ier =? 0)%Z then Some None
    else
      let* chklon := x_ref in
      let ner := dmonoinc_call chklat ier in
      if negb (ier =? 0)%Z then Some None
      else
        let k := if (kval <=? 0)%Z then 1 else Z.to_nat kval in
        let* rl := row_lats in
        let* cl := col_lons in
        let fast := (k <? nxi) && (k <? nyi) && (is_strictly_increasing chklon && is_strictly_increasing chklat) in
        let* fo := mapM (fun nxy => let* x := rd xo nxy in let* y := rd yo nxy in
                           points_first fast opt ncrit k chklon chklat rl cl x y) (seq 1 nxyo) in
        if negb (existsb has_missing fo) then Some (Some fo)
        else
          let* fo := mapM (fun nxy => let* x := rd xo nxy in let* y := rd yo nxy in let* v := rd fo nxy in
                             points_fallback dkm rl x y v) (seq 1 nxyo) in
          Some (Some fo).
End Curvilinear.

Section Rectilinear.
(** the source grid: axes xi, yi, fields fi *)
Variables (xi yi : list Qc) (ngrd : nat) (fi : nat -> nat -> nat -> Qc).
Variables (dist : Qc -> Qc -> Qc -> Qc -> Qc) (huge xmsg : Qc).
Let nxi := length xi.
Let nyi := length yi.

(** rcm2rgrid.f90:345-346 = 371-372 *)
Definition exact_regular_test (eps xo yo : Qc) (ix iy : nat) : option bool :=
  let* x := rd xi ix in
  let* y := rd yi iy in
  Some (near eps xo x && near eps yo y).
(** rcm2rgrid.f90:325-354 *)
Definition find_exact_regular_local (eps xo yo : Qc) (xa ya : nat) : option hit :=
  first_in2 (exact_regular_test eps xo yo) (rng (Nat.max 1 xa) (Nat.min nxi (xa + 1))) (rng (Nat.max 1 ya) (Nat.min nyi (ya + 1))).
(** rcm2rgrid.f90:357-380 *)
Definition find_exact_regular_full (eps xo yo : Qc) : option hit :=
  first_in2 (exact_regular_test eps xo yo) (rng 1 nxi) (rng 1 nyi).
(** rcm2rgrid.f90:398-399 = 669-670 *)
Definition regular_cell_test (xo yo : Qc) (ix iy : nat) : option bool :=
  let* x0 := rd xi ix in
  let* x1 := rd xi (ix + 1) in
  let* y0 := rd yi iy in
  let* y1 := rd yi (iy + 1) in
  Some (Qcleb x0 xo && Qcltb xo x1 && (Qcleb y0 yo && Qcltb yo y1)).
(** rcm2rgrid.f90:384-407 *)
Definition find_regular_cell_full (xo yo : Qc) : option hit :=
  first_in2 (regular_cell_test xo yo) (rng 1 (nxi - 1)) (rng 1 (nyi - 1)).

(** fo(...,:) = fi(ix, iy, :), rcm2rgrid.f90:665 *)
Definition copy_regular (ix iy : nat) : option (list Qc) :=
  mapM (fun ng => at3 nxi nyi ngrd fi ix iy ng) (seq 1 ngrd).

(** rcm2rgrid.f90:412-469 *)
Definition interpolate_regular_cell (ncrit : Z) (xo yo : Qc) (ix iy : nat) (out : list Qc) : option (list Qc) :=
  mapM (fun ng =>
    let* o := rd out ng in
    if negb (Qceqb o xmsg) then Some o
    else
      let* f11 := at3 nxi nyi ngrd fi ix iy ng in
      let* f21 := at3 nxi nyi ngrd fi (ix + 1) iy ng in
      let* f12 := at3 nxi nyi ngrd fi ix (iy + 1) ng in
      let* f22 := at3 nxi nyi ngrd fi (ix + 1) (iy + 1) ng in
      let* x0 := rd xi ix in
      let* x1 := rd xi (ix + 1) in
      let* y0 := rd yi iy in
      let* y1 := rd yi (iy + 1) in
      if all_present xmsg [f11; f21; f12; f22] then
        Some (bilinear ((xo - x0) / (x1 - x0))%Qc ((yo - y0) / (y1 - y0))%Qc f11 f21 f12 f22)
      else
        Some (regular_idw huge xmsg ncrit
                [(f11, dist yo xo y0 x0); (f21, dist yo xo y0 x1); (f12, dist yo xo y1 x0); (f22, dist yo xo y1 x1)] o))
    (seq 1 ngrd).

(** rcm2rgrid.f90:642 *)
Definition eps_regular : Qc := dec 1 1000.
(** rcm2rgrid.f90:654-693, one target point *)
Definition rgrid2rcm_point (fast : bool) (ncrit : Z) (xo yo : Qc) : option (list Qc) :=
  let fo := repeat xmsg ngrd in
  let* a :=
    if fast then
      let* xa := lower_bracket_increasing xi xo in
      let* ya := lower_bracket_increasing yi yo in
      Some (xa, ya)
    else Some (1, 1) in
  let* e := if fast then find_exact_regular_local eps_regular xo yo (fst a) (snd a) else Some None in
  let* fo := match e with Some p => copy_regular (fst p) (snd p) | None => Some fo end in
  if found e && all_present xmsg fo then Some fo
  else
    let* c := if fast then let* b := regular_cell_test xo yo (fst a) (snd a) in Some (if b : bool then Some a else None)
              else Some None in
    match c with
    | Some p => interpolate_regular_cell ncrit xo yo (fst p) (snd p) fo
    | None =>
        let* df :=
          match e with
          | Some _ => Some (false, fo)
          | None =>
              let* e2 := find_exact_regular_full eps_regular xo yo in
              match e2 with
              | None => Some (false, fo)
              | Some p => let* v := copy_regular (fst p) (snd p) in Some (all_present xmsg v, v)
              end
          end in
        if fst df : bool then Some (snd df)
        else
          let* c2 := find_regular_cell_full xo yo in
          match c2 with
          | None => Some (snd df)
          | Some p => interpolate_regular_cell ncrit xo yo (fst p) (snd p) (snd df)
          end
    end.

(** rcm2rgrid.f90:630-695; the result is in the order (ny, nx, ng) *)
Definition drgrid2rcm (ncrit : Z) (nyo nxo : nat) (yo xo : nat -> nat -> Qc) : option (option (list (list (list Qc)))) :=
  if (nxi <=? 1) || (nyi <=? 1) || (nxo <=? 1) || (nyo <=? 1) then Some None
  else
    let fast := is_strictly_increasing xi && is_strictly_increasing yi in
    let* rows := mapM (fun ny => mapM (fun nx =>
                    let* x := at2 nxo nyo xo nx ny in
                    let* y := at2 nxo nyo yo nx ny in
                    rgrid2rcm_point fast ncrit x y) (seq 1 nxo)) (seq 1 nyo) in
    Some (Some rows).
End Rectilinear.

(** * Wrappers: the caller's array *)
(** rcm2rgrid.py:19-33 and 36-50 seen from the caller's array: py2fort_msg
    rewrites the transposed view, hence the array itself, in place; the result is
    converted back, the input is not.  [kernel] maps the rewritten input to the
    kernel's output ([None]: it raises). *)
Definition rcm2rgrid_wrapper (kernel : list cell -> option (list cell)) (fi : list cell) (msg_py : cell) (msg_fort : Qc)
    : option (list cell) * list cell :=
  let fi := py2fort_msg fi msg_py msg_fort in
  (option_map (fun fo => fort2py_msg fo msg_fort msg_py) (kernel fi), fi).

(** rcm2points.py:32-68: the rewrite is done only when needed and undone after
    the call; when the kernel raises, the restore is not reached *)
Definition rcm2points_wrapper (kernel : list cell -> option (list cell)) (fi : list cell) (msg_py : cell) (msg_fort : Qc)
    : option (list cell) * list cell :=
  let needs_restore := match msg_py with
                       | None => existsb (is_msg None) fi
                       | Some m => negb (Qceqb m msg_fort)
                       end in
  let fi1 := if needs_restore then py2fort_msg fi msg_py msg_fort else fi in
  match kernel fi1 with
  | None => (None, fi1)
  | Some fo => (Some (fort2py_msg fo msg_fort msg_py), if needs_restore then fort2py_msg fi1 msg_fort msg_py else fi1)
  end.
