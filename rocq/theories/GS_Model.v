(** Model of the scalar spherical-harmonic transforms on a Gaussian grid with
    stored Legendre functions: src/skyborn/spharm/src/shsgs.f90 (synthesis) and
    shags.f90 (analysis).

    Simplifications:
    - one field: the loops over k = 1, nt repeat the same statements on the k-th
      slice of g, a, b and gs;
    - numbers are reals, without rounding;
    - an array is the list of its elements in Fortran order; every subscript is
      checked against the declared bounds, a read or write outside makes the run
      fail ([None]);
    - the segments wts, wfft and pmn of the saved workspace, and g and work in the
      temporary one, are separate arrays (their places are in [segments]);
    - the rows of g are transformed one after the other by the model of hrfft.f90
      (hrfftf and hrfftb transform lat rows side by side);
    - where one loop updates two columns (or the arrays a and b) side by side, the
      model updates one after the other. *)
From Coq Require Import Reals List Arith ZArith Lia Bool.
From Verif Require Import Base Buffer VH_Model FF_Model FF_Model2.
Import ListNotations.
Local Open Scope nat_scope.

(** ** Arrays (n1, n2) and loops: element (i, j) of g, a, b, pmn declared at
    shsgs.f90:160-173, shags.f90:241-252 *)
Definition inside (i n : nat) : bool := andb (1 <=? i) (i <=? n).
Definition pos (n1 i j : nat) : nat := (j - 1) * n1 + i.
Definition rd2 (n1 n2 : nat) (a : list R) (i j : nat) : option R :=
  if andb (inside i n1) (inside j n2) then rd a (pos n1 i j) else None.
Definition wr2 (n1 n2 : nat) (a : list R) (i j : nat) (v : R) : option (list R) :=
  if andb (inside i n1) (inside j n2) then wrx a (pos n1 i j) v else None.
(** do np1 = lo, hi, 2 (shsgs.f90:237 and the others) *)
Definition by2 (lo hi : nat) : list nat := map (fun q => lo + 2 * q) (seq 0 ((hi + 2 - lo) / 2)).

(** ** Sizes and places *)
(** shsgs.f90:72-79, shags.f90 likewise: l, late and the number of rows *)
Definition l_of (nlat nlon : nat) : nat := Nat.min ((nlon + 2) / 2) nlat.
Definition late_of (nlat : nat) : nat := (nlat + nlat mod 2) / 2.
Definition lat_of (nlat mode : nat) : nat := if mode =? 0 then nlat else late_of nlat.
(** shsgs.f90:100 *)
Definition lp_of (nlat nlon l late : Z) : Z :=
  (nlat * (3 * (l + late) - 2) + (l - 1) * (late * (2 * nlat - l) - 3 * l) / 2 + nlon + 15)%Z.
(** the declared number of columns of pmn: shsgs.f90:170 *)
Definition npm_of (nlat l : nat) : nat := (l * (2 * nlat - l + 1)) / 2.
(** shsgs.f90:59-115: the checks in their order; 0 when all pass.  shags.f90 has
    the same checks, with nt (code 4) after l, late and lat are set. *)
Definition checks (nlat nlon mode nt idg jdg mdab ndab lsave lwork : Z) : Z :=
  if (nlat <? 3)%Z then 1%Z else if (nlon <? 4)%Z then 2%Z
  else if orb (mode <? 0)%Z (2 <? mode)%Z then 3%Z else if (nt <? 1)%Z then 4%Z
  else
    let l := Z.min ((nlon + 2) / 2) nlat in
    let late := ((nlat + nlat mod 2) / 2)%Z in
    let lat := if (mode =? 0)%Z then nlat else late in
    if (idg <? lat)%Z then 5%Z else if (jdg <? nlon)%Z then 6%Z
    else if (mdab <? l)%Z then 7%Z else if (ndab <? nlat)%Z then 8%Z
    else if (lsave <? lp_of nlat nlon l late)%Z then 9%Z
    else if andb (mode =? 0)%Z (lwork <? nlat * nlon * (nt + 1))%Z then 10%Z
    else if andb (negb (mode =? 0)%Z) (lwork <? late * nlon * (nt + 1))%Z then 10%Z
    else 0%Z.
(** shsgs.f90:112-118: first positions of wts, wfft, pmn in the saved workspace
    and of g, work in the temporary one (for nt fields) *)
Definition segments (nlat nlon mode nt : nat) : nat * nat * nat * (nat * nat) :=
  let l := l_of nlat nlon in let late := late_of nlat in
  let ifft := nlat + 2 * nlat * late + 3 * (l * (l - 1) / 2 + (nlat - l) * (l - 1)) + 1 in
  let ipmn := ifft + nlon + 15 in
  (1, ifft, ipmn, (1, lat_of nlat mode * nlon * nt + 1)).

(** spherical_harmonics.py:_compute_transform_sizes (n1, n2) and the lengths the
    Python layer passes: lshags (459-464) and lwork (1031, 1109) *)
Definition n1_of (nlat nlon : Z) : Z :=
  Z.min nlat (if (nlon mod 2 =? 0)%Z then (nlon + 2) / 2 else (nlon + 1) / 2).
Definition n2_of (nlat : Z) : Z := if (nlat mod 2 =? 0)%Z then (nlat / 2)%Z else ((nlat + 1) / 2)%Z.
Definition py_lshags (nlat nlon : Z) : Z :=
  let n1 := n1_of nlat nlon in let n2 := n2_of nlat in
  (nlat * (3 * (n1 + n2) - 2) + (n1 - 1) * (n2 * (2 * nlat - n1) - 3 * n1) / 2 + nlon + 15)%Z.
Definition py_lwork (nlat nlon nt : Z) : Z := (nlat * nlon * (nt + 1))%Z.

Section Transform.
Variables nlat nlon mode : nat.
Let l := l_of nlat nlon.
Let late := late_of nlat.
Let lat := lat_of nlat mode.
Let npm := npm_of nlat l.
Let nl2 := nlat / 2.
(** is = nlat - i + 1 *)
Let mirror (i : nat) := nlat - i + 1.
(** shsgs.f90:231, 280: mml1 = m * (2 * nlat - m - 1) / 2 *)
Definition mml1 (m : nat) : nat := m * (2 * nlat - m - 1) / 2.

(** ** Synthesis *)
(** The loops "do np1 = lo, nlat, 2 / do i = 1, hi" of shsgs.f90 at lines 237,
    252, 289, 305, 346, 361 (full sphere) and 402-455 (half): column c of row (row i) gets
    coefficient * pmn(i, mn), for every target (column, coefficient at np1). *)
Definition spread (row : nat -> nat) (hi m lo : nat) (ts : list (nat * (nat -> option R))) (pmn g : list R) : option (list R) :=
  foldM (fun g np1 =>
    let mn := mml1 m + np1 in
    let* vs := mapM (fun t => let* v := snd t np1 in Some (fst t, v)) ts in
    foldM (fun g i =>
      foldM (fun g cv =>
        let* x := rd2 lat nlon g (row i) (fst cv) in
        let* p := rd2 late npm pmn i mn in
        wr2 lat nlon g (row i) (fst cv) (x + snd cv * p)%R) vs g) (seq 1 hi) g)
    (by2 lo nlat) g.
(** shsgs.f90:265-275, 322-333, 373-383: even-odd reduction of the columns cs *)
Definition combine_rows (cs : list nat) (g : list R) : option (list R) :=
  foldM (fun g i =>
    foldM (fun g c =>
      let* t1 := rd2 lat nlon g i c in
      let* t3 := rd2 lat nlon g (mirror i) c in
      let* g := wr2 lat nlon g i c (t1 + t3)%R in
      wr2 lat nlon g (mirror i) c (t1 - t3)%R) cs g) (seq 1 nl2) g.
(** shsgs.f90:223-385 (n even or odd relative to m, then the reduction) *)
Definition column_full (m : nat) (ts : list (nat * (nat -> option R))) (pmn g : list R) : option (list R) :=
  let* g := spread (fun i => i) late m (m + 1) ts pmn g in
  let* g := spread mirror nl2 m (m + 2) ts pmn g in
  combine_rows (map fst ts) g.
(** shsgs.f90:387-457: meo is 1, or 2 in mode 1 *)
Definition column_half (m : nat) (ts : list (nat * (nat -> option R))) (pmn g : list R) : option (list R) :=
  spread (fun i => i) late m (m + if mode =? 1 then 2 else 1) ts pmn g.
Definition column (m : nat) (ts : list (nat * (nat -> option R))) (pmn g : list R) : option (list R) :=
  if mode =? 0 then column_full m ts pmn g else column_half m ts pmn g.
(** shsgs.f90:193-194, shags.f90:307-308 *)
Definition lm1 : nat := if nlon =? l + l - 2 then l - 1 else l.

Variables (d : R) (junk : list R).
(** shsgs.f90:206, shags.f90:277: every row of an array (lat, nlon) through a row transform *)
Definition fft_rows (tr : list R -> option (list R)) (g : list R) : option (list R) :=
  let* rows := mapM (fun i => let* r := mapM (fun j => rd2 lat nlon g i j) (seq 1 nlon) in tr r) (seq 1 lat) in
  Some (flat_map (fun j => map (fun r => nth j r 0%R) rows) (seq 0 nlon)).
(** shsgs.f90:206 *)
Definition back (ws : list R * list nat) (r : list R) : option (list R) :=
  let* y := hrfftb d nlon r junk ws in Some (fst y).
(** shags.f90:277 *)
Definition forw (ws : list R * list nat) (r : list R) : option (list R) :=
  let* y := hrfftf d nlon r junk ws in Some (fst y).

(** the double loops of shsgs.f90:212-219 and shags.f90:294-304:
    do j = 1, nj / do i = 1, ni : o(i, j) = f i j *)
Definition store (n1 n2 ni nj : nat) (f : nat -> nat -> option R) (o : list R) : option (list R) :=
  foldM (fun o j => foldM (fun o i => let* v := f i j in wr2 n1 n2 o i j v) (seq 1 ni) o) (seq 1 nj) o.

Section Arrays.
Variables idg jdg mdab ndab : nat.
(** shsgs.f90:155-458; [gs] is the content of the output array on entry *)
Definition shsgs1 (a b pmn : list R) (ws : list R * list nat) (gs : list R) : option (list R) :=
  let ca mp1 np1 := rd2 mdab ndab a mp1 np1 in
  let cb mp1 np1 := rd2 mdab ndab b mp1 np1 in
  let* g := Some (repeat 0%R (lat * nlon)) in                                  (* 183-189 *)
  let* g := column 0 [(1, ca 1)] pmn g in
  let* g := foldM (fun g mp1 => let m := mp1 - 1 in
              column m [(2 * m, ca mp1); (2 * m + 1, cb mp1)] pmn g) (seq 2 (lm1 - 1)) g in
  let* g := (if nlon =? l + l - 2
             then column (l - 1) [(nlon, fun np1 => let* v := ca l np1 in Some (2 * v)%R)] pmn g
             else Some g) in
  let* g := fft_rows (back ws) g in                                            (* 205-207 *)
  store idg jdg lat nlon (fun i j => let* v := rd2 lat nlon g i j in Some (1 / 2 * v)%R) gs.  (* 212-219 *)

(** ** Analysis *)
(** shags.f90:333-349 (process_full_sphere_mode): the weighted even and odd parts
    of every column; 486-500 (process_half_sphere_mode) *)
Definition weigh_full (wts g : list R) : option (list R) :=
  foldM (fun g j =>
    let* g := foldM (fun g i =>
      let* t1 := rd2 lat nlon g i j in
      let* t2 := rd2 lat nlon g (mirror i) j in
      let* w := (if inside i nlat then rd wts i else None) in
      let* g := wr2 lat nlon g i j (w * (t1 + t2))%R in
      wr2 lat nlon g (mirror i) j (w * (t1 - t2))%R) (seq 1 nl2) g in
    if nlat mod 2 =? 0 then Some g else
      let* w := rd wts late in
      let* x := rd2 lat nlon g late j in
      wr2 lat nlon g late j (w * x)%R) (seq 1 nlon) g.
Definition weigh_half (wts g : list R) : option (list R) :=
  foldM (fun g j =>
    let* g := foldM (fun g i =>
      let* x := rd2 lat nlon g i j in
      let* w := (if inside i nlat then rd wts i else None) in
      wr2 lat nlon g i j (w * (x + x))%R) (seq 1 nl2) g in
    if nl2 <? late then
      let* w := rd wts late in
      let* x := rd2 lat nlon g late j in
      wr2 lat nlon g late j (w * x)%R
    else Some g) (seq 1 nlon) g.
(** The loops "do np1 = lo, nlat, 2" of shags.f90:352-475 and 503-578: one sum over i = 1, late, stored (times
    [scale]) in o(mp1, np1) *)
Definition gather (row : nat -> nat) (m lo c : nat) (scale : R) (pmn g o : list R) : option (list R) :=
  foldM (fun o np1 =>
    let mn := mml1 m + np1 in
    let* s := foldM (fun s i =>
      let* x := rd2 lat nlon g (row i) c in
      let* p := rd2 late npm pmn i mn in
      Some (s + x * p)%R) (seq 1 late) 0%R in
    wr2 mdab ndab o (m + 1) np1 (scale * s)%R) (by2 lo nlat) o.
(** shags.f90:352-475, 503-578: one column into one of the arrays a, b *)
Definition collect (m c : nat) (scale : R) (pmn g o : list R) : option (list R) :=
  if mode =? 0 then
    let* o := gather (fun i => i) m (m + 1) c scale pmn g o in
    gather mirror m (m + 2) c scale pmn g o
  else gather (fun i => i) m (if mode =? 1 then m + 2 else m + 1) c scale pmn g o.

(** shags.f90:236-580 (copy 264-273, transform 276-278, scaling 281-291, zeros
    294-304); [a], [b] are the contents of the output arrays on entry *)
Definition shags1 (gs wts pmn : list R) (ws : list R * list nat) (a b : list R) : option (list R * list R) :=
  let* g := mapM (fun p => rd2 idg jdg gs (1 + p mod lat) (1 + p / lat)) (seq 0 (lat * nlon)) in
  let* g := fft_rows (forw ws) g in
  let g := map (fun x => 2 / INR nlon * x)%R g in
  let* a := store mdab ndab l nlat (fun _ _ => Some 0%R) a in
  let* b := store mdab ndab l nlat (fun _ _ => Some 0%R) b in
  let* g := (if mode =? 0 then weigh_full wts g else weigh_half wts g) in
  let* a := collect 0 1 1 pmn g a in
  let* ab := foldM (fun ab mp1 => let m := mp1 - 1 in
               let* a := collect m (2 * m) 1 pmn g (fst ab) in
               let* b := collect m (2 * m + 1) 1 pmn g (snd ab) in
               Some (a, b)) (seq 2 (lm1 - 1)) (a, b) in
  if nlon =? l + l - 2
  then let* a := collect (l - 1) nlon (1 / 2) pmn g (fst ab) in Some (a, snd ab)
  else Some ab.
End Arrays.
End Transform.
