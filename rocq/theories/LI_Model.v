(** Model of src/skyborn/interp/fortran/linint2.f90 and of the workspace sizes in
    linint2.pyf.

    Numbers are exact rationals, [xmsg] the missing-value sentinel.  A work array
    is the list of its current contents, so stale elements are visible.  A dummy
    argument such as xi(nin) is the rest of the actual array from the element
    passed, together with [nin]: reading past [nin] but inside the actual array
    gives what is stored there, and [None] is an access outside it.
    A matrix f(nx, ny) is the list over ny of its rows f(:, ny). *)
From Verif Require Import Base Buffer Loops VH_Model.
Local Open Scope nat_scope.

(** linint2.f90:384-416: returns (iflag, ier); [iflag] is -1, 0 or 1 *)
Fixpoint all_steps (bad : Qc -> Qc -> bool) (x : list Qc) : bool :=
  match x with
  | a :: ((b :: _) as r) => if bad b a then false else all_steps bad r
  | _ => true
  end.
Definition dmonoid1 (xi : list Qc) : Z * Z :=
  match xi with
  | x1 :: x2 :: _ =>
      if Qcltb x1 x2 then (if all_steps (fun b a => Qcleb b a) xi then (1, 0)%Z else (0, 2)%Z)
      else (if all_steps (fun b a => Qcleb a b) xi then (-1, 0)%Z else (0, 2)%Z)
  | _ => (1, 0)%Z
  end.
(** linint2.f90:423-445 *)
Definition dmonoid2 (xi xo : list Qc) : Z * Z :=
  let (iflag, ier) := dmonoid1 xi in
  if (iflag =? 0)%Z then (iflag, 2%Z)
  else
    let nflag := fst (dmonoid1 xo) in
    if (nflag =? 0)%Z then (iflag, 3%Z) else if negb (iflag =? nflag)%Z then (iflag, 4%Z) else (iflag, ier).

(** linint2.f90:287-289 and 307-309: the cursor loop; [past] is [xo(no) > xi(ni+1)]
    or its mirror image.  [xi(ni+1)] is read only when [ni < nin - 1] (Fortran may
    read it anyway; the value is not used). *)
Fixpoint advance (fuel : nat) (past : Qc -> Qc -> bool) (nin : nat) (xi : list Qc) (t : Qc) (ni : nat) : option nat :=
  match fuel with
  | O => None
  | S fuel =>
      if ni + 1 <? nin then
        let* x := rd xi (ni + 1) in
        if past t x then advance fuel past nin xi t (ni + 1) else Some ni
      else Some ni
  end.
(** linint2.f90:291-300 and 311-320: the value at one target *)
Definition at_cursor (past : Qc -> Qc -> bool) (xi fi : list Qc) (xmsg t : Qc) (ni : nat) : option Qc :=
  let* x0 := rd xi ni in
  if Qceqb t x0 then rd fi ni
  else
    let* x1 := rd xi (ni + 1) in
    if Qceqb t x1 then rd fi (ni + 1)
    else if past t x0 && past x1 t then
      let* f0 := rd fi ni in
      let* f1 := rd fi (ni + 1) in
      if negb (Qceqb f0 xmsg) && negb (Qceqb f1 xmsg)
      then Some (f0 + (f1 - f0) / (x1 - x0) * (t - x0))%Qc
      else Some xmsg
    else Some xmsg.
(** the loop over targets, the cursor carried along *)
Fixpoint sweep (past : Qc -> Qc -> bool) (nin : nat) (xi fi : list Qc) (xmsg : Qc) (xo : list Qc) (ni : nat) : option (list Qc) :=
  match xo with
  | [] => Some []
  | t :: r =>
      let* ni := advance (nin + 1) past nin xi t ni in
      let* v := at_cursor past xi fi xmsg t ni in
      let* vs := sweep past nin xi fi xmsg r ni in
      Some (v :: vs)
  end.
(** linint2.f90:270-323; the result is [fo] *)
Definition dlin2int1 (nin : nat) (xi fi xo : list Qc) (xmsg : Qc) (iflag : Z) : option (list Qc) :=
  if (iflag =? 1)%Z then sweep (fun a b => Qcltb b a) nin xi fi xmsg xo 1
  else if (iflag =? -1)%Z then sweep Qcltb nin xi fi xmsg xo 1
  else Some (map (fun _ => xmsg) xo).

Definition qcdist (a b : Qc) : Qc := if Qcleb b a then (a - b)%Qc else (b - a)%Qc.
(** linint2.f90:330-354: the dummies xiw(0:nxi+1), fxiw(0:nxi+1) start at the
    first element of the caller's arrays, so their element j is element j + 1 here *)
Definition dlincyc (xi fi : list Qc) (nxstrt nxlast : nat) (iflag : Z) (w : list Qc * list Qc) (npts : nat) : option (list Qc * list Qc) :=
  let nxi := length xi in
  let (xiw, fxiw) := w in
  let* x1 := rd xi 1 in
  let* x2 := rd xi 2 in
  let* xn := rd xi nxi in
  let* xm := rd xi (nxi - 1) in
  if (nxstrt =? 1) && (nxlast =? nxi) then
    let* xiw := wrx xiw 1 (x1 - qz iflag * qcdist x2 x1)%Qc in
    let* fn := rd fi nxi in
    let* fxiw := wrx fxiw 1 fn in
    let* xiw := wrx xiw (npts + 2) (xn + qz iflag * qcdist xn xm)%Qc in
    let* f1 := rd fi 1 in
    let* fxiw := wrx fxiw (npts + 2) f1 in
    Some (xiw, fxiw)
  else
    let s := (Z.of_nat nxstrt + (Z.of_nat nxi - Z.of_nat nxlast))%Z in
    let* w1 := rd xiw 2 in
    let* xiw := wrx xiw 1 (w1 - qz iflag * (qz s * qcdist x2 x1))%Qc in
    let* fn := rd fxiw (npts + 1) in
    let* fxiw := wrx fxiw 1 fn in
    let* wn := rd xiw (npts + 1) in
    let* xiw := wrx xiw (npts + 2) (wn + qz iflag * (qz s * qcdist xn xm))%Qc in
    let* f1 := rd fxiw 2 in
    let* fxiw := wrx fxiw (npts + 2) f1 in
    Some (xiw, fxiw).

(** linint2.f90:65-71, 89-97, 173-179, 231-239: valid points copied to positions
    2, 3, ... of the work arrays; returns (npts, nxstrt, nxlast) with them *)
Fixpoint pack (xmsg : Qc) (xs fs : list Qc) (nx : nat) (c : nat * (nat * nat)) (w : list Qc * list Qc)
    : option ((nat * (nat * nat)) * (list Qc * list Qc)) :=
  match xs, fs with
  | x :: xs, f :: fs =>
      if negb (Qceqb f xmsg) then
        let npts := fst c + 1 in
        let* xiw := wrx (fst w) (npts + 1) x in
        let* fxiw := wrx (snd w) (npts + 1) f in
        pack xmsg xs fs (nx + 1) (npts, (if npts =? 1 then nx else fst (snd c), nx)) (xiw, fxiw)
      else pack xmsg xs fs (nx + 1) c w
  | _, _ => Some (c, w)
  end.
(** linint2.f90:77-80, 204-207: all points copied there *)
Definition copy_row (xi fi : list Qc) (w : list Qc * list Qc) : option (list Qc * list Qc) :=
  foldM (fun w nx => let* x := rd xi nx in let* f := rd fi nx in
                     let* xiw := wrx (fst w) (nx + 1) x in
                     let* fxiw := wrx (snd w) (nx + 1) f in Some (xiw, fxiw)) (seq 1 (length xi)) w.

(** linint2.f90:60-107 (with the early return of line 99-102 when [early]) and
    153-157, 170-182, 202-212, 225-243: one row; [icycx] is tested for 0 and
    [iopt] for 0 and 1.  Returns the interpolated row ([None]: left as it was)
    and the work arrays. *)
Definition one_row (early : bool) (xi fi xo : list Qc) (icycx iopt : Z) (xmsg : Qc) (iflag : Z) (w : list Qc * list Qc)
    : option (option (list Qc) * (list Qc * list Qc)) :=
  let nxi := length xi in
  if (icycx =? 0)%Z then
    if (iopt =? 0)%Z then let* r := dlin2int1 nxi xi fi xo xmsg iflag in Some (Some r, w)
    else if (iopt =? 1)%Z then
      let* cw := pack xmsg xi fi 1 (0, (0, 0)) w in
      let w := snd cw in
      let* r := dlin2int1 (fst (fst cw)) (skipn 1 (fst w)) (skipn 1 (snd w)) xo xmsg iflag in Some (Some r, w)
    else Some (None, w)
  else
    if (iopt =? 0)%Z then
      let* w := copy_row xi fi w in
      let* w := dlincyc xi fi 1 nxi iflag w nxi in
      let* r := dlin2int1 (nxi + 2) (fst w) (snd w) xo xmsg iflag in Some (Some r, w)
    else if (iopt =? 1)%Z then
      let* cw := pack xmsg xi fi 1 (0, (0, 0)) w in
      let '((npts, (nxstrt, nxlast)), w) := cw in
      if early && (npts =? 0) then Some (None, w)
      else
        let* w := dlincyc xi fi nxstrt nxlast iflag w npts in
        let* r := dlin2int1 (npts + 2) (fst w) (snd w) xo xmsg iflag in Some (Some r, w)
    else Some (None, w).

(** linint2.f90:34-108; [w] are the work arrays xiw(nxi2), fxiw(nxi2).  The
    result is [fo] and whether [ier] is 0. *)
Definition dlinint1 (xi fi xo : list Qc) (icycx iopt : Z) (xmsg : Qc) (w : list Qc * list Qc) : option (list Qc * bool) :=
  let none := map (fun _ => xmsg) xo in
  if length xo <? 1 then Some (none, false)
  else if length xi <=? 1 then Some (none, false)
  else
    let (iflag, ier) := dmonoid2 xi xo in
    if (iflag =? 0)%Z || negb (ier =? 0)%Z then Some (none, false)
    else
      let* rw := one_row true xi fi xo icycx iopt xmsg iflag w in
      match fst rw with
      | Some r => Some (r, true)
      | None => Some (none, negb (negb (icycx =? 0)%Z && (iopt =? 1)%Z))
      end.
(** linint2.pyf: xiw and fxiw are allocated with nxi2 = len(xi) elements, their
    contents unspecified *)
Definition py_workspace (xi : list Qc) (w : list Qc * list Qc) : Prop := length (fst w) = length xi /\ length (snd w) = length xi.

(** linint2.f90:185-192, 246-253: valid entries of a column packed into yiw, fyiw
    from position 1 *)
Fixpoint pack_y (xmsg : Qc) (ys fs : list Qc) (npts : nat) (w : list Qc * list Qc) : option (nat * (list Qc * list Qc)) :=
  match ys, fs with
  | y :: ys, f :: fs =>
      if negb (Qceqb f xmsg) then
        let* yiw := wrx (fst w) (npts + 1) y in
        let* fyiw := wrx (snd w) (npts + 1) f in
        pack_y xmsg ys fs (npts + 1) (yiw, fyiw)
      else pack_y xmsg ys fs npts w
  | _, _ => Some (npts, w)
  end.
(** linint2.f90:159-169 and 184-199 (214-224 and 245-260): column [nx] of [ftmp]
    interpolated in y; [wy] are yiw(nyi), fyiw(nyi) *)
Definition one_column (yi yo : list Qc) (ftmp : list (list Qc)) (iopt : Z) (xmsg : Qc) (iflag : Z) (wy : list Qc * list Qc) (nx : nat)
    : option (list Qc * (list Qc * list Qc)) :=
  let* col := mapM (fun row => rd row nx) ftmp in
  if (iopt =? 0)%Z then let* r := dlin2int1 (length yi) yi col yo xmsg iflag in Some (r, (fst wy, col))
  else
    let* cw := pack_y xmsg yi col 0 wy in
    let wy := snd cw in
    let* r := dlin2int1 (fst cw) (fst wy) (snd wy) yo xmsg iflag in Some (r, wy).
(** a map that carries a state along *)
Fixpoint mapS {A B S : Type} (f : S -> A -> option (B * S)) (l : list A) (s : S) : option (list B) :=
  match l with
  | [] => Some []
  | x :: r => let* ys := f s x in let* bs := mapS f r (snd ys) in Some (fst ys :: bs)
  end.
(** linint2.f90:115-263, [iopt] 0 or 1.  [iflag] is overwritten by the second
    dmonoid2 call.  The result lists over nx the columns fo(nx, :), with [ier]. *)
Definition dlinint2 (xi yi : list Qc) (fi : list (list Qc)) (xo yo : list Qc) (icycx iopt : Z) (xmsg : Qc) (w wy : list Qc * list Qc)
    : option (list (list Qc) * Z) :=
  let none := map (fun _ => map (fun _ => xmsg) yo) xo in
  if (length xo <? 1) || (length yo <? 1) then Some (none, 1%Z)
  else if (length xi <? 2) || (length yi <? 2) then Some (none, 1%Z)
  else
    let (iflag, ier) := dmonoid2 xi xo in
    if (iflag =? 0)%Z || negb (ier =? 0)%Z then Some (none, 2%Z)
    else
      let (iflag, ier) := dmonoid2 yi yo in
      if (iflag =? 0)%Z || negb (ier =? 0)%Z then Some (none, 3%Z)
      else
        let* ftmp := mapS (fun w row => let* rw := one_row false xi row xo icycx iopt xmsg iflag w in
                                         match fst rw with Some r => Some (r, snd rw) | None => None end) fi w in
        let* cols := mapS (fun wy nx => one_column yi yo ftmp iopt xmsg iflag wy nx) (seq 1 (length xo)) wy in
        Some (cols, 0%Z).

(** linint2.f90:361-377: [true] when ier = 0 *)
Definition dmonoinc (x : list Qc) : bool := all_steps (fun b a => Qcleb b a) x.

(** linint2.f90:522-531, 538-547: bisection *)
Fixpoint cell_loop (fuel : nat) (x : list Qc) (t : Qc) (lo hi : nat) : option nat :=
  match fuel with
  | O => None
  | S fuel =>
      if 1 <? hi - lo then
        let mid := (lo + hi) / 2 in
        let* xm := rd x mid in
        if Qcleb xm t then cell_loop fuel x t mid hi else cell_loop fuel x t lo mid
      else Some lo
  end.
(** linint2.f90:518-533, 535-549: 0 when outside the half-open range *)
Definition cell_of (x : list Qc) (t : Qc) : option nat :=
  let n := length x in
  let* a := rd x 1 in
  let* b := rd x n in
  if Qcleb a t && Qcltb t b then cell_loop (n + 1) x t 1 n else Some 0.

Section Est.
(** 1 / sqrt *)
Variable isq : Qc -> Qc.
(** linint2.f90:579-613 *)
Definition estfow (f1 f2 f3 f4 x1 x2 y1 y2 x0 y0 xmsg : Qc) : Qc :=
  let w x y := isq ((x - x0) * (x - x0) + (y - y0) * (y - y0))%Qc in
  let s := fold_left (fun (acc : Qc * Qc) fw => if Qceqb (fst fw) xmsg then acc else (fst acc + fst fw * snd fw, snd acc + snd fw)%Qc)
             [(f1, w x1 y1); (f2, w x2 y1); (f3, w x1 y2); (f4, w x2 y2)] (0, 0)%Qc in
  if Qceqb f1 xmsg && Qceqb f2 xmsg && Qceqb f3 xmsg && Qceqb f4 xmsg then xmsg
  else if Qcltb 0 (snd s) then (fst s / snd s)%Qc else xmsg.
(** linint2.f90:505-571 with nopt = -1: one target *)
Definition point_value (xi yi : list Qc) (fi : list (list Qc)) (xmsg x y : Qc) : option Qc :=
  let* nn := cell_of xi x in
  let* mm := cell_of yi y in
  if (nn =? 0) || (mm =? 0) then Some xmsg
  else
    let get n m := let* row := rd fi m in rd row n in
    let* x0 := rd xi nn in
    let* y0 := rd yi mm in
    let* f11 := get nn mm in
    if Qceqb x x0 && Qceqb y y0 then Some f11
    else
      let* x1 := rd xi (nn + 1) in
      let* y1 := rd yi (mm + 1) in
      let* f21 := get (nn + 1) mm in
      let* f12 := get nn (mm + 1) in
      let* f22 := get (nn + 1) (mm + 1) in
      if negb (Qceqb f11 xmsg) && negb (Qceqb f21 xmsg) && negb (Qceqb f12 xmsg) && negb (Qceqb f22 xmsg) then
        let slpx := ((x - x0) / (x1 - x0))%Qc in
        let slpy := ((y - y0) / (y1 - y0))%Qc in
        let tmp1 := (f11 + slpx * (f21 - f11))%Qc in
        let tmp2 := (f12 + slpx * (f22 - f12))%Qc in
        Some (tmp1 + slpy * (tmp2 - tmp1))%Qc
      else Some (estfow f11 f21 f12 f22 x0 x1 y0 y1 x y xmsg).
Definition dlint2xy (xi yi : list Qc) (fi : list (list Qc)) (xo yo : list Qc) (xmsg : Qc) : option (list Qc) :=
  mapM (fun xy => point_value xi yi fi xmsg (fst xy) (snd xy)) (combine xo yo).
(** linint2.f90:480-486 and 488-494: a row and its wrapped neighbours, [first] and
    [last], written into a work row of [nxi2] elements *)
Definition wrap_row (row : list Qc) (first last : Qc) (w : list Qc) : option (list Qc) :=
  let* w := foldM (fun w nx => let* v := rd row nx in wrx w (nx + 1) v) (seq 1 (length row)) w in
  let* w := wrx w 1 first in
  wrx w (length w) last.
(** linint2.f90:452-498.  [xiw] and [fixw] are the work arrays xiw(nxi2) and
    fixw(nxi2, nyi); xiw is written first, so [None] when nxi2 <= nxi comes before
    any row of fixw could run into the next one.  An inner [None]: ier /= 0, [fo]
    not set. *)
Definition dlinint2pts (xi yi : list Qc) (fi : list (list Qc)) (icycx : Z) (xo yo : list Qc) (xmsg : Qc) (xiw : list Qc) (fixw : list (list Qc))
    : option (option (list Qc)) :=
  if (length xi <? 2) || (length yi <? 2) then Some None
  else if negb (dmonoinc xi) then Some None
  else if negb (dmonoinc yi) then Some None
  else if (icycx =? 0)%Z then let* r := dlint2xy xi yi fi xo yo xmsg in Some (Some r)
  else
    let nxi := length xi in
    let* x1 := rd xi 1 in
    let* x2 := rd xi 2 in
    let* xn := rd xi nxi in
    let* xiw := wrap_row xi (x1 - (x2 - x1))%Qc (xn + (x2 - x1))%Qc xiw in
    let* fixw := mapM (fun rw => let* f1 := rd (fst rw) 1 in let* fn := rd (fst rw) nxi in wrap_row (fst rw) fn f1 (snd rw)) (combine fi fixw) in
    let* r := dlint2xy xiw yi fixw xo yo xmsg in Some (Some r).
End Est.
