(** Model of src/skyborn/spharm/src/gaqd.f90: the Gaussian colatitudes and weights
    (gaqd, cpdp, tpdp, kahan_sum).

    Simplifications:
    - numbers are reals, without rounding; dzeps(1.0), which measures rounding, is
      an argument, and epsilon is 2^-52;
    - cpdp and tpdp receive theta(ns2+1) and wts(ns2+1), so they work inside the
      output arrays: here they take the arrays and the offset ns2;
    - a variable that is not yet defined (zprev for even nlat) is None, and reading
      it, or an element outside an array, makes the whole run None;
    - dwork and ldwork are not used by the code;
    - the OMP SIMD directives are comments: the loops run in order. *)
From Coq Require Import Reals List Arith ZArith Lia Bool.
From Verif Require Import Base Buffer VH_Model.
Import ListNotations.
Local Open Scope nat_scope.

(** gaqd.f90:183-186, 189-192, 202-205: one step of (t1, t2, t3, t4) *)
Definition t_step (t : R * R * R * R) : R * R * R * R :=
  let '(t1, t2, t3, t4) := t in ((t1 + 2)%R, (t2 - 1)%R, (t3 + 1)%R, (t4 - 2)%R).
(** gaqd.f90:187, 193, 206 *)
Definition t_ratio (t : R * R * R * R) : R :=
  let '(t1, t2, t3, t4) := t in ((t1 * t2) / (t3 * t4))%R.
(** gaqd.f90:196-198, 210-212: dcp(j) for j = 1 .. ncp; odd subtracts one *)
Definition fill_dcp (odd : nat) (off ncp : nat) (cp dcp : list R) : option (list R) :=
  foldM (fun dcp j => let* x := rd cp (off + j) in wrx dcp (off + j) (INR (j + j - odd) * x)%R) (seq 1 ncp) dcp.
(** gaqd.f90:165-215; cp(j) is a(off + j), dcp(j) is d(off + j) *)
Definition cpdp (n off : nat) (cp dcp : list R) : option (R * list R * list R) :=
  let ncp := (n + 1) / 2 in
  let t0 := ((-1)%R, (INR n + 1)%R, 0%R, (INR n + INR n + 1)%R) in
  if n mod 2 =? 0 then
    let* cp := wrx cp (off + ncp) 1%R in
    let* s := foldM (fun s j =>
      let t := t_step (snd s) in
      let* x := rd (fst s) (off + j) in
      let* cp := wrx (fst s) (off + (j - 1)) (t_ratio t * x)%R in
      Some (cp, t)) (rev (seq 2 (ncp - 1))) (cp, t0) in
    let t := t_step (snd s) in
    let* x := rd (fst s) (off + 1) in
    let cz := (t_ratio t * x)%R in
    let* dcp := fill_dcp 0 off ncp (fst s) dcp in
    Some (cz, fst s, dcp)
  else
    let* cp := wrx cp (off + ncp) 1%R in
    let* s := foldM (fun s j =>
      let t := t_step (snd s) in
      let* x := rd (fst s) (off + (j + 1)) in
      let* cp := wrx (fst s) (off + j) (t_ratio t * x)%R in
      Some (cp, t)) (rev (seq 1 (ncp - 1))) (cp, t0) in
    let* dcp := fill_dcp 1 off ncp (fst s) dcp in
    Some (0%R, fst s, dcp).

(** gaqd.f90:243-249, 260-266: the loop over (pb, dpb, cth, sth) *)
Definition tpdp_loop (off kdo : nat) (cdt sdt : R) (cp dcp : list R) (s : R * R * R * R) : option (R * R * R * R) :=
  foldM (fun s k =>
    let '(pb, dpb, cth, sth) := s in
    let* x := rd cp (off + k) in
    let* y := rd dcp (off + k) in
    Some ((pb + x * cth)%R, (dpb - y * sth)%R, (cdt * cth - sdt * sth)%R, (sdt * cth + cdt * sth)%R)) (seq 1 kdo) s.
(** gaqd.f90:218-269 *)
Definition tpdp (n off : nat) (theta cz : R) (cp dcp : list R) : option (R * R) :=
  let cdt := cos (theta + theta) in
  let sdt := sin (theta + theta) in
  if n mod 2 =? 0 then
    let* s := tpdp_loop off (n / 2) cdt sdt cp dcp ((1 / 2 * cz)%R, 0%R, cdt, sdt) in
    let '(pb, dpb, _, _) := s in Some (pb, dpb)
  else
    let* s := tpdp_loop off ((n + 1) / 2) cdt sdt cp dcp (0%R, 0%R, cos theta, sin theta) in
    let '(pb, dpb, _, _) := s in Some (pb, dpb).

(** gaqd.f90:85, 107, 153: epsilon of real(8) *)
Definition epsilon : R := (/ 2 ^ 52)%R.
(** gaqd.f90:85, 107 *)
Definition tiny : R := (epsilon * 1000)%R.
(** gaqd.f90:86: sign(a, b) is |a| with the sign of b *)
Definition fsign (a b : R) : R := if Rlt_dec b 0 then (- Rabs a)%R else Rabs a.
(** gaqd.f90:85-93: the correction, cut at cmax *)
Definition correction (eps cmax pb dpb : R) : R :=
  let dcor := if Rlt_dec (Rabs dpb) tiny then fsign eps pb else (pb / dpb)%R in
  let sgnd := if Req_EM_T dcor 0 then 1%R else (dcor / Rabs dcor)%R in
  (sgnd * Rmin (Rabs dcor) cmax)%R.
(** gaqd.f90:74-101: the loop, [more] passes after this one; result (zero, zlast, pb, dpb).
    it > 50 leaves at the 51st pass *)
Fixpoint newton (n off : nat) (eps cmax cz : R) (cp dcp : list R) (more : nat) (zero : R) : option (R * R * R * R) :=
  let zlast := zero in
  let* v := tpdp n off zero cz cp dcp in
  let '(pb, dpb) := v in
  let zero := (zero - correction eps cmax pb dpb)%R in
  if Rle_dec (Rabs (zero - zlast)) (eps * Rmax (Rabs zero) 1)%R then Some (zero, zlast, pb, dpb) else
  match more with 0 => Some (zero, zlast, pb, dpb) | S more => newton n off eps cmax cz cp dcp more zero end.
(** gaqd.f90:107-112 *)
Definition weight (nlat : nat) (zlast pb dpb : R) : R :=
  if Rlt_dec tiny (Rabs (sin zlast)) then (INR (nlat + nlat + 1) / (dpb + pb * cos zlast / sin zlast) ^ 2)%R
  else (INR (nlat + nlat + 1) / (dpb * dpb))%R.
(** gaqd.f90:73-124: the loop while nix > 0 *)
Fixpoint points (nlat : nat) (eps cmax cz : R) (nix : nat) (theta wts : list R) (zero : R) (zprev : option R) : option (list R * list R) :=
  let ns2 := nlat / 2 in
  let nhalf := (nlat + 1) / 2 in
  match nix with
  | 0 => Some (theta, wts)
  | S nix' =>
    let* v := newton nlat ns2 eps cmax cz theta wts 50 zero in
    let '(zero, zlast, pb, dpb) := v in
    let* theta := wrx theta nix zero in
    let zhold := zero in
    let* wts := wrx wts nix (weight nlat zlast pb dpb) in
    match nix' with
    | 0 => Some (theta, wts)
    | _ =>
      let* zero := (if nix' =? nhalf - 1 then Some (3 * zero - PI)%R
                    else if nix' <? nhalf - 1 then let* p := zprev in Some (zero + zero - p)%R
                    else Some zero) in
      points nlat eps cmax cz nix' theta wts zero (Some zhold)
    end
  end.

(** gaqd.f90:127-131 *)
Definition centre (nlat : nat) (cz : R) (theta wts : list R) : option (list R * list R) :=
  let ns2 := nlat / 2 in
  let nhalf := (nlat + 1) / 2 in
  if nlat mod 2 =? 0 then Some (theta, wts) else
  let* theta := wrx theta nhalf (PI / 2)%R in
  let* v := tpdp nlat ns2 (PI / 2)%R cz theta wts in
  let '(_, dpb) := v in
  let* wts := wrx wts nhalf (INR (nlat + nlat + 1) / (dpb * dpb))%R in
  Some (theta, wts).
(** gaqd.f90:135-138 *)
Definition mirror (nlat : nat) (theta wts : list R) : option (list R * list R) :=
  foldM (fun s i =>
    let* w := rd (snd s) i in
    let* wts := wrx (snd s) (nlat - i + 1) w in
    let* t := rd (fst s) i in
    let* theta := wrx (fst s) (nlat - i + 1) (PI - t)%R in
    Some (theta, wts)) (seq 1 (nlat / 2)) (theta, wts).
(** gaqd.f90:301-320: Kahan summation over (result, c) *)
Definition kahan_sum (n : nat) (a : list R) : option R :=
  let* s := foldM (fun s i =>
    let '(result, c) := s in
    let* x := rd a i in
    let y := (x - c)%R in
    let t := (result + y)%R in
    let c := ((t - result) - y)%R in
    Some (t, c)) (seq 1 n) (0%R, 0%R) in
  Some (fst s).
(** gaqd.f90:141-155 *)
Definition total (nlat : nat) (wts : list R) : option R :=
  let* sum := (if 1000 <? nlat then kahan_sum nlat wts
               else foldM (fun sum i => let* x := rd wts i in Some (sum + x)%R) (seq 1 nlat) 0%R) in
  Some (if Rlt_dec (Rabs sum) (epsilon * INR nlat)%R then 2%R else sum).
(** gaqd.f90:158-160 *)
Definition scale (nlat : nat) (sum : R) (wts : list R) : option (list R) :=
  foldM (fun wts i => let* x := rd wts i in wrx wts i (2 * x / sum)%R) (seq 1 nlat) wts.
(** gaqd.f90:126-160: what follows the loop *)
Definition finish (nlat : nat) (cz : R) (theta wts : list R) : option (list R * list R) :=
  let* tw := centre nlat cz theta wts in
  let* tw := mirror nlat (fst tw) (snd tw) in
  let* sum := total nlat (snd tw) in
  let* wts := scale nlat sum (snd tw) in
  Some (fst tw, wts).

(** gaqd.f90:6-162: (ierror, theta, wts); dz is dzeps(1.0) *)
Definition gaqd (nlat : Z) (dz : R) (theta wts : list R) : option (nat * list R * list R) :=
  if (nlat <=? 0)%Z then Some (1, theta, wts) else
  let nlat := Z.to_nat nlat in
  if nlat =? 1 then
    let* theta := wrx theta 1 (acos 0) in
    let* wts := wrx wts 1 2%R in
    Some (0, theta, wts)
  else if nlat =? 2 then
    let x := sqrt (1 / 3) in
    let* theta := wrx theta 1 (acos x) in
    let* theta := wrx theta 2 (acos (- x)) in
    let* wts := wrx wts 1 1%R in
    let* wts := wrx wts 2 1%R in
    Some (0, theta, wts)
  else
    let eps := (sqrt dz * sqrt (sqrt dz))%R in
    let pis2 := (PI / 2)%R in
    let ns2 := nlat / 2 in
    let nhalf := (nlat + 1) / 2 in
    let* c := cpdp nlat ns2 theta wts in
    let '(cz, theta, wts) := c in
    let dtheta := (pis2 / INR nhalf)%R in
    let dthalf := (dtheta / 2)%R in
    let cmax := (2 / 10 * dtheta)%R in
    let* tw := (if negb (nlat mod 2 =? 0) then points nlat eps cmax cz (nhalf - 1) theta wts (pis2 - dtheta)%R (Some pis2)
                else points nlat eps cmax cz nhalf theta wts (pis2 - dthalf)%R None) in
    let* tw := finish nlat cz (fst tw) (snd tw) in
    Some (0, fst tw, snd tw).
