(** Model of the tables behind the Gaussian-grid transforms:
    src/skyborn/spharm/src/sphcom.f90 dnlfk, dnlft, legin, legin1 and
    shags.f90 shagsp, shagsp1, shagss1, shagsi (shsgsp, shsgsp1, shsgss1, shsgsi
    of shsgs.f90 are the same statements).

    Simplifications:
    - numbers are reals, without rounding, so real(pb) and the products sc10,
      sc20, sc40 are exact and the two precisions coincide;
    - the segments p0n, p1n, abel, bbel, cbel of the workspace are separate arrays
      (their places are in [places] and [places_legin]);
    - abel, bbel and cbel, filled by one loop, are filled one after the other;
      likewise p0n and p1n are filled one after the other;
    - gaqd is in GQ_Model: here the colatitudes and weights are arguments;
    - the variables km0, km1, km2 with the save attribute are part of the state. *)
From Coq Require Import Reals List Arith ZArith Lia Bool.
From Verif Require Import Base Buffer VH_Model GS_Model.
Import ListNotations.
Local Open Scope nat_scope.

(** ** Fourier coefficients of a normalised Legendre function *)
(** sphcom.f90:3272-3274 *)
Definition sc10 : R := 1024.
Definition sc20 : R := (sc10 * sc10)%R.
Definition sc40 : R := (sc20 * sc20)%R.
(** sphcom.f90:3312-3320: the loop i = 1, nmms2 over (t1, nex, fnum, fden) *)
Definition t1_step (s : R * Z * R * R) : R * Z * R * R :=
  let '(t1, nex, fnum, fden) := s in
  let t1 := (fnum * t1 / fden)%R in
  let '(t1, nex) := if Rlt_dec sc20 t1 then ((t1 / sc40)%R, (nex + 40)%Z) else (t1, nex) in
  (t1, nex, (fnum + 2)%R, (fden + 2)%R).
(** sphcom.f90:3328-3331: the loop i = 1, ma over (t2, fnmh) *)
Definition t2_step (pm1 : R) (s : R * R) : R * R :=
  let '(t2, fnmh) := s in ((fnmh * t2 / (fnmh + pm1))%R, (fnmh + 2)%R).
(** sphcom.f90:3296-3334: cp2 for n >= 2 *)
Definition top (ma n : nat) : R :=
  let even := (n + ma) mod 2 =? 0 in
  let nmms2 := if even then (n - ma) / 2 else (n - ma - 1) / 2 in
  let fnum := if even then INR (n + ma + 1) else INR (n + ma + 2) in
  let fnmh := if even then INR (n - ma + 1) else INR (n - ma + 2) in
  let pm1 := (if even then 1 else -1)%R in
  let '(t1, nex, _, _) := Nat.iter nmms2 t1_step ((1 / sc20)%R, 20%Z, fnum, 2%R) in
  let t1 := (t1 / powerRZ 2 (Z.of_nat n - 1 - nex))%R in
  let t1 := if (ma / 2) mod 2 =? 0 then t1 else (- t1)%R in
  let '(t2, _) := Nat.iter ma (t2_step pm1) (1%R, fnmh) in
  (t1 * sqrt ((INR n + 1 / 2) * t2))%R.
(** sphcom.f90:3349-3351 and 3354-3358 *)
Definition cp_first (fnnp1 fnmsq fk c : R) : R :=
  let a1 := ((fk - 2) * (fk - 1) - fnnp1)%R in
  let b1 := (2 * (fk * fk - fnmsq))%R in
  (b1 * c / a1)%R.
Definition cp_next (fnnp1 fnmsq fk c c2 : R) : R :=
  let a1 := ((fk - 2) * (fk - 1) - fnnp1)%R in
  let b1 := (-2 * (fk * fk - fnmsq))%R in
  let c1 := ((fk + 1) * (fk + 2) - fnnp1)%R in
  (- (b1 * c + c1 * c2) / a1)%R.
(** sphcom.f90:3262-3360 *)
Definition dnlfk (m : Z) (n : nat) (cp : list R) : option (list R) :=
  let ma := Z.abs_nat m in
  let* cp := wrx cp 1 0%R in
  if n <? ma then Some cp else
  match n with
  | 0 => wrx cp 1 (sqrt 2)
  | 1 => if ma =? 0 then wrx cp 1 (sqrt (3 / 2)) else
         let* cp := wrx cp 1 (sqrt (3 / 4)) in
         if (m =? -1)%Z then let* x := rd cp 1 in wrx cp 1 (- x)%R else Some cp
  | _ =>
    let cp2 := top ma n in
    let fnnp1 := INR (n * (n + 1)) in
    let fnmsq := (fnnp1 - 2 * INR (ma * ma))%R in
    let l := (n + 1) / 2 + (if andb (n mod 2 =? 0) (ma mod 2 =? 0) then 1 else 0) in
    let* cp := wrx cp l cp2 in
    let* cp := (if andb (m <? 0)%Z (negb (ma mod 2 =? 0)) then let* x := rd cp l in wrx cp l (- x)%R else Some cp) in
    if l <=? 1 then Some cp else
    let* x := rd cp l in
    let* cp := wrx cp (l - 1) (cp_first fnnp1 fnmsq (INR n) x) in
    let* s := foldM (fun s l =>
      let fk := (snd s - 2)%R in
      let* x := rd (fst s) l in
      let* y := rd (fst s) (l + 1) in
      let* cp := wrx (fst s) (l - 1) (cp_next fnnp1 fnmsq fk x y) in
      Some (cp, fk)) (rev (seq 2 (l - 2))) (cp, INR n) in
    Some (fst s)
  end.

(** ** Value at a colatitude *)
(** the loops of sphcom.f90:3404-3409, 3416-3421, 3430-3435, 3439-3444: k = 1, kdo;
    [sn] says whether sth or cth is used, [off] is 1 where cp(k + 1) is read *)
Definition ft_loop (sn : bool) (off kdo : nat) (cdt sdt cth sth : R) (cp : list R) (pb : R) : option R :=
  let* s := foldM (fun s k =>
    let '(pb, cth, sth) := s in
    let* c := rd cp (k + off) in
    Some ((pb + c * (if sn : bool then sth else cth))%R, (cdt * cth - sdt * sth)%R, (sdt * cth + cdt * sth)%R))
    (seq 1 kdo) (pb, cth, sth) in
  Some (fst (fst s)).
(** sphcom.f90:3381-3447 *)
Definition dnlft (m n : nat) (theta : R) (cp : list R) : option R :=
  let cdt := cos (theta + theta) in
  let sdt := sin (theta + theta) in
  if n mod 2 =? 0 then
    let kdo := n / 2 in
    if m mod 2 =? 0 then
      let* c := rd cp 1 in
      let pb := (1 / 2 * c)%R in
      if n =? 0 then Some pb else ft_loop false 1 kdo cdt sdt cdt sdt cp pb
    else if kdo =? 0 then Some 0%R else ft_loop true 0 kdo cdt sdt cdt sdt cp 0%R
  else
    let kdo := (n + 1) / 2 in
    ft_loop (negb (m mod 2 =? 0)) 0 kdo cdt sdt (cos theta) (sin theta) cp 0%R.

(** ** The tables of order 0 and 1 and the recursion coefficients *)
Section Tables.
Variables nlat l : nat.
Let late := late_of nlat.
(** one call of dnlfk and the loop i = 1, late of shags.f90:806-810, 818-822, 826-830 *)
Definition degree_row (theta : list R) (m np1 : nat) (s : list R * list R) : option (list R * list R) :=
  let n := np1 - 1 in
  let* work := dnlfk (Z.of_nat m) n (snd s) in
  let* p := foldM (fun p i =>
    let* t := rd theta i in
    let* pb := dnlft m n t work in
    wr2 nlat late p np1 i pb) (seq 1 late) (fst s) in
  Some (p, work).
(** shags.f90:795-831: [junk] is the array on entry, [work] the scratch array *)
Definition table0 (theta junk work : list R) : option (list R * list R) :=
  let* p := foldM (fun p np1 => foldM (fun p i => wr2 nlat late p np1 i 0%R) (seq 1 late) p) (seq 1 nlat) junk in
  foldM (fun s np1 => degree_row theta 0 np1 s) (seq 1 nlat) (p, work).
Definition table1 (theta junk work : list R) : option (list R * list R) :=
  let* p := foldM (fun p np1 => foldM (fun p i => wr2 nlat late p np1 i 0%R) (seq 1 late) p) (seq 1 nlat) junk in
  foldM (fun s np1 => degree_row theta 1 np1 s) (seq 2 (nlat - 1)) (p, work).

(** shags.f90:775-776: statement functions indx and imndx; 839-840 *)
Definition imn_store (m n : nat) : nat :=
  let mz := Z.of_nat m in let nz := Z.of_nat n in let lz := Z.of_nat l in
  Z.to_nat (if (lz <=? nz)%Z then lz * (lz - 1) / 2 + (nz - lz - 1) * (lz - 1) + mz - 1 else (nz - 1) * (nz - 2) / 2 + mz - 1)%Z.
(** shags.f90:843-856 *)
Definition rz (z : Z) : R := IZR z.
Definition abel_of (m n : Z) : R :=
  sqrt ((rz (2 * n + 1) * rz (m + n - 2) * rz (m + n - 3)) / (rz (2 * n - 3) * rz (m + n - 1) * rz (m + n))).
Definition bbel_of (m n : Z) : R :=
  sqrt ((rz (2 * n + 1) * rz (n - m - 1) * rz (n - m)) / (rz (2 * n - 3) * rz (m + n - 1) * rz (m + n))).
Definition cbel_of (m n : Z) : R :=
  sqrt ((rz (n - m + 1) * rz (n - m + 2)) / (rz (n + m - 1) * rz (n + m))).
(** shags.f90:835-858, one of the three arrays *)
Definition coefficients (f : Z -> Z -> R) (a : list R) : option (list R) :=
  foldM (fun a n => foldM (fun a m => wrx a (imn_store m n) (f (Z.of_nat m) (Z.of_nat n)))
    (seq 2 (Nat.min n l - 1)) a) (seq 2 (nlat - 1)) a.

(** ** The recursion *)
(** element (np1, i, k) of pmn(nlat, late, 3): sphcom.f90:3569 *)
Definition rd3 (a : list R) (np1 i k : nat) : option R :=
  if andb (inside i late) (inside k 3) then rd2 nlat (late * 3) a np1 (pos late i k) else None.
Definition wr3 (a : list R) (np1 i k : nat) (v : R) : option (list R) :=
  if andb (inside i late) (inside k 3) then wr2 nlat (late * 3) a np1 (pos late i k) v else None.
(** sphcom.f90:3591-3595 *)
Definition imn_use (m n : nat) : nat :=
  let mz := Z.of_nat m in let nz := Z.of_nat n in let lz := Z.of_nat l in
  Z.to_nat (if (lz <=? nz)%Z then lz * (lz - 1) / 2 + (nz - lz - 1) * (lz - 1) + mz - 1 else (nz - 1) * (nz - 2) / 2 + mz - 1)%Z.
(** sphcom.f90:3563-3625; the state is (km0, km1, km2) and pmn, the result adds km *)
Definition legin1 (mode m : nat) (p0n p1n abel bbel cbel : list R) (s : (nat * nat * nat) * list R)
  : option (((nat * nat * nat) * list R) * nat) :=
  let '((km0, km1, km2), pmn) := s in
  let np1s := if mode =? 1 then by2 (m + 2) nlat else if mode =? 2 then by2 (m + 1) nlat else seq (m + 1) (nlat - m) in
  let* pmn :=
    (if 1 <? m then
       foldM (fun pmn np1 =>
         let n := np1 - 1 in
         let imn := imn_use m n in
         foldM (fun pmn i =>
           let* a := rd abel imn in
           let* x := rd3 pmn (n - 1) i km2 in
           let* b := rd bbel imn in
           let* y := rd3 pmn (n - 1) i km0 in
           let* c := rd cbel imn in
           let* z := rd3 pmn np1 i km2 in
           wr3 pmn np1 i km0 (a * x + b * y - c * z)%R) (seq 1 late) pmn) np1s pmn
     else if m =? 0 then
       foldM (fun pmn np1 => foldM (fun pmn i => let* v := rd2 nlat late p0n np1 i in wr3 pmn np1 i km0 v) (seq 1 late) pmn) np1s pmn
     else
       foldM (fun pmn np1 => foldM (fun pmn i => let* v := rd2 nlat late p1n np1 i in wr3 pmn np1 i km0 v) (seq 1 late) pmn) np1s pmn) in
  Some (((km2, km0, km1), pmn), km0).

(** shags.f90:600-645; [km] is the saved state on entry, [pmn] and [pmnf] the
    contents of the arrays on entry *)
Definition shagss1 (p0n p1n abel bbel cbel : list R) (km : nat * nat * nat) (pmn pmnf : list R) : option ((nat * nat * nat) * list R) :=
  let npm := npm_of nlat l in
  let* pmn := foldM (fun p np1 => foldM (fun p i => foldM (fun p k => wr3 p np1 i k 0%R) (seq 1 3) p) (seq 1 late) p) (seq 1 nlat) pmn in
  let* s := foldM (fun s mp1 =>
    let m := mp1 - 1 in
    let* r := legin1 0 m p0n p1n abel bbel cbel (fst s) in
    let k := snd r in
    let pmn := snd (fst r) in
    let* f := foldM (fun f np1 =>
      let mn := mml1 nlat m + np1 in
      foldM (fun f i => let* v := rd3 pmn np1 i k in wr2 late npm f i mn v) (seq 1 late) f) (seq mp1 (nlat - m)) (snd s) in
    Some (fst r, f)) (seq 1 l) ((km, pmn), pmnf) in
  Some (fst (fst s), snd s).

(** ** All of it: shags.f90:150-203 after the checks, with shagsp1 (755-859).
    [len] is the length of abel, bbel, cbel. *)
Definition shagsi_tables (theta : list R) (len : nat) (junk work : list R) (km : nat * nat * nat) (pmn pmnf : list R) : option (list R) :=
  let zero := repeat 0%R len in
  let* t0 := table0 theta junk work in
  let* t1 := table1 theta junk (snd t0) in
  let* abel := coefficients abel_of zero in
  let* bbel := coefficients bbel_of zero in
  let* cbel := coefficients cbel_of zero in
  let* r := shagss1 (fst t0) (fst t1) abel bbel cbel km pmn pmnf in
  Some (snd r).

(** shags.f90:706-712: i1 .. i7 in shagsp *)
Definition places : list nat :=
  let c := l * (l - 1) / 2 + (nlat - l) * (l - 1) in
  let i1 := 1 in let i2 := i1 + nlat in let i3 := i2 + nlat * late in let i4 := i3 + nlat * late in
  [i1; i2; i3; i4; i4 + c; i4 + c + c; i4 + c + c + c].
(** sphcom.f90:3551-3555: i1 .. i5 in legin *)
Definition places_legin : list nat :=
  let c := (2 * nlat - l) * (l - 1) / 2 in
  let i1 := 1 + nlat in let i2 := i1 + nlat * late in let i3 := i2 + nlat * late in
  [i1; i2; i3; i3 + c; i3 + c + c].
End Tables.

(** shags.f90:164-192: the checks of shagsi in their order *)
Definition shagsi_checks (nlat nlon lshags lwork ldwork : Z) : Z :=
  if (nlat <? 3)%Z then 1%Z else if (nlon <? 4)%Z then 2%Z else
  let l := Z.min ((nlon + 2) / 2) nlat in
  let late := ((nlat + 1) / 2)%Z in
  let lp := (nlat * (3 * (l + late) - 2) + (l - 1) * (late * (2 * nlat - l) - 3 * l) / 2 + nlon + 15)%Z in
  if (lshags <? lp)%Z then 3%Z
  else if (lwork <? 4 * nlat * (nlat + 2) + 2)%Z then 4%Z
  else if (ldwork <? nlat * (nlat + 4))%Z then 5%Z else 0%Z.
(** shags.f90:681-703: the checks of shagsp *)
Definition shagsp_checks (nlat nlon lshags ldwork : Z) : Z :=
  if (nlat <? 3)%Z then 1%Z else if (nlon <? 4)%Z then 2%Z else
  let l := Z.min ((nlon + 2) / 2) nlat in
  let late := ((nlat + nlat mod 2) / 2)%Z in
  if (lshags <? nlat * (2 * late + 3 * l - 2) + Z.quot (3 * l * (1 - l)) 2 + nlon + 15)%Z then 3%Z
  else if (ldwork <? nlat * (nlat + 4))%Z then 4%Z else 0%Z.
(** shags.f90:200 *)
Definition ipmnf (nlat nlon l : nat) : nat :=
  nlat + 2 * nlat * late_of nlat + 3 * (l * (l - 1) / 2 + (nlat - l) * (l - 1)) + nlon + 16.
(** shags.f90:715-717: idth, idwts, iw *)
Definition places_double (nlat : nat) : list nat := [1; 1 + nlat; 1 + nlat + nlat].
(** spherical_harmonics.py:465-466 *)
Definition py_lwork_init (nlat : Z) : Z := (4 * nlat * (nlat + 2) + 2)%Z.
Definition py_ldwork_init (nlat : Z) : Z := (nlat * (nlat + 4))%Z.
