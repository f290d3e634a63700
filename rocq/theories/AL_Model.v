(** Model of the Legendre functions at a point:
    src/skyborn/spharm/src/alf.f90 alfk, lfpt and getlegfunc.f90 getlegfunc.

    Simplifications:
    - numbers are reals, without rounding;
    - the degree is a natural number (for a negative one alfk and lfpt return at once);
    - nex, a real variable that only holds whole numbers, is an integer;
    - the OMP SIMD directives are comments, except in [alfk_private], which reads the
      private clauses of alfk as the OpenMP standard defines them. *)
From Coq Require Import Reals List Arith ZArith Lia Bool.
From Verif Require Import Base Buffer VH_Model SH_Model.
Import ListNotations.
Local Open Scope nat_scope.

(** ** alfk *)
(** alf.f90:35-37 *)
Definition sc10 : R := 1024.
Definition sc20 : R := (sc10 * sc10)%R.
Definition sc40 : R := (sc20 * sc20)%R.
(** alf.f90:79-87: the loop i = 1, nmms2 over (t1, nex, fnum, fden) *)
Definition t1_step (s : R * Z * R * R) : R * Z * R * R :=
  let '(t1, nex, fnum, fden) := s in
  let t1 := (fnum * t1 / fden)%R in
  let '(t1, nex) := if Rlt_dec sc20 t1 then ((t1 / sc40)%R, (nex + 40)%Z) else (t1, nex) in
  (t1, nex, (fnum + 2)%R, (fden + 2)%R).
(** alf.f90:96-99: the loop i = 1, ma over (t2, fnmh) *)
Definition t2_step (pm1 : R) (s : R * R) : R * R :=
  let '(t2, fnmh) := s in ((fnmh * t2 / (fnmh + pm1))%R, (fnmh + 2)%R).
(** alf.f90:60-102: cp2 for n >= 2 *)
Definition cp2 (ma n : nat) : R :=
  let even := (n + ma) mod 2 =? 0 in
  let nmms2 := if even then (n - ma) / 2 else (n - ma - 1) / 2 in
  let fnum := if even then INR (n + ma + 1) else INR (n + ma + 2) in
  let fnmh := if even then INR (n - ma + 1) else INR (n - ma + 2) in
  let pm1 := (if even then 1 else -1)%R in
  let '(t1, nex, _, _) := Nat.iter nmms2 t1_step ((1 / sc20)%R, 20%Z, fnum, 2%R) in
  let t1 := (t1 / powerRZ 2 (Z.of_nat n - 1 - nex))%R in
  let t1 := if (ma / 2) mod 2 =? 0 then t1 else (- t1)%R in
  let '(t2, _) := Nat.iter ma (t2_step pm1) (1%R, fnmh) in
  (t1 * sqrt ((INR n + 1 / 2) * t2))%R.
(** alf.f90:76-102 with the clauses PRIVATE(t1, nex) of line 78 and PRIVATE(fnmh) of
    line 95 in force: the iterations work on copies, so t1 and nex keep their values of
    lines 73 and 74; the copy of fnmh starts undefined, [copy i] being what iteration i finds *)
Definition cp2_private (copy : nat -> R) (ma n : nat) : R :=
  let even := (n + ma) mod 2 =? 0 in
  let pm1 := (if even then 1 else -1)%R in
  let t1 := (1 / sc20)%R in
  let nex := 20%Z in
  let t1 := (t1 / powerRZ 2 (Z.of_nat n - 1 - nex))%R in
  let t1 := if (ma / 2) mod 2 =? 0 then t1 else (- t1)%R in
  let t2 := fold_left (fun t2 i => (copy i * t2 / (copy i + pm1))%R) (seq 1 ma) 1%R in
  (t1 * sqrt ((INR n + 1 / 2) * t2))%R.
(** alf.f90:115-117 and 122-125 *)
Definition cp_first (fnnp1 fnmsq fk c : R) : R :=
  let a1 := ((fk - 2) * (fk - 1) - fnnp1)%R in
  let b1 := (2 * (fk * fk - fnmsq))%R in
  (b1 * c / a1)%R.
Definition cp_next (fnnp1 fnmsq fk c c2 : R) : R :=
  let a1 := ((fk - 2) * (fk - 1) - fnnp1)%R in
  let b1 := (-2 * (fk * fk - fnmsq))%R in
  let c1 := ((fk + 1) * (fk + 2) - fnnp1)%R in
  (- (b1 * c + c1 * c2) / a1)%R.
(** alf.f90:103-127: from the highest coefficient down *)
Definition alfk_down (n : nat) (m : Z) (top : R) (cp : list R) : option (list R) :=
  let ma := Z.abs_nat m in
  let fnnp1 := INR (n * (n + 1)) in
  let fnmsq := (fnnp1 - 2 * INR (ma * ma))%R in
  let l := (n + 1) / 2 + (if andb (n mod 2 =? 0) (ma mod 2 =? 0) then 1 else 0) in
  let* cp := wrx cp l top in
  let* cp := (if andb (m <? 0)%Z (negb (ma mod 2 =? 0)) then let* x := rd cp l in wrx cp l (- x)%R else Some cp) in
  if l <=? 1 then Some cp else
  let* x := rd cp l in
  let* cp := wrx cp (l - 1) (cp_first fnnp1 fnmsq (INR n) x) in
  let* s := foldM (fun s l =>
    let fk := (snd s - 2)%R in
    let* x := rd (fst s) l in
    let* y := rd (fst s) (l + 1) in
    let* cp := wrx (fst s) (l - 1) (cp_next fnnp1 fnmsq fk x y) in
    Some (cp, fk)) (rev (seq 2 (l - 2))) (cp, INR n) in
  Some (fst s).
(** alf.f90:24-128, the highest coefficient being [highest ma n] *)
Definition alfk_with (highest : nat -> nat -> R) (n : nat) (m : Z) (cp : list R) : option (list R) :=
  let ma := Z.abs_nat m in
  let* cp := wrx cp 1 0%R in
  if n <? ma then Some cp else
  match n with
  | 0 => wrx cp 1 (sqrt 2)
  | 1 => if ma =? 0 then wrx cp 1 (sqrt (3 / 2)) else
         let* cp := wrx cp 1 (sqrt (3 / 4)) in
         if (m =? -1)%Z then let* x := rd cp 1 in wrx cp 1 (- x)%R else Some cp
  | _ => alfk_down n m (highest ma n) cp
  end.
(** alf.f90:24-128, the directives being comments *)
Definition alfk : nat -> Z -> list R -> option (list R) := alfk_with cp2.
(** alf.f90:24-128, the directives being in force *)
Definition alfk_private (copy : nat -> R) : nat -> Z -> list R -> option (list R) := alfk_with (cp2_private copy).

(** ** lfpt *)
(** the loops of alf.f90:477-482, 494-499, 514-519, 530-535 over (ct, st, sum);
    [sn] says whether st or ct is used *)
Definition pt_loop (sn : bool) (ks : list nat) (cdt sdt ct st : R) (cp : list R) (sum : R) : option R :=
  let* s := foldM (fun s k =>
    let '(ct, st, sum) := s in
    let cth := (cdt * ct - sdt * st)%R in
    let st := (sdt * ct + cdt * st)%R in
    let ct := cth in
    let* c := rd cp k in
    Some (ct, st, (sum + c * (if sn : bool then st else ct))%R)) ks (ct, st, sum) in
  Some (snd s).
(** alf.f90:439-540; [sqrt (1 / 2)] is line 457 *)
Definition lfpt (n : nat) (m : Z) (theta : R) (cp : list R) : option R :=
  let ma := Z.abs_nat m in
  if n <? ma then Some 0%R else
  match n with
  | 0 => Some (if ma <=? 0 then sqrt (1 / 2) else 0%R)
  | _ =>
    let cdt := cos (theta + theta) in
    let sdt := sin (theta + theta) in
    if n mod 2 =? 0 then
      if ma mod 2 =? 0 then
        let kdo := n / 2 + 1 in
        let* c := rd cp 1 in
        pt_loop false (seq 2 (kdo - 1)) cdt sdt 1 0 cp (1 / 2 * c)%R
      else
        let kdo := n / 2 in
        pt_loop true (seq 1 kdo) cdt sdt 1 0 cp 0%R
    else
      let kdo := (n + 1) / 2 in
      pt_loop (negb (ma mod 2 =? 0)) (seq 1 kdo) cdt sdt (cos theta) (- sin theta)%R cp 0%R
  end.

(** ** getlegfunc *)
(** getlegfunc.f90:24 *)
Definition colatitude (lat : R) : R := (1 / 2 * PI - PI / 180 * lat)%R.
(** getlegfunc.f90:7-40 with alfk given; [cp] and [junk] are the arrays as they are
    found.  The lengths of cp, ntrunc/2 + 1, and of legfunc are the caller's. *)
Definition getlegfunc_with (alfk : nat -> Z -> list R -> option (list R)) (lat : R) (ntrunc : Z) (cp junk : list R) : option (list R) :=
  let theta := colatitude lat in
  option_map snd (tri_loop ntrunc (fun m => m) (fun m n nm s =>
    let* cp := alfk (Z.to_nat (n - 1)) (m - 1)%Z (fst s) in
    let* v := lfpt (Z.to_nat (n - 1)) (m - 1)%Z theta cp in
    let* out := wrz (snd s) nm v in
    Some (cp, out)) (cp, junk)).
Definition getlegfunc : R -> Z -> list R -> list R -> option (list R) := getlegfunc_with alfk.
