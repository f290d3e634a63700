(** Model of the potential-intensity kernels
    (src/skyborn/calc/GPI/fortran/tropical_cyclone_potential_intensity.f90),
    cited below as tcpi.f90.

    Conventions.
    - Arithmetic is exact (R).  The code is in single precision with a double
      precision CAPE kernel; the conversions between the two are the identity
      here.
    - An operation that has no real value (division by zero, logarithm or real
      power of a non-positive number, square root of a negative one) and an
      array access outside the array end the run: the result is [None].  In
      the code these give NaN or Inf and the run goes on; such runs are outside
      the theorems about results.
    - Arrays are lists read from 1 with [rd].  The work arrays of the CAPE
      environment are modelled on their first num_points elements, the only
      ones prepare_cape_environment writes.
    - SIMD and thread-parallel loops over levels are run in sequence. *)
From Coq Require Import Reals List Arith Lia ZArith Bool.
From Verif Require Import Base Buffer VH_Model.
Import ListNotations.
Local Open Scope nat_scope.

(** Comparisons and partial operations (Fortran intrinsics on reals). *)
Definition rlt (x y : R) : bool := if Rlt_dec x y then true else false.
Definition rle (x y : R) : bool := if Rle_dec x y then true else false.
Definition req (x y : R) : bool := if Req_EM_T x y then true else false.
Definition rdiv (x y : R) : option R := if Req_EM_T y 0%R then None else Some (x / y)%R.
Definition rlog (x : R) : option R := if Rlt_dec 0 x then Some (ln x) else None.
Definition rpow (x y : R) : option R := if Rlt_dec 0 x then Some (Rpower x y) else None.
Definition rsqrt (x : R) : option R := if Rle_dec 0 x then Some (sqrt x) else None.

(** tcpi.f90:69 *)
Definition UNDEF : R := IZR (-9990000000000000000000000000000000).

(** tcpi.f90:1390-1406 (and 1294-1301) *)
Definition CPD : R := (10057 / 10)%R.
Definition CL : R := 2500%R.
Definition CPVMCL : R := (-630)%R.
Definition RV : R := (4615 / 10)%R.
Definition RD : R := (28704 / 100)%R.
Definition EPS : R := (RD / RV)%R.
Definition ALV0 : R := 2501000%R.
Definition INV_EPS : R := (1 / EPS)%R.
Definition INV_RV : R := (1 / RV)%R.
Definition KELVIN : R := (27315 / 100)%R.
Definition MAX_IT : nat := 500.
Definition P_TOP : R := 50%R.

(** tcpi.f90:1317, 1440, 1513-1514 and 684: the Magnus formula, argument in C *)
Definition magnus (t : R) : option R :=
  let* q := rdiv (1767 / 100 * t)%R (2435 / 10 + t)%R in
  Some (6112 / 1000 * exp q)%R.

(** tcpi.f90:1312-1314 *)
Definition virt (T r rtot : R) : option R := rdiv (T * (1 + r * INV_EPS))%R (1 + rtot)%R.

Record env := mkenv { e_T : list R; e_p : list R; e_tv : list R; e_es : list R; e_lf : list R }.

(** tcpi.f90:1308-1318: one level *)
Definition env_level (T r p : list R) (level : nat) : option (R * R * R * R) :=
  let* t := rd T level in
  let* q := rd r level in
  let* pp := rd p level in
  let* tv := virt t q q in
  let* es := magnus (t - KELVIN)%R in
  Some (t, pp, tv, es).

(** tcpi.f90:1305 and 1322-1326: the layer factor of one level *)
Definition layer_factor (p : list R) (level : nat) : option R :=
  if level =? 1 then Some 0%R else
  let* p0 := rd p (level - 1) in
  let* p1 := rd p level in
  rdiv (RD * (p0 - p1))%R (p1 + p0)%R.

(** tcpi.f90:1275-1328 *)
Definition prepare_cape_environment (T r p : list R) (n : nat) : option env :=
  let* rows := mapM (env_level T r p) (seq 1 n) in
  let ps := map (fun '(_, b, _, _) => b) rows in
  let* lf := mapM (layer_factor ps) (seq 1 n) in
  Some (mkenv (map (fun '(a, _, _, _) => a) rows) ps
              (map (fun '(_, _, c, _) => c) rows) (map (fun '(_, _, _, d) => d) rows) lf).

(** tcpi.f90:1489-1506: one step of the moist iteration at pressure [p], from
    temperature [T] and saturation mixing ratio [r]; [rp] is the parcel's total
    water and [s] its entropy.  Returns the new temperature. *)
Definition newton_step (rp s p : R) (it : nat) (T r : R) : option R :=
  let lh := (ALV0 + CPVMCL * (T - KELVIN))%R in                          (* 1489 *)
  let* a := rdiv (lh * lh * r * INV_RV)%R (T * T)%R in
  let* rate := rdiv (CPD + rp * CL + a)%R T in                            (* 1490-1492 *)
  let* e := rdiv (r * p)%R (EPS + r)%R in                                 (* 1493-1494 *)
  let* lt := rlog T in
  let* lp := rlog (p - e)%R in
  let* lr := rdiv (lh * r)%R T in
  let sp := ((CPD + rp * CL) * lt - RD * lp + lr)%R in                    (* 1495-1497 *)
  let ap := (if it <? 3 then 3 / 10 else 1)%R in                          (* 1499-1503 *)
  let* d := rdiv (ap * (s - sp))%R rate in
  Some (T + d)%R.                                                         (* 1505-1506 *)

(** tcpi.f90:1486-1530: the loop; [Some None] is error flag 2.  [fuel] is the
    number of iterations left before iteration_count reaches MAX_ITERATIONS. *)
Fixpoint moist_iter (fuel : nat) (rp s p : R) (it : nat) (T r : R) : option (option (R * R)) :=
  match fuel with
  | O => Some None                                                        (* 1527-1530 *)
  | S fuel' =>
      let it := S it in                                                   (* 1487 *)
      let* tn := newton_step rp s p it T r in
      if rle (Rabs (tn - T)) (1 / 1000) then Some (Some (T, r))            (* 1508-1509 *)
      else
        let* es := magnus (tn - KELVIN)%R in                              (* 1511-1514 *)
        if orb (MAX_IT <? it) (rlt (p - 1)%R es) then Some None            (* 1516-1520 *)
        else let* rn := rdiv (EPS * es)%R (p - es)%R in                    (* 1522-1523 *)
             moist_iter fuel' rp s p it tn rn
  end.

(** tcpi.f90:1439-1451: entropy and condensation pressure of the parcel *)
Definition parcel_start (Tp rp pp : R) : option (R * R) :=
  let tc := (Tp - KELVIN)%R in
  let* es := magnus tc in                                                 (* 1440 *)
  let* e := rdiv (rp * pp)%R (EPS + rp)%R in                              (* 1441 *)
  let* rh0 := rdiv e es in
  let rh := Rmin rh0 1 in                                                 (* 1442 *)
  let lh := (ALV0 + CPVMCL * tc)%R in                                     (* 1443 *)
  let* lt := rlog Tp in
  let* lp := rlog (pp - e)%R in
  let* q := rdiv (lh * rp)%R Tp in
  let* lrh := rlog rh in
  let s := ((CPD + rp * CL) * lt - RD * lp + q - rp * RV * lrh)%R in      (* 1444-1448 *)
  let* chi := rdiv Tp (1669 - 122 * rh - Tp)%R in                         (* 1450 *)
  let* w := rpow rh chi in
  Some (s, (pp * w)%R).                                                   (* 1451 *)

(** tcpi.f90:1453-1472: zero, then the dry levels *)
Definition dry_diff (E : env) (Tp rp pp plcl : R) (level : nat) : option R :=
  let* p := rd (e_p E) level in
  if andb (rle P_TOP p) (rle plcl p) then
    let* x := rdiv p pp in
    let* w := rpow x (RD / CPD)%R in
    let* tv := virt (Tp * w)%R rp rp in
    let* te := rd (e_tv E) level in
    Some (tv - te)%R
  else Some 0%R.

(** tcpi.f90:1478-1536: one moist level *)
Definition moist_diff (E : env) (rp s sig : R) (level : nat) : option (option R) :=
  let* p := rd (e_p E) level in
  let* t0 := rd (e_T E) level in
  let* es := rd (e_es E) level in
  let* r0 := rdiv (EPS * es)%R (p - es)%R in
  let* o := moist_iter MAX_IT rp s p 0 t0 r0 in
  match o with
  | None => Some None
  | Some (t, r) =>
      let* tv := virt t r (sig * r + (1 - sig) * rp)%R in
      let* te := rd (e_tv E) level in
      Some (Some (tv - te)%R)
  end.

(** tcpi.f90:1474-1538: the moist levels, left at the first level above 50 mb;
    [Some None] is error flag 2 *)
Fixpoint moist_loop (E : env) (rp s sig plcl : R) (levels : list nat) (vtd : list R) : option (option (list R)) :=
  match levels with
  | [] => Some (Some vtd)
  | level :: rest =>
      let* p := rd (e_p E) level in
      if rlt p P_TOP then Some (Some vtd)                                 (* 1475 *)
      else if rlt p plcl then                                             (* 1477 *)
        let* o := moist_diff E rp s sig level in
        match o with
        | None => Some None
        | Some d => let* vtd' := wrx vtd level d in moist_loop E rp s sig plcl rest vtd'
        end
      else moist_loop E rp s sig plcl rest vtd
  end.

(** tcpi.f90:1543-1549: the highest level with positive buoyancy, else 1 *)
Fixpoint find_lnb (vtd : list R) (level : nat) : option nat :=
  match level with
  | O => Some 1
  | S k => let* v := rd vtd level in if rlt 0 v then Some level else find_lnb vtd k
  end.

(** tcpi.f90:1558-1563: positive and negative area, one layer *)
Definition area_step (E : env) (vtd : list R) (acc : R * R) (level : nat) : option (R * R) :=
  let* v := rd vtd level in
  let* w := rd vtd (level - 1) in
  let* f := rd (e_lf E) level in
  let pf := ((v + w) * f)%R in
  Some ((fst acc + Rmax pf 0)%R, (snd acc - Rmin pf 0)%R).

(** tcpi.f90:1575-1589: the part above the level of neutral buoyancy; returns
    the area, the outflow temperature and the outflow pressure *)
Definition above_lnb (E : env) (vtd : list R) (n lnb : nat) : option (R * R * R) :=
  let* tl := rd (e_T E) lnb in
  let* pl := rd (e_p E) lnb in
  if lnb <? n then
    let* pu := rd (e_p E) (lnb + 1) in
    let* tu := rd (e_T E) (lnb + 1) in
    let* vl := rd vtd lnb in
    let* vu := rd vtd (lnb + 1) in
    let* pn := rdiv (pu * vl - pl * vu)%R (vl - vu)%R in                   (* 1576-1578 *)
    let* area := rdiv (RD * vl * (pl - pn))%R (pl + pn)%R in               (* 1579-1581 *)
    let* tn := rdiv (tl * (pn - pu) + tu * (pl - pn))%R (pl - pu)%R in     (* 1582-1586 *)
    Some (area, tn, pn)
  else Some (0%R, tl, pl).

(** cape_value, outflow_temp, outflow_level, error_flag *)
Record cape_out := mkcape { c_cape : R; c_T : R; c_p : R; c_flag : Z }.

(** tcpi.f90:1540-1594: the integrals *)
Definition cape_integrals (E : env) (pp : R) (n : nat) (vtd : list R) : option cape_out :=
  let* t1 := rd (e_T E) 1 in
  let* p1 := rd (e_p E) 1 in
  let* lnb := find_lnb vtd n in
  if lnb =? 1 then Some (mkcape 0 t1 0 1)                                  (* 1551-1554 *)
  else
    let* a := foldM (area_step E vtd) (seq 2 (lnb - 1)) (0%R, 0%R) in      (* 1558-1563 *)
    let* v1 := rd vtd 1 in
    let* pf := rdiv (RD * (pp - p1))%R (pp + p1)%R in                      (* 1566-1567 *)
    let pa := (fst a + pf * Rmax v1 0)%R in                                (* 1568 *)
    let na := (snd a - pf * Rmin v1 0)%R in                                (* 1569 *)
    let* o := above_lnb E vtd n lnb in
    let '(area, tn, pn) := o in
    Some (mkcape (Rmax (pa + area - na) 0) tn pn 1).                       (* 1591-1593 *)

(** tcpi.f90:1366-1595 *)
Definition cape_from_cached_environment (Tp rp pp : R) (E : env) (n : nat) (sig : R) : option cape_out :=
  let* t1 := rd (e_T E) 1 in                                              (* 1424-1427 *)
  let* p1 := rd (e_p E) 1 in
  if orb (rlt rp (1 / 1000000)) (rlt Tp 200) then Some (mkcape 0 t1 p1 0)  (* 1434-1437 *)
  else
    let* sp := parcel_start Tp rp pp in
    let '(s, plcl) := sp in
    let* vtd0 := mapM (dry_diff E Tp rp pp plcl) (seq 1 n) in
    let* o := moist_loop E rp s sig plcl (seq 1 n) vtd0 in
    match o with
    | None => Some (mkcape 0 t1 p1 2)
    | Some vtd => cape_integrals E pp n vtd
    end.

(** tcpi.f90:1330-1364 *)
Definition CAPE (Tp rp pp : R) (T r p : list R) (n : nat) (sig : R) : option cape_out :=
  let* E := prepare_cape_environment T r p n in
  cape_from_cached_environment Tp rp pp E n sig.

(** The outputs of calculate_pi_core (tcpi.f90:611-619). *)
Record pi_out := mkpi { o_pmin : R; o_vmax : R; o_To : R; o_po : R;
                        o_lnpi : R; o_lneff : R; o_lndiseq : R; o_lnckcd : R; o_flag : Z }.

(** tcpi.f90:625-646 *)
Definition CKCD_SOLVER : R := (9 / 10)%R.
Definition EPS_CONST : R := (62197183 / 100000000)%R.
Definition INV_0622 : R := (16077899 / 10000000)%R.
Definition INV_RD : R := (1 / RD)%R.
Definition CORE_MAX_IT : nat := 200.

(** tcpi.f90:694-702: index of the level nearest 50 mb (the first such) *)
Fixpoint find_top (p : list R) (levels : list nat) (top : nat) (diff : R) : option nat :=
  match levels with
  | [] => Some top
  | i :: rest =>
      let* x := rd p i in
      let d := Rabs (x - 50) in
      if rlt d diff then find_top p rest i d else find_top p rest top diff
  end.

(** tcpi.f90:693-703 *)
Definition effective_points (p : list R) (num_points : nat) : option nat :=
  let* p1 := rd p 1 in
  let* top := find_top p (seq 2 (num_points - 1)) 1 (Rabs (p1 - 50)) in
  Some (Nat.max 1 (top - 1)).

(** What one pass of the loop leaves in the local variables:
    cape_max_wind_radius, cape_saturated, outflow_temp, outflow_level, rat, tvav *)
Record pass := mkpass { k_m : R; k_s : R; k_To : R; k_po : R; k_rat : R; k_tv : R }.

(** tcpi.f90:735-781: one pass from the pressure [pm].  [inl flag] is a return
    because of a CAPE error; [inr] is the pass and the value of cat. *)
Definition core_pass (E : env) (n : nat) (T1 r1 sstK es psl : R) (ofl : Z) (cape_env pm : R)
  : option (Z + pass * R) :=
  let pp := Rmin pm 1000 in                                               (* 735 *)
  let* rp := rdiv (EPS_CONST * r1 * psl)%R (pp * (EPS_CONST + r1) - r1 * psl)%R in
  let* cm := cape_from_cached_environment T1 rp pp E n 0 in               (* 741-745 *)
  if negb (c_flag cm =? 1)%Z then Some (inl (c_flag cm)) else
  let* rs := rdiv (EPS_CONST * es)%R (pp - es)%R in                       (* 754-755 *)
  let* cs := cape_from_cached_environment sstK rs pp E n 0 in             (* 757-761 *)
  if negb (c_flag cs =? 1)%Z then Some (inl (c_flag cs)) else
  let To := if (ofl =? 1)%Z then c_T cm else c_T cs in                    (* 768-773 *)
  let po := if (ofl =? 1)%Z then c_p cm else c_p cs in
  let* rat := rdiv sstK To in                                             (* 775 *)
  let* tv0 := rdiv (T1 * (1 + r1 * INV_0622))%R (1 + r1)%R in             (* 776 *)
  let* tvs := rdiv (sstK * (1 + rs * INV_0622))%R (1 + rs)%R in           (* 777 *)
  let tvav := (1 / 2 * (tv0 + tvs))%R in
  let cat := ((c_cape cm - cape_env) + 1 / 2 * CKCD_SOLVER * rat * (c_cape cs - c_cape cm))%R in
  Some (inr (mkpass (c_cape cm) (c_cape cs) To po rat tvav, Rmax cat 0)). (* 779-781 *)

Inductive loop_out :=
| Lfuel                                  (* more passes than the fuel: see [core_loop_fuel] *)
| Lerr (flag : Z) (last : option pass)   (* return at 747-750 or 763-766 *)
| Ldiv                                   (* return at 787-794 *)
| Ldone (np : nat) (pm pmold : R) (last : option pass).

(** tcpi.f90:734-795; [np] updates done, [last] the previous pass *)
Fixpoint core_loop (fuel np : nat) (E : env) (n : nat) (T1 r1 sstK es psl : R) (ofl : Z) (cape_env : R)
  (pm pmold pnew : R) (last : option pass) : option loop_out :=
  if negb (rlt (1 / 2) (Rabs (pnew - pmold))) then Some (Ldone np pm pmold last) else
  match fuel with
  | O => Some Lfuel
  | S fuel' =>
      let* o := core_pass E n T1 r1 sstK es psl ofl cape_env pm in
      match o with
      | inl fl => Some (Lerr fl last)
      | inr (k, cat) =>
          let* x := rdiv (- cat * INV_RD)%R (k_tv k) in
          let pnew' := (psl * exp x)%R in                                 (* 782 *)
          if orb (CORE_MAX_IT <? S np) (rlt pnew' 400) then Some Ldiv      (* 785-794 *)
          else core_loop fuel' (S np) E n T1 r1 sstK es psl ofl cape_env pnew' pm pnew' (Some k)
      end
  end.

(** tcpi.f90:797-823: results after the loop *)
Definition core_finish (sstK psl cape_env lnckcd : R) (valid_ck : bool) (k : pass) : option pi_out :=
  let catfac := (1 / 2 * (1 + 1 / 2))%R in                                (* 797 *)
  let cat := Rmax ((k_m k - cape_env) + CKCD_SOLVER * k_rat k * catfac * (k_s k - k_m k))%R 0 in
  let* x := rdiv (- cat * INV_RD)%R (k_tv k) in
  let pmin := (psl * exp x)%R in                                          (* 801 *)
  let fac := Rmax 0 (k_s k - k_m k)%R in                                  (* 802 *)
  let* sq := rsqrt (CKCD_SOLVER * k_rat k * fac)%R in
  let vmax := (8 / 10 * sq)%R in                                          (* 803 *)
  let* lneff :=                                                           (* 808-814 *)
     (if andb (rlt 0 (k_To k)) (rlt (k_To k) sstK)
      then let* ef := rdiv (sstK - k_To k)%R (k_To k) in
           if rlt 0 ef then let* l := rlog ef in Some (Some l) else Some None
      else Some None) in
  let* lnpi := (if rlt 0 vmax then let* l := rlog vmax in Some (Some (2 * l)%R) else Some None) in
  let val (o : option R) := match o with Some l => l | None => UNDEF end in
  let lndiseq := match lnpi, lneff with
                 | Some a, Some b => if valid_ck then (a - b - lnckcd)%R else UNDEF
                 | _, _ => UNDEF
                 end in                                                   (* 821-823 *)
  Some (mkpi pmin vmax (k_To k) (k_po k) (val lnpi) (val lneff) lndiseq lnckcd 1).

(** tcpi.f90:678-681 *)
Definition ckcd_log (ckcd : R) : R * bool :=
  if rlt 0 ckcd then (ln ckcd, true) else (UNDEF, false).

(** tcpi.f90:596-825 *)
Definition calculate_pi_core (sstC psl : R) (p tc rg : list R) (num_points : nat) (ofl : Z) (ckcd : R)
  : option pi_out :=
  let '(lnck, vck) := ckcd_log ckcd in
  let sstK := (sstC + KELVIN)%R in                                        (* 683 *)
  let* es := magnus sstC in                                               (* 684 *)
  let* r := mapM (fun i => let* x := rd rg i in Some (Rmax (x * (1 / 1000)) 0)%R) (seq 1 num_points) in
  let* T := mapM (fun i => let* x := rd tc i in Some (x + KELVIN)%R) (seq 1 num_points) in
  let* n := effective_points p num_points in                              (* 693-703 *)
  let* E := prepare_cape_environment T r p n in                           (* 705-708 *)
  let* T1 := rd T 1 in                                                    (* 713-715 *)
  let* r1 := rd r 1 in
  let* p1 := rd p 1 in
  let* ce := cape_from_cached_environment T1 r1 p1 E n 0 in               (* 717-721 *)
  let fail (fl : Z) (last : option pass) :=
     Some (mkpi psl 0 (match last with Some k => k_To k | None => UNDEF end)
                (match last with Some k => k_po k | None => UNDEF end) UNDEF UNDEF UNDEF lnck fl) in
  if negb (c_flag ce =? 1)%Z then fail (c_flag ce) None                   (* 723-726 *)
  else
    let* o := core_loop 202 0 E n T1 r1 sstK es psl ofl (c_cape ce) 970 970 0 None in
    match o with
    | Lfuel => None
    | Lerr fl last => fail fl last
    | Ldiv => Some (mkpi UNDEF UNDEF UNDEF UNDEF UNDEF UNDEF UNDEF lnck 2)
    | Ldone _ _ _ (Some k) => core_finish sstK psl (c_cape ce) lnck vck k
    | Ldone _ _ _ None => None
    end.
