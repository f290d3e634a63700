(** Model of src/skyborn/calc/dcape/fortran/dcape.f90 (downdraft CAPE) and of
    the dispatch in src/skyborn/calc/dcape/core.py.

    Written over an arbitrary record [fl] of floating point operations
    (TP_Model) with four more operations as arguments: [pw] is **, [fin] is
    ieee_is_finite, [nan] a quiet NaN and [trunc] is int() of a non-negative
    number.  The work arrays p, t, td are one array of triples; arrays are lists
    with 1-based reads and writes that fail outside, and their contents on entry
    are arguments.  Unary minus is subtraction from zero.  The C glue
    (dcape_core_module.c: equal shapes or ValueError) is in the hypotheses. *)
From Verif Require Import Base Buffer VH_Model TP_Model.
Local Close Scope Qc_scope.
Local Open Scope nat_scope.

Section DC.
Variable A : fl.
Variables (pw : A -> A -> A) (fin : A -> bool) (nan : A) (trunc : A -> nat).

(** <=, min and max and unary minus of double precision, as used at dcape.f90:30-31, 45,
    144, 159-160, 275; min and max keep the first argument unless the second
    compares strictly better *)
Definition dle (x y : A) : bool := fltb A x y || feqb A x y.
Definition dmin (x y : A) : A := if fltb A y x then y else x.
Definition dmax (x y : A) : A := if fltb A x y then y else x.
Definition dneg (x : A) : A := fsub A (fc A 0 1) x.

(** dcape.f90:9-13 *)
Definition eps : A := fc A 622 1000.
Definition rd_air : A := fc A 28705 100.
Definition cp_air : A := fc A 1004 1.
Definition lv : A := fc A 2500000 1.
Definition kappa : A := fdiv A rd_air cp_air.

(** dcape.f90:17-20 [sat_vapor_pressure_hpa] *)
Definition sat_vapor_pressure_hpa (tc : A) : A :=
  fmul A (fc A 6112 1000) (fexp A (fdiv A (fmul A (fc A 1767 100) tc) (fadd A tc (fc A 2435 10)))).
(** dcape.f90:22-25 [sat_vapor_pressure_pa_from_tk] *)
Definition sat_vapor_pressure_pa_from_tk (tk : A) : A :=
  fmul A (sat_vapor_pressure_hpa (fsub A tk (fc A 27315 100))) (fc A 100 1).
(** dcape.f90:27-33 [mixing_ratio_from_e_pa] *)
Definition mixing_ratio_from_e_pa (p_pa e_pa : A) : A :=
  let e := dmax e_pa (fc A 1 100000000) in
  let e := dmin e (fmul A (fc A 99 100) p_pa) in
  fdiv A (fmul A eps e) (fsub A p_pa e).
(** dcape.f90:35-38 [virtual_temp_k] *)
Definition virtual_temp_k (tk r : A) : A :=
  fdiv A (fmul A tk (fadd A r eps)) (fmul A eps (fadd A (fc A 1 1) r)).

(** dcape.f90:50 and 101: temperature at the lifting condensation level *)
Definition t_lcl (t td : A) : A :=
  fadd A (fc A 56 1) (fdiv A (fc A 1 1)
    (fadd A (fdiv A (fc A 1 1) (fsub A td (fc A 56 1))) (fdiv A (fln A (fdiv A t td)) (fc A 800 1)))).
(** dcape.f90:40-53 [thetae_bolton_like_metpy] *)
Definition thetae (p_hpa tc tdc : A) : A :=
  let t := fadd A tc (fc A 27315 100) in
  let td := dmax (fadd A tdc (fc A 27315 100)) (fc A 17315 100) in
  let p_pa := fmul A p_hpa (fc A 100 1) in
  let e_pa := fmul A (sat_vapor_pressure_hpa tdc) (fc A 100 1) in
  let r := mixing_ratio_from_e_pa p_pa e_pa in
  let t_l := t_lcl t td in
  let th_l := fmul A (fmul A t (pw (fdiv A (fc A 100000 1) (fsub A p_pa e_pa)) kappa))
                     (pw (fdiv A t t_l) (fmul A (fc A 28 100) r)) in
  fmul A th_l (fexp A (fmul A (fmul A r (fadd A (fc A 1 1) (fmul A (fc A 448 1000) r)))
                              (fsub A (fdiv A (fc A 3036 1) t_l) (fc A 178 100)))).

(** dcape.f90:55-64 [dt_dp_moist] *)
Definition dt_dp_moist (p_pa t_k : A) : A :=
  let es := sat_vapor_pressure_pa_from_tk t_k in
  let rs := mixing_ratio_from_e_pa p_pa es in
  let num := fadd A (fmul A rd_air t_k) (fmul A lv rs) in
  let den := fadd A cp_air (fdiv A (fmul A (fmul A (fmul A lv lv) rs) eps) (fmul A (fmul A rd_air t_k) t_k)) in
  fdiv A (fdiv A num den) p_pa.

(** dcape.f90:82-89: one step of size h from (p, t); [f] is [dt_dp_moist] in the
    code *)
Definition rk4_step (f : A -> A -> A) (h : A) (s : A * A) : A * A :=
  let '(p, t) := s in
  let half := fmul A (fc A 5 10) h in
  let k1 := f p t in
  let k2 := f (fadd A p half) (fadd A t (fmul A half k1)) in
  let k3 := f (fadd A p half) (fadd A t (fmul A half k2)) in
  let k4 := f (fadd A p h) (fadd A t (fmul A h k3)) in
  (fadd A p h,
   fadd A t (fmul A (fdiv A h (fc A 6 1))
      (fadd A (fadd A (fadd A k1 (fmul A (fc A 2 1) k2)) (fmul A (fc A 2 1) k3)) k4))).
(** dcape.f90:66-92 [rk4_integrate_moist_t] *)
Definition rk4_integrate (f : A -> A -> A) (p_start t_start p_target : A) : A :=
  let dp_total := fsub A p_target p_start in
  if fltb A (fabs A dp_total) (fc A 1 1000000000) then t_start
  else
    let nstep := trunc (fdiv A (fabs A dp_total) (fc A 200 1)) + 1 in
    let h := fdiv A dp_total (fc A (Z.of_nat nstep) 1) in
    snd (fold_left (fun s _ => rk4_step f h s) (seq 1 nstep) (p_start, t_start)).
(** dcape.f90:236-244: [rk4_integrate_moist_t] with its own right-hand side *)
Definition moist_t : A -> A -> A -> A := rk4_integrate dt_dp_moist.

(** dcape.f90:94-103 [lcl_bolton] *)
Definition lcl_bolton (p_hpa tc tdc : A) : A * A :=
  let t := fadd A tc (fc A 27315 100) in
  let td := dmax (fadd A tdc (fc A 27315 100)) (fc A 17315 100) in
  let tlcl := t_lcl t td in
  (fmul A p_hpa (pw (fdiv A tlcl t) (fdiv A (fc A 1 1) kappa)), tlcl).

(** dcape.f90:105-125 [interp_linear_p] *)
Definition interp_linear_p (p0 v0 p1 v1 p_target : A) : A :=
  if fltb A (fabs A (fsub A p1 p0)) (fc A 1 1000000000000) then v0
  else
    let pos := fltb A (fc A 0 1) p0 && fltb A (fc A 0 1) p1 && fltb A (fc A 0 1) p_target in
    if pos && fltb A (fabs A (fsub A (fln A p1) (fln A p0))) (fc A 1 1000000000000) then v0
    else
      let w := if pos then fdiv A (fsub A (fln A p_target) (fln A p0)) (fsub A (fln A p1) (fln A p0))
               else fdiv A (fsub A p_target p0) (fsub A p1 p0) in
      fadd A v0 (fmul A w (fsub A v1 v0)).

(** One element of the arrays p, t, td of dcape.f90:181: pressure (hPa),
    temperature and dewpoint (Celsius) *)
Definition level : Type := A * A * A.
Definition lp (x : level) : A := fst (fst x).
Definition lt (x : level) : A := snd (fst x).
Definition ltd (x : level) : A := snd x.

(** dcape.f90:145-152 and 163-170: state (min_te, start level), None: not found *)
Definition better (s : A * option level) (x : level) : A * option level :=
  let te := thetae (lp x) (lt x) (ltd x) in
  if fltb A te (fst s) then (te, Some x) else s.
(** dcape.f90:143-154 *)
Definition layer_step (arr : list level) (s : A * option level) (k : nat) : option (A * option level) :=
  let* x := rd arr k in
  Some (if dle (fc A 500 1) (lp x) && dle (lp x) (fc A 700 1) then better s x else s).
(** dcape.f90:156-174: the search for one bound, with its exit; None of the
    inner option: no pair brackets the bound *)
Fixpoint bracket (arr : list level) (bound : A) (ks : list nat) : option (option level) :=
  match ks with
  | nil => Some None
  | k :: ks =>
      let* x := rd arr k in
      let* y := rd arr (k + 1) in
      if dle bound (lp x) && dle (lp y) bound || dle (lp x) bound && dle bound (lp y)
      then Some (Some (bound, interp_linear_p (lp x) (lt x) (lp y) (lt y) bound,
                              interp_linear_p (lp x) (ltd x) (lp y) (ltd y) bound))
      else bracket arr bound ks
  end.
Definition bound_step (arr : list level) (m : nat) (s : A * option level) (bound : A) : option (A * option level) :=
  let* b := bracket arr bound (seq 1 (m - 1)) in
  Some (match b with Some x => better s x | None => s end).
(** dcape.f90:127-175 [thetae_min_in_700_500]; [big] is the constant 1.0d99 *)
Definition thetae_min (arr : list level) (m : nat) : option (option level) :=
  let big := fc A (10 ^ 99) 1 in
  let* s := foldM (layer_step arr) (seq 1 m) (big, None) in
  let* s := foldM (bound_step arr m) [fc A 700 1; fc A 500 1] s in
  Some (snd s).

(** dcape.f90:194-203: keep the levels with three finite values *)
Definition finite_level (x : level) : bool := fin (lp x) && fin (lt x) && fin (ltd x).
Definition compact_step (inp : list level) (s : nat * list level) (k : nat) : option (nat * list level) :=
  let* x := rd inp k in
  if finite_level x then
    let* w := wrx (snd s) (fst s + 1) x in Some (fst s + 1, w)
  else Some s.
(** dcape.f90:210-215 and 304-310: reverse the first m levels in place *)
Definition swap_step (m : nat) (arr : list level) (k : nat) : option (list level) :=
  let k2 := m + 1 - k in
  let* a := rd arr k in
  let* b := rd arr k2 in
  let* arr := wrx arr k b in
  wrx arr k2 a.
(** dcape.f90:223-230: start_idx, with its exit; 0 stands for -1 *)
Fixpoint start_index (arr : list level) (start_p : A) (ks : list nat) (idx : nat) : option nat :=
  match ks with
  | nil => Some idx
  | k :: ks => let* x := rd arr k in if dle start_p (lp x) then start_index arr start_p ks k else Some idx
  end.

(** The conversion hPa to Pa at dcape.f90:236, 239, 243, 253 *)
Definition hpa (x : A) : A := fmul A x (fc A 100 1).
(** dcape.f90:241-245: k = start_idx, 2, -1 *)
Definition parcel_step (arr : list level) (tk : list A) (k : nat) : option (list A) :=
  let* x := rd arr k in
  let* y := rd arr (k - 1) in
  let* v := rd tk k in
  wrx tk (k - 1) (moist_t (hpa (lp x)) v (hpa (lp y))).
(** dcape.f90:253-262: difference of the virtual temperatures at a level *)
Definition tv_diff (x : level) (parcel : A) : A :=
  let p_pa := hpa (lp x) in
  let e_env := fmul A (sat_vapor_pressure_hpa (ltd x)) (fc A 100 1) in
  let tv_env := virtual_temp_k (fadd A (lt x) (fc A 27315 100)) (mixing_ratio_from_e_pa p_pa e_env) in
  let tv_par := virtual_temp_k parcel (mixing_ratio_from_e_pa p_pa (sat_vapor_pressure_pa_from_tk parcel)) in
  fsub A tv_env tv_par.
(** dcape.f90:252-273; state: integral and the previous (diff, lnp) unless first *)
Definition integral_step (arr : list level) (tk : list A) (s : A * option (A * A)) (k : nat) : option (A * option (A * A)) :=
  let* x := rd arr k in
  let* v := rd tk k in
  let diff := tv_diff x v in
  let lnp := fln A (lp x) in
  Some (match snd s with
        | None => (fst s, Some (diff, lnp))
        | Some (prev_diff, prev_lnp) =>
            (fadd A (fst s) (fmul A (fmul A (fc A 5 10) (fadd A prev_diff diff)) (fsub A lnp prev_lnp)), Some (diff, lnp))
        end).

(** dcape.f90:205-280: the part of [dcape_profile_impl] after the compaction *)
Definition dcape_rest (m : nat) (arr : list level) (tk : list A) : option A :=
  if m <? 4 then Some nan
  else
    let* p1 := rd arr 1 in
    let* pm := rd arr m in
    let* arr := (if fltb A (lp p1) (lp pm) then foldM (swap_step m) (seq 1 (m / 2)) arr else Some arr) in
    let* found := thetae_min arr m in
    match found with
    | None => Some nan
    | Some start =>
        let* start_idx := start_index arr (lp start) (seq 1 m) 0 in
        if start_idx <=? 1 then Some nan
        else
          let '(plcl, tlcl) := lcl_bolton (lp start) (lt start) (ltd start) in
          let tw_start := moist_t (hpa plcl) tlcl (hpa (lp start)) in
          let* x := rd arr start_idx in
          let* tk := wrx tk start_idx (moist_t (hpa (lp start)) tw_start (hpa (lp x))) in
          let* tk := foldM (parcel_step arr) (rev (seq 2 (start_idx - 1))) tk in
          let* s := foldM (integral_step arr tk) (seq 1 start_idx) (fc A 0 1, None) in
          let dcape := dneg (fmul A rd_air (fst s)) in
          Some (if negb (fin dcape) then nan else if fltb A dcape (fc A 0 1) then fc A 0 1 else dcape)
    end.
(** dcape.f90:177-281 [dcape_profile_impl] *)
Definition dcape_profile (inp work : list level) (tk : list A) : option A :=
  let nlev := length inp in
  if nlev <? 4 then Some nan
  else
    let* s := foldM (compact_step inp) (seq 1 nlev) (0, work) in
    dcape_rest (fst s) (snd s) tk.

(** dcape.f90:283-302 [dcape_grid_impl]; the grid as columns cols j i, written in
    loop order into a result indexed by (j, i) *)
Definition dcape_grid (nlat nlon : nat) (cols : nat -> nat -> list level) (work : nat -> nat -> list level)
    (tk : nat -> nat -> list A) : option (list (list A)) :=
  mapM (fun j => mapM (fun i => dcape_profile (cols j i) (work j i) (tk j i)) (seq 1 nlon)) (seq 1 nlat).

(** core.py:90-140 [calculate_dcape] and 23-70: rank 1 gives a number, rank 3 a
    grid, anything else a ValueError (None) *)
Inductive answer := Number (x : A) | Grid (g : list (list A)).
Definition calculate_dcape (rank nlat nlon : nat) (cols work : nat -> nat -> list level) (tk : nat -> nat -> list A) : option (option answer) :=
  if rank =? 1 then option_map (fun x => Some (Number x)) (dcape_profile (cols 1 1) (work 1 1) (tk 1 1))
  else if rank =? 3 then option_map (fun g => Some (Grid g)) (dcape_grid nlat nlon cols work tk)
  else Some None.
End DC.
