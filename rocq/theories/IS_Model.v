(** Model of src/skyborn/interp/fortran/isentropic_kernels.f90 and of the eager
    driver around it, src/skyborn/interp/interpolation.py:238-320 and 2143-2252.

    Numbers are exact rationals; [None] is NaN.  The power [x ** y] is an
    argument [pw].  The outer [option] is [None] on an access outside a buffer.
    Simplifications: as in VH_Model, an array with dimensions before and after
    the level axis is the sizes (nouter, nlev, ninner) and its C-order list of
    values; xarray metadata is left out; infinities are not modelled; integers
    do not wrap. *)
From Verif Require Import Base Buffer Loops I2P_Model VH_Model.
Local Open Scope nat_scope.

(** isentropic_kernels.f90:21-28, [spvl] finite *)
Definition valid_value (value : option Qc) (spvl : Qc) : option Qc :=
  match value with
  | Some v => if Qceqb v spvl then None else Some v
  | None => None
  end.

(** isentropic_kernels.f90:42-46: the inner loop of the insertion sort, the two
    arrays moving together; returns the final [j].  Fortran may evaluate [x(0)]
    when [j >= 1] is false; the value is not used. *)
Fixpoint shift_pairs (j : nat) (tx : Qc) (x y : list Qc) : option (nat * (list Qc * list Qc)) :=
  match j with
  | O => Some (0, (x, y))
  | S j' =>
      let* xj := rd x j in
      if Qcltb tx xj then
        let* yj := rd y j in
        let* x := wrx x (j + 1) xj in
        let* y := wrx y (j + 1) yj in
        shift_pairs j' tx x y
      else Some (j, (x, y))
  end.
(** isentropic_kernels.f90:31-50 *)
Definition sort_pairs (x y : list Qc) : option (list Qc * list Qc) :=
  foldM (fun '(x, y) i =>
    let* tx := rd x i in
    let* ty := rd y i in
    let* r := shift_pairs (i - 1) tx x y in
    let '(j, (x, y)) := r in
    let* x := wrx x (j + 1) tx in
    let* y := wrx y (j + 1) ty in
    Some (x, y)) (seq 2 (length x - 1)) (x, y).

(** isentropic_kernels.f90:72-77: the loop looking for an exact level; [ks] are
    the remaining values of [k].  The inner option says whether it returned. *)
Fixpoint exact_loop (x y : list Qc) (target : Qc) (ks : list nat) : option (option Qc) :=
  match ks with
  | [] => Some None
  | k :: r =>
      let* xk := rd x k in
      if Qceqb target xk then let* yk := rd y k in Some (Some yk) else exact_loop x y target r
  end.
(** isentropic_kernels.f90:79-92: the loop looking for the bracketing pair *)
Fixpoint bracket_loop (x y : list Qc) (target : Qc) (ks : list nat) : option (option Qc) :=
  match ks with
  | [] => Some None
  | k :: r =>
      let* x0 := rd x k in
      let* x1 := rd x (k + 1) in
      if Qcleb x0 target && Qcleb target x1 then
        let* y0 := rd y k in
        let* y1 := rd y (k + 1) in
        Some (Some (if Qceqb x1 x0 then y0 else (y0 + (y1 - y0) * (target - x0) / (x1 - x0))%Qc))
      else bracket_loop x y target r
  end.
(** isentropic_kernels.f90:53-93 *)
Definition interp_sorted_profile (x y : list Qc) (nvalid : nat) (target : Qc) (kxtrp : Z) (spvl : Qc) : option Qc :=
  if nvalid <? 2 then Some spvl
  else
    let* first := rd x 1 in
    let* last := rd x nvalid in
    if Qcltb target first then (if (kxtrp =? 0)%Z then Some spvl else rd y 1)
    else if Qcltb last target then (if (kxtrp =? 0)%Z then Some spvl else rd y nvalid)
    else
      let* e := exact_loop x y target (seq 1 nvalid) in
      match e with
      | Some v => Some v
      | None => let* b := bracket_loop x y target (seq 1 (nvalid - 1)) in
                Some (match b with Some v => v | None => spvl end)
      end.

Section Kernel.
Variable pw : Qc -> Qc -> Qc.

(** isentropic_kernels.f90:107-119: the valid levels of one column, with their
    potential temperature.  [theta] and [values] are filled from 1 to [nvalid];
    only this prefix is used afterwards, so it is the returned list. *)
Fixpoint gather (data temp pressure : list (option Qc)) (p0 kappa spvl : Qc) (idx ninner n : nat) : option (list (Qc * Qc)) :=
  match n with
  | O => Some []
  | S m =>
      let* d := rd data idx in
      let* t := rd temp idx in
      let* p := rd pressure idx in
      let* rest := gather data temp pressure p0 kappa spvl (idx + ninner) ninner m in
      match valid_value d spvl, valid_value t spvl, valid_value p spvl with
      | Some d, Some t, Some p =>
          if Qcltb 0 p then Some (((t * pw (p0 / p) kappa)%Qc, d) :: rest) else Some rest
      | _, _, _ => Some rest
      end
  end.

(** isentropic_kernels.f90:96-134 *)
Definition interp_isentropic_flat_profile (data temp pressure : list (option Qc)) (theta_levels : list Qc) (output : list (option Qc))
    (p0 kappa spvl : Qc) (kxtrp : Z) (base_in base_out inner ninner nlev : nat) : option (list (option Qc)) :=
  let* valid := gather data temp pressure p0 kappa spvl (base_in + inner) ninner nlev in
  let nvalid := length valid in
  let* output := flat_store (fun _ => Some (Some spvl)) theta_levels (base_out + inner) ninner output in
  if nvalid <? 2 then Some output
  else
    let* xy := sort_pairs (map fst valid) (map snd valid) in
    flat_store (fun t => let* v := interp_sorted_profile (fst xy) (snd xy) nvalid t kxtrp spvl in Some (Some v))
      theta_levels (base_out + inner) ninner output.

(** isentropic_kernels.f90:139-163: [inner] runs from 0 and the bases are one
    larger than in the vinth2p kernels *)
Definition dinterp_to_isentropic_corder (data temp pressure : list (option Qc)) (theta_levels : list Qc) (output : list (option Qc))
    (p0 kappa spvl : Qc) (kxtrp : Z) (nouter nlev ninner : nat) : option (list (option Qc)) :=
  foldM (fun output '(outer, inner) =>
    interp_isentropic_flat_profile data temp pressure theta_levels output p0 kappa spvl kxtrp
      (outer * nlev * ninner + 1) (outer * length theta_levels * ninner + 1) inner ninner nlev)
    (flat_map (fun outer => map (fun inner => (outer, inner)) (seq 0 ninner)) (seq 0 nouter)) output.

(** interpolation.py:1322-1329 *)
Definition flat_with_missing (a : list (option Qc)) (spvl : Qc) : list (option Qc) :=
  map (fun v => match v with Some v => Some v | None => Some spvl end) a.
(** interpolation.py:2235-2247 and 263-283: [missing] is [missing_value], [None]
    being NaN; [empty] the uninitialised output of np.empty *)
Definition interp_to_isentropic (data temp pressure : list (option Qc)) (theta_levels : list Qc) (p0 kappa : Qc) (extrapolate : bool)
    (missing : option Qc) (nouter nlev ninner : nat) (empty : list (option Qc)) : option (list (option Qc)) :=
  let sp := match missing with Some m => m | None => spvl end in
  let* out := dinterp_to_isentropic_corder (flat_with_missing data sp) (flat_with_missing temp sp) (flat_with_missing pressure sp)
                theta_levels empty p0 kappa sp (if extrapolate then 1 else 0) nouter nlev ninner in
  Some (map (fun v => match v with Some x => if Qceqb x sp then None else Some x | None => None end) out).
End Kernel.
