(** Model of src/skyborn/calc/geostrophic/fortran/z2geouv.f90 and of
    src/skyborn/calc/geostrophic/core.py (geostrophic wind from height).

    The code is written over an arbitrary record [fl] of floating point
    operations (TP_Model) with sin and cos of radians given as functions; QF is
    exact rational arithmetic.  Fortran arrays are total functions of their
    1-based subscripts (0 .. n+1 for the padded array zz); every array starts
    with arbitrary contents, passed in as [u1]/[u2].  ug and vg are one array of
    pairs and the row coefficients one array of records; loops keep their order.
    Unary minus is subtraction from zero (the two differ in the sign of a zero
    only). *)
From Verif Require Import Base NdArray AX_Model TP_Model.
Local Close Scope Qc_scope.
Local Open Scope nat_scope.

(** do k = a, b *)
Definition loop {S} (a b : nat) (body : S -> nat -> S) (s : S) : S := fold_left body (seq a (b + 1 - a)) s.
Definition set1 {T} (f : nat -> T) (i : nat) (v : T) : nat -> T := fun k => if k =? i then v else f k.
Definition set2 {T} (f : nat -> nat -> T) (i j : nat) (v : T) : nat -> nat -> T :=
  fun k l => if (k =? i) && (l =? j) then v else f k l.

Section Kernel.
Variable A : fl.
(** sin and cos of an angle in radians, and the constant pi *)
Variables (sn cs : A -> A) (pi : A).

Definition fne (x y : A) : bool := negb (feqb A x y).
Definition fle (x y : A) : bool := fltb A x y || feqb A x y.
Definition fneg (x : A) : A := fsub A (fc A 0 1) x.

(** z2geouv.f90:146-151: the constants *)
Definition gr : A := fc A 980616 100000.
Definition omega : A := fc A 7292 100000000.
Definition re : A := fc A 6371220 1.
Definition rad : A := fdiv A pi (fc A 180 1).
Definition gr_over_two_omega : A := fdiv A gr (fmul A (fc A 2 1) omega).
(** z2geouv.f90:164 *)
Definition rr : A := fmul A re rad.

(** z2geouv.f90:169-188: valid_lat, gf, dx and inv_dx of one row *)
Record row := { r_valid : bool; r_gf : A; r_dx : A; r_inv_dx : A }.
Definition row_coef (zmsg dlon2 lat : A) : row :=
  let abs_lat := fabs A lat in
  let valid := fne lat (fc A 0 1) && fle abs_lat (fc A 89999 1000) in
  if valid then
    let sin_lat := sn (fmul A lat rad) in
    let cos_lat := cs (fmul A lat rad) in
    let gf := fdiv A gr_over_two_omega sin_lat in
    let dx := fmul A dlon2 cos_lat in
    {| r_valid := valid; r_gf := gf; r_dx := dx;
       r_inv_dx := if fne dx (fc A 0 1) then fdiv A (fc A 1 1) dx else fc A 0 1 |}
  else {| r_valid := valid; r_gf := zmsg; r_dx := fc A 0 1; r_inv_dx := fc A 0 1 |}.
(** z2geouv.f90:190-198: dx and inv_dx of a pole row *)
Definition zero_dx (r : row) : row :=
  {| r_valid := r_valid r; r_gf := r_gf r; r_dx := fc A 0 1; r_inv_dx := fc A 0 1 |}.

(** z2geouv.f90:169-198 *)
Definition row_coefs (nlat : nat) (zmsg dlon2 : A) (glat : nat -> A) (u : nat -> row) : nat -> row :=
  let rows := loop 1 nlat (fun r nl => set1 r nl (row_coef zmsg dlon2 (glat nl))) u in
  let rows := if fltb A (glat 1) (fneg (fc A 89999 1000)) then set1 rows 1 (zero_dx (rows 1)) else rows in
  if fltb A (fc A 89999 1000) (glat nlat) then set1 rows nlat (zero_dx (rows nlat)) else rows.

(** z2geouv.f90:200-211: inv_dy *)
Definition inv_dys (nlat : nat) (glat : nat -> A) (u : nat -> A) : nat -> A :=
  let inv := fun dy => fdiv A (fc A 1 1) dy in
  let d := set1 u 1 (inv (fmul A (fsub A (glat 2) (glat 1)) rr)) in
  let d := loop 2 (nlat - 1) (fun d nl => set1 d nl (inv (fmul A (fsub A (glat (nl + 1)) (glat (nl - 1))) rr))) d in
  set1 d nlat (inv (fmul A (fsub A (glat nlat) (glat (nlat - 1))) rr)).

(** z2geouv.f90:213-242: the padded copy of the field *)
Definition padded (nlat mlon : nat) (iopt : Z) (z u : nat -> nat -> A) : nat -> nat -> A :=
  let zz := loop 1 nlat (fun zz nl => loop 1 mlon (fun zz ml => set2 zz nl ml (z nl ml)) zz) u in
  let zz := loop 1 mlon (fun zz ml =>
      let zz := set2 zz 0 ml (zz 1 ml) in
      set2 zz (nlat + 1) ml (zz nlat ml)) zz in
  if (iopt =? 1)%Z then
    loop 0 (nlat + 1) (fun zz nl =>
      let zz := set2 zz nl 0 (zz nl mlon) in
      set2 zz nl (mlon + 1) (zz nl 1)) zz
  else
    loop 0 (nlat + 1) (fun zz nl =>
      let zz := set2 zz nl 0 (zz nl 1) in
      set2 zz nl (mlon + 1) (zz nl mlon)) zz.

(** z2geouv.f90:247-260: one grid point; [w] is the (ug, vg) stored there *)
Definition point (zmsg gf inv_dy inv_dx zn zs ze zw : A) (w : A * A) : A * A :=
  let u := fneg (fmul A (fmul A gf (fsub A zn zs)) inv_dy) in
  let v := fmul A (fmul A gf (fsub A ze zw)) inv_dx in
  if fne zn zmsg && fne zs zmsg && fne ze zmsg && fne zw zmsg then (u, v)
  else
    let w := if fne zn zmsg && fne zs zmsg then (u, snd w) else w in
    if fne ze zmsg && fne zw zmsg then (fst w, v) else w.

(** z2geouv.f90:268-269: one value of vg doubled *)
Definition doubled (zmsg : A) (w : A * A) : A * A :=
  if fne (snd w) zmsg then (fst w, fmul A (snd w) (fc A 2 1)) else w.

(** Uninitialised local arrays of one call. *)
Record junk := { j_uv : nat -> nat -> A * A; j_zz : nat -> nat -> A; j_row : nat -> row; j_dy : nat -> A;
                 j_tmp : nat -> nat -> A; j_lat : nat -> A }.

(** z2geouv.f90:130-273 [z2guv] *)
Definition z2guv (J : junk) (z : nat -> nat -> A) (nlat mlon : nat) (zmsg : A) (glon glat : nat -> A) (iopt : Z)
  : nat -> nat -> A * A :=
  let uv := loop 1 nlat (fun uv nl => loop 1 mlon (fun uv ml => set2 uv nl ml (zmsg, zmsg)) uv) (j_uv J) in
  if (nlat <? 2) || (mlon <? 2) then uv
  else
    let dlon := fmul A rr (fsub A (glon 2) (glon 1)) in
    let dlon2 := fmul A (fc A 2 1) dlon in
    let rows := row_coefs nlat zmsg dlon2 glat (j_row J) in
    let inv_dy := inv_dys nlat glat (j_dy J) in
    let zz := padded nlat mlon iopt z (j_zz J) in
    let uv := loop 1 nlat (fun uv nl =>
      if r_valid (rows nl) then
        loop 1 mlon (fun uv ml =>
          set2 uv nl ml (point zmsg (r_gf (rows nl)) (inv_dy nl) (r_inv_dx (rows nl))
                           (zz (nl + 1) ml) (zz (nl - 1) ml) (zz nl (ml + 1)) (zz nl (ml - 1)) (uv nl ml))) uv
      else uv) uv in
    if (iopt =? 1)%Z then uv
    else loop 1 nlat (fun uv nl =>
      let uv := set2 uv nl 1 (doubled zmsg (uv nl 1)) in
      set2 uv nl mlon (doubled zmsg (uv nl mlon))) uv.

(** z2geouv.f90:84-128 [zuvnew]: rows reversed, z2guv, rows reversed back (utmp,
    vtmp as one array of pairs) *)
Definition zuvnew (J : junk) (z : nat -> nat -> A) (nlat mlon : nat) (zmsg : A) (glon glat : nat -> A) (iopt : Z)
  : nat -> nat -> A * A :=
  let nlat1 := nlat + 1 in
  let '(glattmp, ztmp) := loop 1 nlat (fun s nl =>
      (set1 (fst s) (nlat1 - nl) (glat nl),
       loop 1 mlon (fun zt ml => set2 zt (nlat1 - nl) ml (z nl ml)) (snd s))) (j_lat J, j_tmp J) in
  let uv := z2guv J ztmp nlat mlon zmsg glon glattmp iopt in
  snd (loop 1 mlon (fun s ml =>
      let tmp := loop 1 nlat (fun t nl => set1 t (nlat1 - nl) (snd s nl ml)) (fst s) in
      (tmp, loop 1 nlat (fun uv nl => set2 uv nl ml (tmp nl)) (snd s))) (fun nl => j_uv J nl 0, uv)).

(** z2geouv.f90:7-31 [z2geouv] *)
Definition z2geouv (J : junk) (z : nat -> nat -> A) (nlat mlon : nat) (zmsg : A) (glon glat : nat -> A) (iopt : Z)
  : nat -> nat -> A * A :=
  if (nlat <? 2) || (mlon <? 2) then fun _ _ => (zmsg, zmsg)
  else if fltb A (glat 1) (glat 2) then z2guv J z nlat mlon zmsg glon glat iopt
  else zuvnew J z nlat mlon zmsg glon glat iopt.

(** z2geouv.f90:33-54 [z2geouv_3d]: one call for every slice; the iterations
    write disjoint slices *)
Definition z2geouv_3d (J : nat -> junk) (z : nat -> nat -> nat -> A) (nlat mlon n3rd : nat) (zmsg : A)
    (glon glat : nat -> A) (iopt : Z) (out0 : nat -> nat -> nat -> A * A) : nat -> nat -> nat -> A * A :=
  loop 1 n3rd (fun out k =>
    let r := z2geouv (J k) (fun i j => z i j k) nlat mlon zmsg glon glat iopt in
    fun i j l => if l =? k then r i j else out i j l) out0.

(** ** core.py *)
(** core.py:53-92 [_is_longitude_cyclic] with the default tolerance; the mean of
    the differences is summed from the left *)
Fixpoint diffs (l : list A) : list A :=
  match l with x :: (y :: _) as r => fsub A y x :: diffs r | _ => nil end.
Definition fmean (l : list A) : A := fdiv A (fold_left (fadd A) l (fc A 0 1)) (fc A (Z.of_nat (length l)) 1).
Definition is_longitude_cyclic (glon : list A) : bool :=
  let tolerance := fc A 1 1 in
  if length glon <? 3 then false
  else
    let lon_range := fsub A (last glon (fc A 0 1)) (hd (fc A 0 1) glon) in
    let dlon := fmean (diffs glon) in
    let expected_range := fadd A lon_range dlon in
    let c360 := fltb A (fabs A (fsub A expected_range (fc A 360 1))) tolerance in
    let c360 := if c360 && fle (fabs A dlon) (fc A 1 1) && fltb A tolerance (fabs A dlon) then false else c360 in
    let already := fltb A (fabs A (fsub A lon_range (fc A 360 1))) tolerance in
    c360 || already.

(** core.py:94-133 [_ensure_south_to_north]; None: IndexError, ValueError or the
    AxisError of np.flip *)
Definition ensure_south_to_north (z : nda A) (glat : list A) (dim_order : list nat) : option (nda A * list A) :=
  match glat with
  | nil => None
  | first :: _ =>
      if fltb A (last glat first) first then
        let lat_axis := pos ch_y (map lower dim_order) in
        if mem ch_y (map lower dim_order) && (lat_axis <? ndim z) then Some (flip lat_axis z, rev glat)
        else None
      else Some (z, glat)
  end.

(** A list seen by the Fortran code. *)
Definition sub1 (l : list A) (k : nat) : A := nth (k - 1) l (fc A 0 1).

(** np.asarray(z, dtype=np.float32) followed by the conversion to double at the
    f2py boundary *)
Variable r32 : A -> A.

(** core.py:247-257 [_calc_geostrophic_2d]; f2py raises when the lengths do not
    match (an array of rank 0 or 1 is not modelled: None) *)
Definition calc_geostrophic_2d (J : junk) (z : nda A) (glon glat : list A) (zmsg : A) (iopt : Z) : option (nda (A * A)) :=
  match nd_shape z with
  | [nlat; mlon] =>
      if (length glat =? nlat) && (length glon =? mlon) then
        let uv := z2geouv J (fun i j => r32 (nd_elt z [i - 1; j - 1])) nlat mlon zmsg (sub1 glon) (sub1 glat) iopt in
        Some (mk_nda [nlat; mlon] (fun ix => uv (nthn ix 0 + 1) (nthn ix 1 + 1)))
      else None
  | _ => None
  end.

(** core.py:207-245 [_geostrophic_wind_multidim] *)
Definition geostrophic_wind_multidim (J : nat -> junk) (out0 : nat -> nat -> nat -> A * A)
    (z : nda A) (glon glat : list A) (dim_order : list nat) (zmsg : A) (iopt : Z) : option (nda (A * A)) :=
  match ws_prep_data z dim_order with
  | None => None
  | Some (prepared, inf) =>
      match nd_shape prepared with
      | [nlat; nlon; n_combined] =>
          if negb (length glat =? nlat) then None
          else if negb (length glon =? nlon) then None
          else
            let uv := z2geouv_3d J (fun i j k => r32 (nd_elt prepared [i - 1; j - 1; k - 1])) nlat nlon n_combined zmsg
                        (sub1 glon) (sub1 glat) iopt out0 in
            Some (ws_recover_data (mk_nda [nlat; nlon; n_combined]
                    (fun ix => uv (nthn ix 0 + 1) (nthn ix 1 + 1) (nthn ix 2 + 1))) inf)
      | _ => None
      end
  end.

(** core.py:135-205 [geostrophic_wind] *)
Definition geostrophic_wind (J : nat -> junk) (out0 : nat -> nat -> nat -> A * A)
    (z : nda A) (glon glat : list A) (dim_order : list nat) (zmsg : A) : option (nda (A * A)) :=
  let iopt := if is_longitude_cyclic glon then 1%Z else 0%Z in
  match ensure_south_to_north z glat dim_order with
  | None => None
  | Some (z, glat) =>
      if 2 <? ndim z then geostrophic_wind_multidim J out0 z glon glat dim_order zmsg iopt
      else calc_geostrophic_2d (J 0) z glon glat zmsg iopt
  end.

(** core.py:338-361 [GeostrophicWind.speed], one element; [sq] is np.sqrt *)
Definition speed (sq : A -> A) (zmsg : A) (w : A * A) : A :=
  let u := if feqb A (fst w) zmsg then fc A 0 1 else fst w in
  let v := if feqb A (snd w) zmsg then fc A 0 1 else snd w in
  let s := sq (fadd A (fmul A u u) (fmul A v v)) in
  if feqb A (fst w) zmsg || feqb A (snd w) zmsg then zmsg else s.
End Kernel.
