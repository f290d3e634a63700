(** Model of src/skyborn/calc/calculations.py: linear_regression,
    spatial_correlation, convert_longitude_range and pearson_correlation.

    Real operations come from a record [ol] (the operations [rl] of SH_Model plus
    the order), so the same text is read with reals, with rationals, and run.
    A value is a [cell]: [None] is NaN (infinities are not modelled).  An array
    is its shape with its values in row-major order. *)
From Coq Require Import Reals SpecFloat Qround.
From Verif Require Import Base SH_Model TP_Model.
Local Open Scope nat_scope.

Record ol := { obase :> rl; rltb : T obase -> T obase -> bool }.
Definition RO : ol := {| obase := RR; rltb := Rltb |}.
Definition QO (sq : Qc -> Qc) : ol := {| obase := QR sq; rltb := Qcltb |}.

Section Calc.
Variable A : ol.
Notation cell := (option (T A)).
Definition is_nan {X : Type} (c : option X) : bool := match c with None => true | Some _ => false end.
(** np.abs *)
Definition rabs (x : A) : A := if rltb A x (rz A 0) then ropp A x else x.
(** np.sum *)
Definition rsum (l : list A) : A := fold_left (radd A) l (rz A 0).
(** a bool used as a number *)
Definition b2r (b : bool) : A := if b then rz A 1 else rz A 0.
Definition rnat (n : nat) : A := rz A (Z.of_nat n).
(** elementwise operations on two or three sequences of the same length *)
Definition zip2 {X Y Z : Type} (f : X -> Y -> Z) (l : list X) (m : list Y) : list Z :=
  map (fun p => f (fst p) (snd p)) (combine l m).

Record array := { a_shape : list nat; a_data : list cell }.
(** len(a) *)
Definition a_len (a : array) : nat := nth 0 (a_shape a) 0.
(** Column [j] of the array reshaped to (n, dim1*dim2): the time series of one
    grid point. *)
Definition column {X : Type} (n np j : nat) (d : list X) : list X :=
  flat_map (fun t => firstn 1 (skipn (t * np + j) d)) (seq 0 n).
(** np.any(np.isnan(...)) *)
Definition any_nan {X : Type} (l : list (option X)) : bool := existsb is_nan l.
(** x[np.isnan(x)] = 0 *)
Definition zeroed (l : list cell) : list A := map (fun c => match c with Some v => v | None => rz A 0 end) l.

(** ** spatial_correlation (147-346)
    The array statements act on every grid point separately (sums are over axis
    0); they are written for one grid point, with the time series [x] of the
    predictor and [y] of the data. *)

(** 268-292 and 327-340: the p-value for a correlation [r] of [n] pairs;
    [tcdf] is scipy.stats.t.cdf. *)
Variable tcdf : A -> Z -> cell.
Definition p_value (r : A) (n : nat) : cell :=
  if rltb A (rabs r) (rz A 1)
  then let t_stat := rmul A r (rsqrt A (rdiv A (rz A (Z.of_nat n - 2)) (rsub A (rz A 1) (rmul A r r)))) in
       option_map (fun c => rmul A (rz A 2) (rsub A (rz A 1) c)) (tcdf (rabs t_stat) (Z.of_nat n - 2))
  else Some (rz A 0).

(** 188-297: some value is missing somewhere. *)
Definition corr_nan (x y : list cell) : cell * cell :=
  let mask := zip2 (fun a b => negb (is_nan b) && negb (is_nan a)) x y in      (* 193-194, 212-213, 244-246 *)
  let xw := zeroed x in let yw := zeroed y in                                   (* 197-202 *)
  let valid_counts := length (filter (fun b => b) mask) in                      (* 216-218 *)
  let sufficient := 3 <=? valid_counts in                                       (* 221 *)
  let pred_sum := rsum (zip2 (fun v m => rmul A v (b2r m)) xw mask) in          (* 224-228 *)
  let data_sum := rsum (zip2 (fun v m => rmul A v (b2r m)) yw mask) in          (* 229-233 *)
  let pred_mean := if 0 <? valid_counts then rdiv A pred_sum (rnat valid_counts) else rz A 0 in (* 236-238 *)
  let data_mean := if 0 <? valid_counts then rdiv A data_sum (rnat valid_counts) else rz A 0 in (* 239-241 *)
  let pc := zip2 (fun v m => rmul A (rsub A v pred_mean) (b2r m)) xw mask in    (* 249-251 *)
  let dc := zip2 (fun v m => rmul A (rsub A v data_mean) (b2r m)) yw mask in    (* 252 *)
  let numerator := rsum (zip2 (rmul A) pc dc) in                                (* 255 *)
  let pred_ss := rsum (map (fun v => rmul A v v) pc) in                         (* 256 *)
  let data_ss := rsum (map (fun v => rmul A v v) dc) in                         (* 257 *)
  let ok := rltb A (rz A 0) pred_ss && rltb A (rz A 0) data_ss && sufficient in (* 264 *)
  let r := if ok then Some (rdiv A numerator (rsqrt A (rmul A pred_ss data_ss))) else None in (* 260-265 *)
  let p := match r with Some r => p_value r valid_counts | None => None end in  (* 268-292 *)
  if sufficient then (r, p) else (None, None).                                  (* 295-297 *)

(** 299-344: nothing is missing. *)
Definition corr_full (x y : list A) : cell * cell :=
  let n := length x in
  let pred_mean := rdiv A (rsum x) (rnat n) in                                  (* 307 *)
  let data_mean := rdiv A (rsum y) (rnat n) in                                  (* 308 *)
  let pc := map (fun v => rsub A v pred_mean) x in                              (* 311 *)
  let dc := map (fun v => rsub A v data_mean) y in                              (* 312 *)
  let numerator := rsum (zip2 (rmul A) pc dc) in                                (* 315 *)
  let pred_ss := rsum (map (fun v => rmul A v v) pc) in                         (* 316 *)
  let data_ss := rsum (map (fun v => rmul A v v) dc) in                         (* 317 *)
  if rltb A (rz A 0) pred_ss && rltb A (rz A 0) data_ss                         (* 320 *)
  then let r := rdiv A numerator (rsqrt A (rmul A pred_ss data_ss)) in          (* 322-324 *)
       (Some r, p_value r n)                                                    (* 327-340 *)
  else (None, None).

(** [None] = an exception: the length test (179-183) or the unpacking of a shape
    that is not three-dimensional (205, 301). *)
Definition spatial_correlation (data : array) (predictor : list cell) : option (list (cell * cell)) :=
  if negb (a_len data =? length predictor) then None else
  match a_shape data with
  | [n_time; n_lat; n_lon] =>
    let np := n_lat * n_lon in
    let col j := column n_time np j (a_data data) in
    Some (if any_nan (a_data data) || any_nan predictor                         (* 186 *)
          then map (fun j => corr_nan predictor (col j)) (seq 0 np)
          else map (fun j => corr_full (zeroed predictor) (zeroed (col j))) (seq 0 np))
  | _ => None
  end.

(** ** pearson_correlation (383-401)
    np.corrcoef of two sequences without NaN: np.cov (ddof = 1), division by both
    standard deviations, clipping to [-1, 1].  [None] is NaN (a zero variance or a
    single observation: 0/0); outer [None]: the sizes differ (ValueError). *)
Definition pearson_correlation (x y : list A) : option cell :=
  if negb (length x =? length y) then None else
  let n := length x in
  let mx := rdiv A (rsum x) (rnat n) in let my := rdiv A (rsum y) (rnat n) in
  let xc := map (fun v => rsub A v mx) x in let yc := map (fun v => rsub A v my) y in
  let fact := rz A (Z.of_nat n - 1) in
  let cov a b := rdiv A (rsum (zip2 (rmul A) a b)) fact in
  Some (if (2 <=? n) && rltb A (rz A 0) (cov xc xc) && rltb A (rz A 0) (cov yc yc)
        then let c := rdiv A (rdiv A (cov xc yc) (rsqrt A (cov xc xc))) (rsqrt A (cov yc yc)) in
             Some (if rltb A c (ropp A (rz A 1)) then ropp A (rz A 1)
                   else if rltb A (rz A 1) c then rz A 1 else c)
        else None).

(** ** linear_regression (48-144)
    [lstsq] is np.linalg.lstsq for one right-hand side (rows (predictor, 1)),
    [f_regression] sklearn's p-values for all columns; [None] = they raise.
    The result carries the contents of the caller's data array afterwards:
    NaNs are replaced in place at 96 and restored at 121. *)
Variable lstsq : list (A * A) -> list A -> option (A * A).
Variable f_regression : list (list A) -> list A -> option (list cell).

Fixpoint all_some {X : Type} (l : list (option X)) : option (list X) :=
  match l with
  | [] => Some []
  | Some x :: l => match all_some l with Some r => Some (x :: r) | None => None end
  | None :: _ => None
  end.
Record outcome := { o_result : option (list (cell * cell)); o_data : list cell }.

Definition linear_regression (data : array) (predictor : list cell) : outcome :=
  let fail d := {| o_result := None; o_data := d |} in
  if negb (a_len data =? length predictor) then fail (a_data data) else          (* 80-84 *)
  if any_nan (a_data data) || any_nan predictor then                             (* 87-90 *)
    let nan_mask := map is_nan (a_data data) in                                  (* 94 *)
    let d0 := map (fun c => match c with Some v => Some v | None => Some (rz A 0) end) (a_data data) in (* 96 *)
    let xw := zeroed predictor in                                                (* 97-99 *)
    let design := map (fun v => (v, rz A 1)) xw in                               (* 102-104 *)
    match a_shape data with                                                      (* 107 *)
    | [n; d1; d2] =>
      let np := d1 * d2 in
      let cols := map (fun j => zeroed (column n np j d0)) (seq 0 np) in         (* 108 *)
      match all_some (map (lstsq design) cols) with                              (* 111-116 *)
      | None => fail d0
      | Some coefs =>
        match f_regression cols xw with                                          (* 118 *)
        | None => fail d0
        | Some ps =>
          let d1 := zip2 (fun c (m : bool) => if m then None else c) d0 nan_mask in (* 121 *)
          let gmask := map (fun j => existsb (fun b => b) (column n np j nan_mask)) (seq 0 np) in (* 125 *)
          let slopes := zip2 (fun (m : bool) (c : A * A) => if m then None else Some (fst c)) gmask coefs in (* 126 *)
          let ps' := zip2 (fun (m : bool) c => if m then None else c) gmask ps in  (* 127 *)
          {| o_result := Some (combine slopes ps'); o_data := d1 |}
        end
      end
    | _ => fail d0
    end
  else
    let x := zeroed predictor in
    let design := map (fun v => (v, rz A 1)) x in                                (* 132 *)
    match a_shape data with                                                      (* 135 *)
    | [n; d1; d2] =>
      let np := d1 * d2 in
      let cols := map (fun j => zeroed (column n np j (a_data data))) (seq 0 np) in (* 136 *)
      match all_some (map (lstsq design) cols) with                              (* 139-140 *)
      | None => fail (a_data data)
      | Some coefs =>
        match f_regression cols x with                                           (* 142 *)
        | None => fail (a_data data)
        | Some ps => {| o_result := Some (combine (map (fun c => Some (fst c)) coefs) ps); o_data := a_data data |}
        end
      end
    | _ => fail (a_data data)
    end.
End Calc.
Arguments a_shape {A}. Arguments a_data {A}. Arguments Build_array {A}.
Arguments o_result {A}. Arguments o_data {A}.

(** ** convert_longitude_range (349-380), exact arithmetic *)
Section Lon.
Local Open Scope Qc_scope.
(** numpy's floating [%]: the remainder with the sign of the divisor. *)
Definition qmod (x m : Qc) : Qc := x - m * qz (Qfloor (x / m)%Qc).
(** 372-378: the new coordinate value *)
Definition wrap_lon (center_on_180 : bool) (x : Qc) : Qc :=
  if negb center_on_180 then qmod (x + qz 180) (qz 360) - qz 180 else qmod x (qz 360).
(** sortby(lon, ascending=True): stable sort of the slices by coordinate
    (xarray uses np.lexsort). *)
Fixpoint ins {X : Type} (e : Qc * X) (l : list (Qc * X)) : list (Qc * X) :=
  match l with
  | [] => e :: nil
  | h :: t => if Qcleb (fst e) (fst h) then e :: l else h :: ins e t
  end.
Definition sortby {X : Type} (l : list (Qc * X)) : list (Qc * X) := fold_right ins [] l.
(** A labelled array is the list of its (longitude, slice) pairs. *)
Definition convert_longitude_range {X : Type} (center_on_180 : bool) (l : list (Qc * X)) : list (Qc * X) :=
  sortby (map (fun e => (wrap_lon center_on_180 (fst e), snd e)) l).
End Lon.

(** The same remainder in IEEE double precision, for |x| < m: fmod(x, m) = x
    exactly, and when it is non-zero and its sign differs from m's, numpy adds m
    (npy_divmod) with one rounding. *)
Definition mod64 (x m : spec_float) : spec_float :=
  match x with
  | S754_finite true _ _ => SFadd 53 1024 x m
  | S754_zero _ => S754_zero false
  | _ => x
  end.
