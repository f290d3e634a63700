(** Model of the Mann-Kendall test driver: src/skyborn/calc/mann_kendall/core.py
    (test = "original", both slope methods), its batch helpers in regression.py
    and the three batch entry points of fortran/mann_kendall_core.f90.

    Observations are rationals, [None] is a non-finite observation (NaN or
    infinity; the code only ever asks np.isfinite).  Square roots, the normal
    distribution function [cdf] and its inverse [ppf] are real-valued; [cdf] and
    [ppf] (scipy.stats.norm) are parameters.  The outer [option] is [None] when
    a kernel reads outside its buffers, when an exception escapes, or when a
    loop step is zero. *)
From Verif Require Import Base Buffer Loops OrderSpec MKSort_Model MKStat_Model NdArray.
From Coq Require Import Reals Qreals.
Local Open Scope nat_scope.

(** A real result of a floating division: finite, an infinity, or NaN. *)
Inductive zval := Zfin (r : R) | Zinf (positive : bool) | Znan.

(** The value of each key of the result dictionary (core.py:614-621). *)
Record stat := mk_stat { trend : fl; h : bool; p : option R; z : zval; tau : option Qc; std_error : option R }.

(** The all-NaN dictionary: core.py:480-490 and the np.full / np.zeros
    initialisation of core.py:1029-1036 and 937-944. *)
Definition nan_stat : stat := mk_stat None false None Znan None None.

Definition QcR (q : Qc) : R := Q2R (this q).

(** [num / np.sqrt(var)]: core.py:600, 604 and 1190-1195. *)
Definition div_sqrt (num : Z) (var : Qc) : zval :=
  if (var <? 0)%Qc then Znan
  else if (var =? 0)%Qc then (if (num =? 0)%Z then Znan else Zinf (0 <? num)%Z)
  else Zfin (IZR num / sqrt (QcR var)).

(** core.py:599-604, the scalar z score. *)
Definition z_scalar (S : Z) (var : Qc) : zval :=
  if (0 <? S)%Z then div_sqrt (S - 1) var
  else if (S =? 0)%Z then Zfin 0
  else div_sqrt (S + 1) var.

(** core.py:1181-1195, the batch z score: zeros, then the two masked writes. *)
Definition z_batch (S : Z) (var : Qc) : zval :=
  let z0 := Zfin 0 in
  let z1 := if (0 <? S)%Z then div_sqrt (S - 1) var else z0 in
  if (S <? 0)%Z then div_sqrt (S + 1) var else z1.

(** core.py:606 and 1197: 2 * (1 - cdf(abs z)); cdf(inf) = 1. *)
Definition p_value (cdf : R -> R) (z : zval) : option R :=
  match z with
  | Zfin r => Some (2 * (1 - cdf (Rabs r)))%R
  | Zinf _ => Some (2 * (1 - 1))%R
  | Znan => None
  end.

(** core.py:607 and 1198: abs z > ppf(1 - alpha/2). *)
Definition significant (ppf : R -> R) (alpha : R) (z : zval) : bool :=
  match z with
  | Zfin r => if Rlt_dec (ppf (1 - alpha / 2)%R) (Rabs r) then true else false
  | Zinf _ => true
  | Znan => false
  end.

(** np.mean, and the square of np.std (population variance). *)
Definition np_mean (l : list Qc) : Qc := (qsum l / qz (Z.of_nat (length l)))%Qc.
Definition np_var (l : list Qc) : Qc := np_mean (map (fun v => (v - np_mean l) * (v - np_mean l))%Qc l).
(** np.std(r) / np.sqrt(n): core.py:610, regression.py:32 and 54. *)
Definition std_over_sqrt (r : list Qc) (n : nat) : R := (sqrt (QcR (np_var r)) / sqrt (INR n))%R.

(** np.arange(n): core.py:475 and 1026. *)
Definition arange (n : nat) : list Qc := map (fun i => qz (Z.of_nat i)) (seq 0 n).
(** elementwise combination of two arrays of the same length *)
Definition map2 (f : Qc -> Qc -> Qc) (a b : list Qc) : list Qc := map (fun '(x, y) => f x y) (combine a b).

(** The uninitialised / stale slope buffer of the batch kernels
    (mann_kendall_core.f90:1416, 1619): [g] gives its arbitrary content. *)
Definition buffer (g : nat -> Qc) (n : nat) : list Qc := map g (seq 0 (Nat.max 1 (n * (n - 1) / 2))).

(** A Fortran loop over columns; [k] is the column number. *)
Fixpoint columns {A B} (f : nat -> A -> option B) (k : nat) (l : list A) : option (list B) :=
  match l with
  | [] => Some []
  | a :: t => match f k a with
              | None => None
              | Some b => option_map (cons b) (columns f (S k) t)
              end
  end.

(** mann_kendall_core.f90:1372-1396 [mk_score_var_batch], modified = 0. *)
Definition mk_score_var_batch (data : list (list Qc)) : option (list (Z * Qc)) :=
  columns (fun _ y => option_map (fun v => (compute_s_value y, v)) (compute_base_variance y)) 0 data.

(** mann_kendall_core.f90:1408-1430 [sen_slope_batch]; [g k] is what the slope
    buffer holds when column [k] starts. *)
Definition sen_slope_batch (g : nat -> nat -> Qc) (ntime : nat) (data : list (list Qc)) : option (list fl) :=
  let inv_lag := make_inv_lag (ntime - 1) in
  columns (fun k y => sen_slope_with_inv_lag y inv_lag (buffer (g k) ntime)) 0 data.

(** mann_kendall_core.f90:1606-1636 [mk_score_var_sen_batch], modified = 0. *)
Definition mk_score_var_sen_batch (g : nat -> nat -> Qc) (ntime : nat) (data : list (list Qc)) : option (list (Z * Qc * fl)) :=
  let inv_lag := make_inv_lag (ntime - 1) in
  columns (fun k y =>
    match s_value_and_sen_slope_with_inv_lag y inv_lag (buffer (g k) ntime) with
    | None => None
    | Some (s, slope) => option_map (fun v => (s, v, slope)) (compute_base_variance y)
    end) 0 data.

(** [values[np.isfinite(values)]]: core.py:473-474 and 1241-1243. *)
Definition finite_values (values : list fl) : list Qc :=
  flat_map (fun v => match v with Some x => x :: nil | None => nil end) values.

(** scipy.stats.linregress(x, y)[:2] (slope and intercept; library code,
    modelled by its documented formula): core.py:499. *)
Definition linregress (x y : list Qc) : Qc * Qc :=
  let xm := np_mean x in let ym := np_mean y in
  let slope := (qsum (map2 (fun a b => (a - xm) * (b - ym)) x y) / qsum (map (fun a => (a - xm) * (a - xm)) x))%Qc in
  (slope, (ym - slope * xm)%Qc).

(** core.py:472-621, [mann_kendall_test] for 1-D data, test = "original".
    [theil] selects method = "theilslopes", otherwise "linregress". *)
Definition mann_kendall_test (cdf ppf : R -> R) (g : nat -> nat -> Qc) (alpha : R) (theil : bool) (values : list fl) : option stat :=
  let y := finite_values values in
  let n := length y in
  let x := arange n in
  if n <? 3 then Some nan_stat else
  let line :=
    if theil then
      match sen_slope_batch g n (y :: nil) with
      | Some (Some slope :: nil) => Some (slope, median y - slope * median x)%Qc
      | _ => None
      end
    else Some (linregress x y) in
  let score :=
    if theil then
      match mk_score_var_sen_batch g n (y :: nil) with
      | Some ((s, v, _) :: nil) => Some (s, v)
      | _ => None
      end
    else
      match mk_score_var_batch (y :: nil) with
      | Some (sv :: nil) => Some sv
      | _ => None
      end in
  match line, score with
  | Some (slope, intercept), Some (sc, var) =>
      let z := z_scalar sc var in
      let y_detrend := map2 (fun yi xi => yi - (xi * slope + intercept))%Qc y x in
      Some (mk_stat (Some slope) (significant ppf alpha z) (p_value cdf z) z
              (Some (qz sc / (qz (Z.of_nat n) * qz (Z.of_nat n - 1) / qz 2))%Qc)
              (Some (std_over_sqrt y_detrend n)))
  | _, _ => None
  end.

(** regression.py:6-17 [_linregress_slope_batch], one column. *)
Definition linregress_slope_batch (x y : list Qc) : Qc :=
  let xm := np_mean x in
  let xc := map (fun a => a - xm)%Qc x in
  (qsum (map2 Qcmult xc y) / qsum (map (fun a => a * a) xc))%Qc.

(** regression.py:20-32 [_theil_std_error_batch], one column. *)
Definition theil_std_error_batch (y x : list Qc) (slope : Qc) : R :=
  let workspace := map2 (fun xi yi => xi * slope * - (1) + yi)%Qc x y in
  let intercept := median workspace in
  std_over_sqrt (map (fun w => w - intercept)%Qc workspace) (length y).

(** regression.py:35-54 [_linregress_std_error_batch], one column. *)
Definition linregress_std_error_batch (y x : list Qc) (slope : Qc) : R :=
  let intercept := (np_mean y - slope * np_mean x)%Qc in
  std_over_sqrt (map2 (fun xi yi => (xi * slope + intercept) * - (1) + yi)%Qc x y) (length y).

(** core.py:1168-1232: results for the columns without missing values. *)
Definition clean_batch (cdf ppf : R -> R) (g : nat -> nat -> Qc) (alpha : R) (theil : bool) (time_steps : nat)
    (clean : list (list Qc)) : option (list stat) :=
  let x := arange time_steps in
  let stats :=
    if theil then mk_score_var_sen_batch g time_steps clean
    else option_map (map (fun '(y, (s, v)) => (s, v, Some (linregress_slope_batch x y))))
           (option_map (combine clean) (mk_score_var_batch clean)) in
  match stats with
  | None => None
  | Some stats =>
    Some (map (fun '(y, (sc, var, slope)) =>
      let z := z_batch sc var in
      let tau := (qz sc / (qz (Z.of_nat time_steps) * qz (Z.of_nat time_steps - 1) / qz 2))%Qc in
      let se := option_map (fun s => if theil then theil_std_error_batch y x s else linregress_std_error_batch y x s) slope in
      mk_stat slope (significant ppf alpha z) (p_value cdf z) z (Some tau) se) (combine clean stats))
  end.

(** [results[key][indices] = values] (numpy fancy assignment) *)
Definition scatter {A} (r : list A) (idx : list nat) (vals : list A) : list A :=
  fold_left (fun r '(i, v) => upd0 r i v) (combine idx vals) r.

(** core.py:1003-1264 [_vectorized_mk_test].  A chunk is the list of its
    columns, each of length [time_steps].  The six result arrays are kept as
    one array of records (they are always indexed and written together). *)
Definition vectorized_mk_test (cdf ppf : R -> R) (g : nat -> nat -> Qc) (alpha : R) (theil : bool) (time_steps : nat)
    (chunk : list (list fl)) : option (list stat) :=
  let n_series := length chunk in
  let results := repeat nan_stat n_series in
  let valid_count k := length (finite_values (nth k chunk [])) in
  let valid_indices := filter (fun k => 3 <=? valid_count k) (seq 0 n_series) in
  if (length valid_indices =? 0) then Some results else
  let no_nan_indices := filter (fun k => valid_count k =? time_steps) valid_indices in
  let nan_indices := filter (fun k => negb (valid_count k =? time_steps)) valid_indices in
  let after_clean :=
    if 0 <? length no_nan_indices then
      option_map (scatter results no_nan_indices)
        (clean_batch cdf ppf g alpha theil time_steps (map (fun k => finite_values (nth k chunk [])) no_nan_indices))
    else Some results in
  option_map (fun results =>
    fold_left (fun r k =>
      (** core.py:1238-1262: an exception leaves the entry as it is *)
      match mann_kendall_test cdf ppf g alpha theil (map Some (finite_values (nth k chunk []))) with
      | Some st => upd0 r k st
      | None => r
      end) nan_indices results) after_clean.

(** range(0, stop, step) for stop >= 0: ValueError on step 0, empty for a
    negative step. *)
Definition range0 (stop : nat) (step : Z) : option (list nat) :=
  if (step =? 0)%Z then None else
  if (step <? 0)%Z then Some [] else
  let s := Z.to_nat step in Some (map (fun i => i * s) (seq 0 ((stop + s - 1) / s))).

(** core.py:949-957, the default chunk size; [None] is ZeroDivisionError. *)
Definition default_chunk (time_steps n_points : nat) : option Z :=
  if time_steps =? 0 then None else
  let max_chunk := (200 * 1024 * 1024 / (Z.of_nat time_steps * Z.of_nat time_steps * 8))%Z in
  Some (Z.max (Z.min (Z.min max_chunk (Z.of_nat n_points)) 10000) 100).

(** [results[start:end] = values] for values of the right length *)
Definition store {A} (r : list A) (start : nat) (vals : list A) : list A :=
  firstn start r ++ vals ++ skipn (start + length vals) r.

(** core.py:959-989, the chunk loop over the columns of data_2d. *)
Definition chunk_loop (cdf ppf : R -> R) (g : nat -> nat -> nat -> Qc) (alpha : R) (theil : bool) (time_steps : nat)
    (chunk_size : Z) (cols : list (list fl)) : option (list stat) :=
  let n_points := length cols in
  match range0 n_points chunk_size with
  | None => None
  | Some starts =>
    fold_left (fun acc start =>
      match acc with
      | None => None
      | Some results =>
        let stop := Nat.min (start + Z.to_nat chunk_size) n_points in
        option_map (store results start)
          (vectorized_mk_test cdf ppf (g start) alpha theil time_steps (firstn (stop - start) (skipn start cols)))
      end) starts (Some (repeat nan_stat n_points))
  end.

(** core.py:912-994, [mann_kendall_multidim] for an array with at least two
    axes, integer [axis] (already normalised to 0..ndim-1) and no group axis:
    np.moveaxis(data, axis, 0), reshape to (time, points), chunk loop, reshape
    back.  reshape(0, -1) raises for three and more axes. *)
Definition moveaxis0 {T} (a : nda T) (axis : nat) : nda T :=
  transpose (axis :: rem axis (seq 0 (ndim a))) a.
Definition mann_kendall_multidim (cdf ppf : R -> R) (g : nat -> nat -> nat -> Qc) (alpha : R) (theil : bool)
    (chunk_size : option Z) (axis : nat) (data : nda fl) : option (nda stat) :=
  let moved := moveaxis0 data axis in
  let time_steps := nth 0 (nd_shape moved) 0 in
  let spatial_shape := tl (nd_shape moved) in
  if (time_steps =? 0) && negb (ndim data =? 2) then None else
  let n_points := prodn spatial_shape in
  let data_2d := reshape [time_steps; n_points] moved in
  let cols := map (fun k => map (fun t => nd_elt data_2d [t; k]) (seq 0 time_steps)) (seq 0 n_points) in
  match (match chunk_size with Some c => Some c | None => default_chunk time_steps n_points end) with
  | None => None
  | Some c =>
    option_map (fun flat => mk_nda spatial_shape (fun ix => nth (ravel spatial_shape ix) flat nan_stat))
      (chunk_loop cdf ppf g alpha theil time_steps c cols)
  end.
