(** Model of the Mann-Kendall statistics kernels of
    src/skyborn/calc/mann_kendall/fortran/mann_kendall_core.f90.

    Conventions: real64 data are [Qc] (exact arithmetic); counts that the code
    keeps in real64/int64 are [Z]; NaN results are [None] of the inner option;
    a kernel that would read out of bounds or not terminate returns [None] of
    the outer option.  Integers are unbounded here; the int32 products are
    modelled separately at the end of this file ([wrap32]). *)
From Verif Require Import Base Buffer Loops MKSort_Model.
Set Implicit Arguments.
Local Open Scope nat_scope.

(** Float result: [None] is NaN. *)
Definition fl := option Qc.

(** mann_kendall_core.f90:350-368 [compute_s_value].  Simplification: the
    real64 accumulator (exact below 2^53) is an integer. *)
Definition compute_s_value (y : list Qc) : Z :=
  let n := length y in
  do_loop 1 (n - 1) (fun i s =>
    do_loop (i + 1) n (fun j s =>
      if (get y i <? get y j)%Qc then (s + 1)%Z
      else if (get y j <? get y i)%Qc then (s - 1)%Z else s) s) 0%Z.

(** mann_kendall_core.f90:404-406 and 413-415: run_real*(run_real-1)*(2*run_real+5). *)
Definition tie_poly (r : Z) : Z := (r * (r - 1) * (2 * r + 5))%Z.

(** mann_kendall_core.f90:383-421 [compute_base_variance_from_sorted]; the loop
    state is (run_length, tie_term). *)
Definition base_variance_from_sorted (sorted : list Qc) (n : nat) : Qc :=
  if n <=? 1 then 0%Qc else
  let '(run, tie) :=
    do_loop 2 n (fun i '(run, tie) =>
      if (get sorted i =? get sorted (i - 1)%nat)%Qc then ((run + 1)%Z, tie)
      else (1%Z, if (1 <? run)%Z then (tie + tie_poly run)%Z else tie)) (1%Z, 0%Z) in
  let tie := if (1 <? run)%Z then (tie + tie_poly run)%Z else tie in
  let nr := Z.of_nat n in
  (qz (nr * (nr - 1) * (2 * nr + 5) - tie) / qz 18)%Qc.

(** mann_kendall_core.f90:438-449 [compute_base_variance]. *)
Definition compute_base_variance (y : list Qc) : option Qc :=
  match sort_real_inplace y with
  | None => None
  | Some s => Some (base_variance_from_sorted s (length y))
  end.

(** mann_kendall_core.f90:463-477 [compute_grouped_slope_count]. *)
Definition grouped_slope_count (n period : nat) : nat :=
  if (n <? 2) || (period =? 0) then 0 else
  do_loop 1 (Nat.min period n) (fun g acc =>
    let gc := 1 + (n - g) / period in
    if 1 <? gc then acc + gc * (gc - 1) / 2 else acc) 0.

(** mann_kendall_core.f90:562-574, 1150-1162: the median step shared (verbatim)
    by the two ungrouped Sen kernels; [work] is [slope_work(1:nslopes)]. *)
Definition median_of_work (work : list Qc) (nslopes : nat) : option fl :=
  let mid := nslopes / 2 in
  match select_kth_real work (mid + 1) with
  | None => None
  | Some w =>
      if nslopes mod 2 =? 0 then
        let upper := get w (mid + 1) in
        let lower := do_loop 2 mid (fun i lo => if (lo <? get w i)%Qc then get w i else lo) (get w 1) in
        Some (Some ((lower + upper) / 2)%Qc)
      else Some (Some (get w (mid + 1)))
  end.

(** Fortran intrinsic [maxval] over a non-empty list. *)
Definition maxval (l : list Qc) : Qc :=
  match l with
  | [] => 0%Qc
  | x :: t => fold_left (fun m v => if (m <? v)%Qc then v else m) t x
  end.

(** mann_kendall_core.f90:632-641 and 1039-1048: the variant using [maxval]. *)
Definition median_of_work_maxval (work : list Qc) (nslopes : nat) : option fl :=
  let mid := nslopes / 2 in
  match select_kth_real work (mid + 1) with
  | None => None
  | Some w =>
      if nslopes mod 2 =? 0 then
        Some (Some ((maxval (firstn mid w) + get w (mid + 1)%nat) / 2)%Qc)
      else Some (Some (get w (mid + 1)))
  end.

(** mann_kendall_core.f90:509-511, 1083-1085: [inv_lag(lag) = 1/lag]. *)
Definition make_inv_lag (m : nat) : list Qc :=
  map (fun lag => (1 / qz (Z.of_nat lag))%Qc) (seq 1 m).

(** mann_kendall_core.f90:538-575 [compute_sen_slope_with_inv_lag].  [work0]
    is the caller's buffer on entry. *)
Definition sen_slope_with_inv_lag (y inv_lag work0 : list Qc) : option fl :=
  let n := length y in
  if n <? 2 then Some None else
  let nslopes := n * (n - 1) / 2 in
  let work :=
    do_loop 1 (n - 1) (fun lag w =>
      let factor := get inv_lag lag in
      let band_start := 1 + (lag - 1) * (2 * n - lag) / 2 in
      do_loop 1 (n - lag) (fun i w =>
        wr w (band_start + i - 1) ((get y (i + lag)%nat - get y i) * factor)%Qc) w) work0 in
  median_of_work (firstn nslopes work) nslopes.

(** mann_kendall_core.f90:495-514 [compute_sen_slope]. *)
Definition compute_sen_slope (y work0 : list Qc) : option fl :=
  let n := length y in
  if n <? 2 then Some None
  else sen_slope_with_inv_lag y (make_inv_lag (n - 1)) work0.

(** mann_kendall_core.f90:1113-1163 [compute_s_value_and_sen_slope_with_inv_lag]. *)
Definition s_value_and_sen_slope_with_inv_lag (y inv_lag work0 : list Qc) : option (Z * fl) :=
  let n := length y in
  if n <? 2 then Some (0%Z, None) else
  let nslopes := n * (n - 1) / 2 in
  let '(s, work) :=
    do_loop 1 (n - 1) (fun lag st =>
      let factor := get inv_lag lag in
      let band_start := 1 + (lag - 1) * (2 * n - lag) / 2 in
      do_loop 1 (n - lag) (fun i '(s, w) =>
        let dy := (get y (i + lag)%nat - get y i)%Qc in
        (if (0 <? dy)%Qc then (s + 1)%Z else if (dy <? 0)%Qc then (s - 1)%Z else s,
         wr w (band_start + i - 1) (dy * factor)%Qc)) st) (0%Z, work0) in
  match median_of_work (firstn nslopes work) nslopes with
  | None => None
  | Some slope => Some (s, slope)
  end.

(** mann_kendall_core.f90:1068-1088 [compute_s_value_and_sen_slope]. *)
Definition compute_s_value_and_sen_slope (y work0 : list Qc) : option (Z * fl) :=
  let n := length y in
  if n <? 2 then Some (0%Z, None)
  else s_value_and_sen_slope_with_inv_lag y (make_inv_lag (n - 1)) work0.

(** mann_kendall_core.f90:596-642 [compute_grouped_sen_slope_with_inv_lag];
    loop state (slope_index, slope_work). *)
Definition grouped_sen_slope_with_inv_lag (y : list Qc) (period : nat) (inv_lag work0 : list Qc) : option fl :=
  let n := length y in
  if (n <? 2) || (period =? 0) then Some None else
  let nslopes := grouped_slope_count n period in
  if nslopes <=? 0 then Some None else
  let '(_, work) :=
    do_loop 1 (Nat.min period n) (fun g st =>
      let gc := 1 + (n - g) / period in
      do_loop 1 (gc - 1) (fun lag st =>
        let factor := get inv_lag lag in
        do_loop 1 (gc - lag) (fun i '(k, w) =>
          let k := k + 1 in
          (k, wr w k ((get y (g + (i - 1 + lag) * period)%nat - get y (g + (i - 1) * period)%nat) * factor)%Qc)) st) st)
      (0, work0) in
  median_of_work_maxval (firstn nslopes work) nslopes.

(** mann_kendall_core.f90:660-688 [compute_average_ranks], lines 675-679: the
    end of the run starting at [run_start]. *)
Fixpoint run_end_from (fuel : nat) (values : list Qc) (idx : list nat) (n run_start run_end : nat) : nat :=
  match fuel with
  | O => run_end
  | S f =>
      if run_end <? n then
        if (get values (nth run_end idx 0%nat) =? get values (nth (run_start - 1)%nat idx 0%nat))%Qc
        then run_end_from f values idx n run_start (run_end + 1)
        else run_end
      else run_end
  end.

(** mann_kendall_core.f90:673-687: the run loop; [None] = fuel exhausted. *)
Fixpoint rank_loop (fuel : nat) (values : list Qc) (idx : list nat) (n run_start : nat) (ranks : list Qc)
  : option (list Qc) :=
  match fuel with
  | O => None
  | S f =>
      if run_start <=? n then
        let run_end := run_end_from n values idx n run_start run_start in
        let avg := (qz (Z.of_nat (run_start + run_end)) / 2)%Qc in
        let ranks := do_loop run_start run_end (fun i r => wr r (nth (i - 1) idx 0) avg) ranks in
        rank_loop f values idx n (run_end + 1) ranks
      else Some ranks
  end.

(** mann_kendall_core.f90:660-688 [compute_average_ranks]; [rank0] is the
    caller's buffer on entry. *)
Definition compute_average_ranks (values rank0 : list Qc) : option (list Qc) :=
  let n := length values in
  if n <=? 0 then Some rank0 else
  match sort_indices_by_values values n with
  | None => None
  | Some idx => rank_loop (S n) values idx n 1 rank0
  end.

(** mann_kendall_core.f90:702-722 [compute_rank_vector]. *)
Definition compute_rank_vector (values : list Qc) : list Qc :=
  let n := length values in
  map (fun j =>
    let s := do_loop 1 n (fun i s =>
      if (get values i <? get values j)%Qc then (s + 1)%Z
      else if (get values j <? get values i)%Qc then (s - 1)%Z else s) 0%Z in
    (qz (Z.of_nat n + 1 + s) / 2)%Qc) (seq 1 n).

(** mann_kendall_core.f90:736-757 [compute_k_stat]. *)
Definition compute_k_stat (left right : list Qc) (n : nat) : Z :=
  if n <=? 1 then 0%Z else
  do_loop 1 (n - 1) (fun i k =>
    do_loop (i + 1) n (fun j k =>
      let product := ((get left j - get left i) * (get right j - get right i))%Qc in
      if (0 <? product)%Qc then (k + 1)%Z
      else if (product <? 0)%Qc then (k - 1)%Z else k) k) 0%Z.

(** mann_kendall_core.f90:805-809: column [g] of [group_work]. *)
Definition group_column (y : list Qc) (period ncycles g : nat) : list Qc :=
  map (fun c => get y (g + (c - 1) * period)) (seq 1 ncycles).

(** mann_kendall_core.f90:830-832 / 836-838: one covariance term. *)
Definition gamma_term (gi gj : list Qc) (nc : nat) : Qc :=
  let k := compute_k_stat gi gj nc in
  let rs := qsum (map (fun '(a, b) => a * b)%Qc (combine (compute_rank_vector gi) (compute_rank_vector gj))) in
  let nr := qz (Z.of_nat nc) in
  ((qz k + qz 4 * rs - nr * ((nr + 1) * (nr + 1))) / qz 3)%Qc.

(** mann_kendall_core.f90:779-842 [compute_correlated_grouped_stats]: returns
    (s_value, var_s, denom). *)
Definition correlated_grouped_stats (y : list Qc) (period : nat) : Z * Qc * Qc :=
  let n := length y in
  if period =? 0 then (0%Z, 0%Qc, 0%Qc) else
  let nc := n / period in
  if nc <=? 0 then (0%Z, 0%Qc, 0%Qc) else
  let col := group_column y period nc in
  let '(s, denom) :=
    if 1 <? nc then
      do_loop 1 period (fun g '(s, d) =>
        ((s + compute_s_value (col g))%Z, (d + qz (Z.of_nat (nc * (nc - 1))) / 2)%Qc)) (0%Z, 0%Qc)
    else (0%Z, 0%Qc) in
  let var := do_loop 1 period (fun gi v =>
    do_loop 1 (gi - 1) (fun gj v => (v + 2 * gamma_term (col gi) (col gj) nc)%Qc)
      (v + gamma_term (col gi) (col gi) nc)%Qc) 0%Qc in
  (s, var, denom).

(** sign of a difference, as the if-chains at 891-897, 903-909, 1000-1006, 1012-1018. *)
Definition sign_of (d : Qc) : Z :=
  if (0 <? d)%Qc then 1%Z else if (d <? 0)%Qc then (-1)%Z else 0%Z.

(** integer buffers for the rank scores *)
Definition getz (a : list Z) (i : nat) : Z := nth (i - 1) a 0%Z.

(** Loop state of the partial kernels: (x_score, y_score, k_value, rank_x, rank_y). *)
Definition pstate := (Z * Z * Z * list Z * list Z)%type.

(** mann_kendall_core.f90:890-914 / 996-1023: body of the pairwise scan for
    the index pair (i, j).  Simplification: integer score buffers instead of
    real64 (exact below 2^53). *)
Definition partial_body (x y : list Qc) (i j : nat) (st : pstate) : pstate :=
  let '(xs, ys, k, rx, ry) := st in
  let sx := sign_of (get x j - get x i)%Qc in
  let sy := sign_of (get y j - get y i)%Qc in
  let rx := wr rx i (getz rx i - sx)%Z in
  let rx := wr rx j (getz rx j + sx)%Z in
  let ry := wr ry i (getz ry i - sy)%Z in
  let ry := wr ry j (getz ry j + sy)%Z in
  ((xs + sx)%Z, (ys + sy)%Z, (k + sx * sy)%Z, rx, ry).

(** mann_kendall_core.f90:880, 918-928 / 984, 1027-1037: the closing formulas:
    returns (s_value, var_s, tau). *)
Definition partial_close (n : nat) (st : pstate) : Qc * Qc * Qc :=
  let '(xs, ys, k, rx, ry) := st in
  let nr := qz (Z.of_nat n) in
  let var_no_ties := (nr * qz (Z.of_nat n - 1) * qz (2 * Z.of_nat n + 5) / qz 18)%Qc in
  let to_rank := fun s => ((nr + 1 + qz s) / 2)%Qc in
  let rs := qsum (map (fun '(a, b) => to_rank a * to_rank b)%Qc (combine rx ry)) in
  let sigma := ((qz k + qz 4 * rs - nr * ((nr + 1) * (nr + 1))) / qz 3)%Qc in
  let rho := (sigma / var_no_ties)%Qc in
  ((qz xs - rho * qz ys)%Qc, ((1 - rho * rho) * var_no_ties)%Qc,
   (qz xs / (nr * qz (Z.of_nat n - 1) / 2))%Qc).

Definition pstate0 (n : nat) : pstate := (0%Z, 0%Z, 0%Z, repeat 0%Z n, repeat 0%Z n).

(** mann_kendall_core.f90:861-929 [compute_partial_stats] (pair order). *)
Definition compute_partial_stats (x y : list Qc) : Qc * Qc * Qc :=
  let n := length x in
  if negb (length y =? n) || (n <? 3) then (0%Qc, 0%Qc, 0%Qc) else
  partial_close n
    (do_loop 1 (n - 1) (fun i st => do_loop (i + 1) n (fun j st => partial_body x y i j st) st) (pstate0 n)).

(** mann_kendall_core.f90:953-1049 [compute_partial_stats_and_sen_slope_with_inv_lag]
    (lag order, slopes appended as they are produced). *)
Definition partial_stats_and_sen_slope (x y inv_lag work0 : list Qc) : option (Qc * Qc * Qc * fl) :=
  let n := length x in
  if negb (length y =? n) || (n <? 2) then Some (0%Qc, 0%Qc, 0%Qc, None) else
  let nslopes := n * (n - 1) / 2 in
  if nslopes <=? 0 then Some (0%Qc, 0%Qc, 0%Qc, None) else
  let '(st, _, work) :=
    do_loop 1 (n - 1) (fun lag st =>
      let factor := get inv_lag lag in
      do_loop 1 (n - lag) (fun i '(st, k, w) =>
        let k := k + 1 in
        (partial_body x y i (i + lag) st, k, wr w k ((get x (i + lag)%nat - get x i) * factor)%Qc)) st)
      (pstate0 n, 0, work0) in
  match median_of_work_maxval (firstn nslopes work) nslopes with
  | None => None
  | Some slope => Some (partial_close n st, slope)
  end.

(** mann_kendall_core.f90:1221 / 1342: [sum(c(1:n-lag) * c(1+lag:n))]. *)
Definition lag_product_sum (c : list Qc) (n lag : nat) : Qc :=
  qsum (map (fun i => get c i * get c (i + lag)%nat)%Qc (seq 1 (n - lag))).

(** mann_kendall_core.f90:1183-1228 [compute_modified_variance_with_slope_lag]
    (Yue-Wang).  A NaN slope is not modelled (the slope is finite for n >= 2). *)
Definition modified_variance_with_slope_lag (y : list Qc) (slope : Qc) (max_lag : Z) : option fl :=
  let n := length y in
  match sort_real_inplace y with
  | None => None
  | Some sorted =>
      let base := base_variance_from_sorted sorted n in
      if (max_lag <=? 0)%Z then Some (Some base) else
      let detr := map (fun i => get y i - qz (Z.of_nat i) * slope)%Qc (seq 1 n) in
      let nr := qz (Z.of_nat n) in
      let mean := (qsum detr / nr)%Qc in
      let c := map (fun d => d - mean)%Qc detr in
      let denom := qsum (map (fun v => v * v)%Qc c) in
      if (denom =? 0)%Qc then Some None else
      let n_star := do_loop 1 (Z.to_nat max_lag) (fun lag acc =>
        (acc + 2 * (1 - qz (Z.of_nat lag) / nr) * (lag_product_sum c n lag / denom))%Qc) 1%Qc in
      Some (Some (base * n_star)%Qc)
  end.

(** mann_kendall_core.f90:1236-1248 [compute_modified_variance_with_slope]. *)
Definition modified_variance_with_slope (y : list Qc) (slope : Qc) : option fl :=
  modified_variance_with_slope_lag y slope (Z.of_nat (length y) - 1).

(** mann_kendall_core.f90:1268-1280 [compute_modified_variance]. *)
Definition compute_modified_variance (y work0 : list Qc) : option fl :=
  match compute_sen_slope y work0 with
  | None => None
  | Some None => Some None   (* simplification: NaN slope gives a NaN result *)
  | Some (Some slope) => modified_variance_with_slope y slope
  end.

(** mann_kendall_core.f90:1340-1351: the correction factor from the acf values
    of lags 1..m; [i32] is applied to each integer product as in the code. *)
Definition hamed_rao_factor (i32 : Z -> Z) (n : nat) (interval : Qc) (acf : list Qc) : Qc :=
  let nz := Z.of_nat n in
  let sni := do_loop 1 (length acf) (fun lag sni =>
    let a := get acf lag in
    if (a <? - interval)%Qc || (interval <? a)%Qc then
      let l := Z.of_nat lag in
      (sni + qz (i32 (i32 ((nz - l) * (nz - l - 1)) * (nz - l - 2)))%Z * a)%Qc
    else sni) 0%Qc in
  (1 + 2 * sni / qz (i32 (i32 (nz * (nz - 1)) * (nz - 2)))%Z)%Qc.

(** mann_kendall_core.f90:1304-1352 [compute_hamed_rao_variance_with_slope_lag]. *)
Definition hamed_rao_variance (i32 : Z -> Z) (y : list Qc) (slope interval : Qc) (max_lag : Z) : option fl :=
  let n := length y in
  match compute_base_variance y with
  | None => None
  | Some base =>
      if (n <? 3) || (max_lag <=? 0)%Z then Some (Some base) else
      let detr := map (fun i => get y i - qz (Z.of_nat i) * slope)%Qc (seq 1 n) in
      match compute_average_ranks detr (repeat 0%Qc n) with
      | None => None
      | Some ranks =>
          let mean := (qz (Z.of_nat (n + 1)) / 2)%Qc in
          let c := map (fun r => r - mean)%Qc ranks in
          let denom := qsum (map (fun v => v * v)%Qc c) in
          if (denom =? 0)%Qc then Some None else
          let acf := map (fun lag => lag_product_sum c n lag / denom)%Qc (seq 1 (Z.to_nat max_lag)) in
          Some (Some (base * hamed_rao_factor i32 n interval acf)%Qc)
      end
  end.

(** Two's complement wrap-around of default 32-bit integer results, the
    arithmetic behind [n*(n-1)*(n-2)] (mann_kendall_core.f90:1345, 1350) and
    [n*(n-1)/2], [(lag-1)*(2*n-lag)/2] (mann_kendall_core.f90:552, 555, 974, 1130, 1135).
    gfortran wraps in practice; the standard leaves it undefined. *)
Definition wrap32 (z : Z) : Z := ((z + 2147483648) mod 4294967296 - 2147483648)%Z.
