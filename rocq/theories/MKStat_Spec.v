(** Specification of the Mann-Kendall statistics, independent of the kernels. *)
From Verif Require Import Base OrderSpec.
Set Implicit Arguments.

(** All pairs (earlier, later) of a series with their distance in time. *)
Fixpoint with_dist (d : nat) (x : Qc) (t : list Qc) : list (nat * Qc * Qc) :=
  match t with [] => [] | y :: t' => (d, x, y) :: with_dist (S d) x t' end.
Fixpoint all_pairs (l : list Qc) : list (nat * Qc * Qc) :=
  match l with [] => [] | x :: t => with_dist 1 x t ++ all_pairs t end.

(** S = number of increasing pairs - number of decreasing pairs. *)
Definition increasing (p : nat * Qc * Qc) : bool := let '(_, x, y) := p in x <? y.
Definition decreasing (p : nat * Qc * Qc) : bool := let '(_, x, y) := p in y <? x.
Definition mk_S (l : list Qc) : Z :=
  (Z.of_nat (length (filter increasing (all_pairs l))) -
   Z.of_nat (length (filter decreasing (all_pairs l))))%Z.

(** Pairwise slopes and the Sen slope. *)
Definition pair_slopes (l : list Qc) : list Qc :=
  map (fun '(d, x, y) => (y - x) / qz (Z.of_nat d)) (all_pairs l).
Definition sen (l : list Qc) : Qc := median (pair_slopes l).

(** Multiplicities and the tie-corrected variance. *)
Definition mult (v : Qc) (l : list Qc) : Z := Z.of_nat (count (fun x => x =? v) l).
Definition tie_correction (l : list Qc) : Z :=
  fold_right Z.add 0%Z
    (map (fun v => let t := mult v l in (t * (t - 1) * (2 * t + 5))%Z) (nodup Qc_eq_dec l)).
Definition mk_variance (l : list Qc) : Qc :=
  let n := Z.of_nat (length l) in
  qz (n * (n - 1) * (2 * n + 5) - tie_correction l) / qz 18.

(** Average rank of a value within a series: the mean of the positions it
    occupies in sorted order. *)
Definition average_rank (l : list Qc) (v : Qc) : Qc :=
  qz (Z.of_nat (count (fun x => x <? v) l)) + (qz (Z.of_nat (count (fun x => x =? v) l)) + 1) / 2.

(** Within-group slopes when the series is split into [period] interleaved
    groups (same position modulo [period]), per cycle. *)
Definition group_slopes (l : list Qc) (period : nat) : list Qc :=
  map (fun '(d, x, y) => (y - x) / qz (Z.of_nat (d / period)))
    (filter (fun '(d, _, _) => (d mod period =? 0)%nat) (all_pairs l)).

(** Kendall's K for paired observations: concordant minus discordant pairs. *)
Fixpoint point_pairs (l : list (Qc * Qc)) : list ((Qc * Qc) * (Qc * Qc)) :=
  match l with [] => [] | p :: t => map (pair p) t ++ point_pairs t end.
Definition concordant (q : (Qc * Qc) * (Qc * Qc)) : bool :=
  let '((a, b), (c, d)) := q in ((a <? c) && (b <? d)) || ((c <? a) && (d <? b)).
Definition discordant (q : (Qc * Qc) * (Qc * Qc)) : bool :=
  let '((a, b), (c, d)) := q in ((a <? c) && (d <? b)) || ((c <? a) && (b <? d)).
Definition kendall_K (l : list (Qc * Qc)) : Z :=
  (Z.of_nat (length (filter concordant (point_pairs l))) -
   Z.of_nat (length (filter discordant (point_pairs l))))%Z.

(** Dietz-Killeen covariance of the S statistics of two series of equal length. *)
Definition dk_cov (g h : list Qc) : Qc :=
  let n := qz (Z.of_nat (length g)) in
  (qz (kendall_K (combine g h))
   + qz 4 * fold_right Qcplus 0 (map (fun '(a, b) => average_rank g a * average_rank h b) (combine g h))
   - n * ((n + 1) * (n + 1))) / qz 3.

(** Libiseller-Grimvall partial test of x given the covariate y: the statistic
    S_x - rho S_y and its variance (1 - rho^2) V, V the no-ties variance. *)
Definition no_ties_variance (n : nat) : Qc :=
  let n := Z.of_nat n in qz (n * (n - 1) * (2 * n + 5)) / qz 18.
Definition partial_rho (x y : list Qc) : Qc := dk_cov x y / no_ties_variance (length x).
Definition partial_S (x y : list Qc) : Qc := qz (mk_S x) - partial_rho x y * qz (mk_S y).
Definition partial_var (x y : list Qc) : Qc :=
  (1 - partial_rho x y * partial_rho x y) * no_ties_variance (length x).

(** The g-th interleaved group (season) of a flat series, complete cycles only. *)
Definition group_series (y : list Qc) (period g : nat) : list Qc :=
  map (fun c => nth (c * period + g) y 0) (seq 0 (length y / period)).

(** Autocorrelation of a series and the two variance corrections built on it. *)
Definition mean (l : list Qc) : Qc := fold_right Qcplus 0 l / qz (Z.of_nat (length l)).
Definition centered (l : list Qc) : list Qc := map (fun v => v - mean l) l.
Definition lag_products (l : list Qc) (k : nat) : Qc :=
  fold_right Qcplus 0 (map (fun '(_, x, y) => x * y) (filter (fun '(d, _, _) => (d =? k)%nat) (all_pairs l))).
Definition sum_squares (l : list Qc) : Qc := fold_right Qcplus 0 (map (fun v => v * v) l).
Definition acf (l : list Qc) (k : nat) : Qc := lag_products (centered l) k / sum_squares (centered l).
(** The series with a straight line of the given slope removed. *)
Fixpoint detrend (i : nat) (slope : Qc) (l : list Qc) : list Qc :=
  match l with [] => [] | v :: t => (v - qz (Z.of_nat i) * slope) :: detrend (S i) slope t end.
(** Yue-Wang: 1 + 2 sum_{k=1..m} (1 - k/n) r_k of the detrended series. *)
Definition yue_wang_factor (r : list Qc) (m : nat) : Qc :=
  1 + 2 * fold_right Qcplus 0 (map (fun k => (1 - qz (Z.of_nat k) / qz (Z.of_nat (length r))) * acf r k) (seq 1 m)).
(** Hamed-Rao: 1 + 2/(n(n-1)(n-2)) sum over lags 1..m with |r_k| > bound of
    (n-k)(n-k-1)(n-k-2) r_k, r_k the acf of the ranks of the detrended series. *)
Definition falling3 (n : Z) : Z := (n * (n - 1) * (n - 2))%Z.
Definition hamed_rao_spec (ranks : list Qc) (bound : Qc) (m : nat) : Qc :=
  let n := Z.of_nat (length ranks) in
  1 + 2 * fold_right Qcplus 0 (map (fun k => if (acf ranks k <? - bound) || (bound <? acf ranks k)
                                     then qz (falling3 (n - Z.of_nat k)) * acf ranks k else 0) (seq 1 m))
        / qz (falling3 n).
