(** Specification of the Mann-Kendall test result, independent of the driver. *)
From Verif Require Import Base Loops OrderSpec MKStat_Spec MKTest_Model.
From Coq Require Import Reals Qreals.
Local Open Scope nat_scope.

(** What is used of the standard normal distribution: [cdf] is strictly
    increasing, symmetric, below 1, and [ppf] inverts it on (0,1). *)
Record normal_like (cdf ppf : R -> R) : Prop := {
  nl_increasing : forall a b, (a < b)%R -> (cdf a < cdf b)%R;
  nl_symmetric : forall a, (cdf (- a) = 1 - cdf a)%R;
  nl_below_one : forall a, (cdf a < 1)%R;
  nl_inverse : forall u, (0 < u < 1)%R -> cdf (ppf u) = u }.

(** Least-squares slope of a series against 0, 1, 2, ... *)
Definition ols_slope (y : list Qc) : Qc :=
  let n := length y in
  let xs := map (fun i => qz (Z.of_nat i)) (seq 0 n) in
  let dx := map (fun x => x - mean xs)%Qc xs in
  let dy := map (fun v => v - mean y)%Qc y in
  (fold_right Qcplus 0 (map (fun '(a, b) => a * b) (combine dx dy)) / sum_squares dx)%Qc.

(** Population variance. *)
Definition variance (l : list Qc) : Qc := (sum_squares (centered l) / qz (Z.of_nat (length l)))%Qc.

(** The continuity-corrected score: |S| shrunk by one unit, keeping its sign. *)
Definition corrected (S : Z) : Z := (Z.sgn S * (Z.abs S - 1))%Z.

(** The result for a series of at least three finite values. *)
Definition mk_result (cdf ppf : R -> R) (alpha : R) (theil : bool) (y : list Qc) (r : stat) : Prop :=
  let slope := if theil then sen y else ols_slope y in
  let zr := (if (mk_S y =? 0)%Z then 0 else IZR (corrected (mk_S y)) / sqrt (QcR (mk_variance y)))%R in
  trend r = Some slope /\
  z r = Zfin zr /\
  p r = Some (2 * (1 - cdf (Rabs zr)))%R /\
  (h r = true <-> (ppf (1 - alpha / 2) < Rabs zr)%R) /\
  tau r = Some (qz (2 * mk_S y) / qz (Z.of_nat (length y) * (Z.of_nat (length y) - 1)))%Qc /\
  std_error r = Some (sqrt (QcR (variance (detrend 0 slope y))) / sqrt (INR (length y)))%R.
