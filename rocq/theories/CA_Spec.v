(** Specification for C46-C48: textbook formulas on lists of paired observations. *)
From Coq Require Import Reals List ZArith QArith Qcanon Permutation Sorted.
From Verif Require Import Base.
Local Close Scope Qc_scope.
Import ListNotations.
Local Open Scope R_scope.

Definition total (f : R * R -> R) (l : list (R * R)) : R := fold_right (fun e s => f e + s) 0 l.
Definition mean_x (l : list (R * R)) : R := total fst l / INR (length l).
Definition mean_y (l : list (R * R)) : R := total snd l / INR (length l).
Definition Sxx l := total (fun e => (fst e - mean_x l) * (fst e - mean_x l)) l.
Definition Syy l := total (fun e => (snd e - mean_y l) * (snd e - mean_y l)) l.
Definition Sxy l := total (fun e => (fst e - mean_x l) * (snd e - mean_y l)) l.
(** Pearson's correlation, undefined when one variable is constant. *)
Definition pearson (l : list (R * R)) : option R :=
  if Rlt_dec 0 (Sxx l) then if Rlt_dec 0 (Syy l) then Some (Sxy l / R_sqrt.sqrt (Sxx l * Syy l)) else None else None.
(** The observations present in both series. *)
Definition present (x y : list (option R)) : list (R * R) :=
  flat_map (fun e => match e with (Some a, Some b) => [(a, b)] | _ => [] end) (combine x y).
(** The time series of grid point [j] in an array of [n] time steps and [np]
    grid points stored row by row. *)
Definition series {X : Type} (d : X) (n np j : nat) (a : list X) : list X :=
  map (fun t => nth (t * np + j) a d) (seq 0 n).
(** Sum of squared residuals of the line a*x + b. *)
Definition ssr (l : list (R * R)) (a b : R) : R :=
  total (fun e => (snd e - (a * fst e + b)) * (snd e - (a * fst e + b))) l.
Definition minimises (l : list (R * R)) (a b : R) : Prop := forall a' b', ssr l a b <= ssr l a' b'.
(** What is assumed of np.linalg.lstsq on the design matrix (x, 1): it returns
    the least-squares solution of smallest norm. *)
Definition lstsq_contract (f : list (R * R) -> list R -> option (R * R)) : Prop :=
  forall x y a b, length x = length y -> f (map (fun v => (v, 1)) x) y = Some (a, b) ->
    minimises (combine x y) a b /\
    (forall a' b', minimises (combine x y) a' b' -> a * a + b * b <= a' * a' + b' * b').

(** Longitudes that name the same meridian. *)
Definition same_meridian (x y : Qc) : Prop := exists k, y = (x + qz (360 * k))%Qc.
Definition ascending {X : Type} (l : list (Qc * X)) : Prop := StronglySorted (fun a b => (fst a <= fst b)%Qc) l.
