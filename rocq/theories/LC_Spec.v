(** Specification for C51: the information flow in terms of the least-squares
    fit of the tendency of the first series. *)
From Coq Require Import Reals List.
Import ListNotations.
Local Open Scope R_scope.

(** One observation: the two series and the forward difference of the first. *)
Record ob := { ox : R; oy : R; og : R }.
Definition observe (y1 y2 : nat -> R) (npt i : nat) : ob :=
  {| ox := y1 i; oy := y2 i; og := (y1 (i + npt)%nat - y1 i) / INR npt |}.
(** Every observation that a series of [n] values gives. *)
Definition observations (y1 y2 : list R) (npt : nat) : list ob :=
  map (observe (fun i => nth i y1 0) (fun i => nth i y2 0) npt) (seq 0 (length y1 - npt)).

Definition tot (f : ob -> R) (l : list ob) : R := fold_right (fun e s => f e + s) 0 l.
Definition avg (f : ob -> R) (l : list ob) : R := tot f l / INR (length l).
(** sample covariance *)
Definition cov (f g : ob -> R) (l : list ob) : R :=
  tot (fun e => (f e - avg f l) * (g e - avg g l)) l / (INR (length l) - 1).
(** sum of squared residuals of the model dx/dt = f + a x + b y *)
Definition sse (l : list ob) (f a b : R) : R := tot (fun e => (og e - (f + a * ox e + b * oy e)) ^ 2) l.
Definition best_fit (l : list ob) (f a b : R) : Prop := forall f' a' b', sse l f a b <= sse l f' a' b'.
(** No non-trivial affine relation between the two series. *)
Definition independent (l : list ob) : Prop :=
  forall p q s, (forall e, In e l -> p * ox e + q * oy e = s) -> p = 0 /\ q = 0.
Definition affine (a b : R) (y : list R) : list R := map (fun v => a * v + b) y.
(** A quantile lies between two sample values. *)
Definition quantile_contract (mq : list R -> list R -> list R) : Prop :=
  forall data qs v, In v (mq data qs) -> exists lo hi, In lo data /\ In hi data /\ lo <= v <= hi.
