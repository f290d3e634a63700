(** Model of the Liang-Kleeman information flow in src/skyborn/causality.py.

    Real operations come from the record [ol] of CA_Model, so the same text is
    read with reals and run with rationals.  Series are lists of numbers (the
    documentation allows no NaN).  [None] is an exception: every degenerate case
    puts an infinity or a NaN into the matrix NI, on which np.linalg.pinv raises
    LinAlgError; the model raises at the division that would produce it. *)
From Verif Require Import Base SH_Model CA_Model.
Local Open Scope nat_scope.

Section Liang.
Variable A : ol.
Declare Scope rl_scope.
Notation "x + y" := (radd A x y) : rl_scope.
Notation "x - y" := (rsub A x y) : rl_scope.
Notation "x * y" := (rmul A x y) : rl_scope.
Notation "x / y" := (rdiv A x y) : rl_scope.
Notation "- x" := (ropp A x) : rl_scope.
Delimit Scope rl_scope with rl.

(** x == 0 *)
Definition is_zero (x : A) : bool := negb (rltb A x (rz A 0)) && negb (rltb A (rz A 0) x).
(** np.mean *)
Definition r_mean (l : list A) : A := (rsum A l / rnat A (length l))%rl.
(** np.sum((u - np.mean(u)) * (v - np.mean(v))), 472-475; np.cov (468) is the same
    sum divided by the number of observations minus one. *)
Definition cross (u v : list A) : A :=
  rsum A (zip2 (fun a b => (a - r_mean u) * (b - r_mean v))%rl u v).

(** The dictionary returned by liang (523-529). *)
Record flow := { T21 : A; tau21 : A; Ztot : A; dH1_star : A; dH1_noise : A }.

(** liang (458-531), and the same statements in liang_causality (319-382).
    dC[0,1], dC[1,1] and the entries of NI only enter var_T21, which is not
    returned: they are left out, except that NI must be finite (509).  [npt] is
    at least one; np.linalg.det (469) is the exact determinant. *)
Definition liang (y1 y2 : list A) (npt : nat) : option flow :=
  if negb (length y1 =? length y2) then None else       (* 468: np.cov raises *)
  if npt =? 0 then None else                            (* 461: shapes differ *)
  let N := length y1 - npt in                           (* 459, 467 *)
  if N <? 2 then None else                              (* 468, 477: division by zero *)
  let grad1 := zip2 (fun a b => (a - b) / rnat A npt)%rl (skipn npt y1) (firstn N y1) in   (* 461 *)
  let y1 := firstn N y1 in                              (* 464 *)
  let y2 := firstn N y2 in                              (* 465 *)
  let n1 := rnat A (N - 1) in
  let C00 := (cross y1 y1 / n1)%rl in                   (* 468 *)
  let C01 := (cross y1 y2 / n1)%rl in
  let C10 := (cross y2 y1 / n1)%rl in
  let C11 := (cross y2 y2 / n1)%rl in
  let detC := (C00 * C11 - C01 * C10)%rl in             (* 469 *)
  let dC00 := (cross y1 grad1 / n1)%rl in               (* 472, 477 *)
  let dC10 := (cross y2 grad1 / n1)%rl in               (* 474, 477 *)
  if is_zero detC then None else
  let a11 := ((C11 * dC00 - C01 * dC10) / detC)%rl in   (* 479, 482 *)
  let a12 := ((- C01 * dC00 + C00 * dC10) / detC)%rl in (* 480, 483 *)
  let f1 := (r_mean grad1 - a11 * r_mean y1 - a12 * r_mean y2)%rl in                       (* 485 *)
  let R1 := zip2 (fun g p => g - (f1 + a11 * fst p + a12 * snd p))%rl grad1 (combine y1 y2) in  (* 486 *)
  let Q1 := rsum A (map (fun r => r * r)%rl R1) in      (* 487 *)
  let b1 := rsqrt A (Q1 * rz A 1 / rnat A N)%rl in      (* 458, 488 *)
  if is_zero b1 then None else                          (* 491, 509 *)
  if is_zero C00 then None else                         (* 511 *)
  let t21 := (C01 / C00 * (- C10 * dC00 + C00 * dC10) / detC)%rl in                        (* 511 *)
  let star := a11 in                                    (* 514 *)
  let noise := (b1 * b1 / (rz A 2 * C00))%rl in         (* 515 *)
  let Z := (rabs A t21 + rabs A star + rabs A noise)%rl in                                 (* 517 *)
  Some {| T21 := t21; tau21 := (t21 / Z)%rl; Ztot := Z;
          dH1_star := (star / Z)%rl; dH1_noise := (noise / Z)%rl |}.                        (* 519-529 *)

(** phaseran (181-253) and the AR(1) surrogates (577-583) are kept abstract: they
    give one pair of surrogate series for each simulation.  mquantiles is
    abstract too. *)
Variable surrogates : list A -> list A -> nat -> list (list A * list A).
Variable mquantiles : list A -> list A -> list A.

(** the loop over the surrogates (589-592, 657-660) *)
Fixpoint noise_flows (npt : nat) (l : list (list A * list A)) : option (list flow) :=
  match l with
  | [] => Some []
  | p :: l' => match liang (fst p) (snd p) npt, noise_flows npt l' with
               | Some r, Some rs => Some (r :: rs)
               | _, _ => None
               end
  end.
(** signif_isopersist (534-606) and signif_isospec (609-674) with method="liang":
    the quantiles of T21 and of tau21. *)
Definition signif (y1 y2 : list A) (nsim : nat) (qs : list A) (npt : nat) : option (list A * list A) :=
  match noise_flows npt (surrogates y1 y2 nsim) with
  | Some rs => Some (mquantiles (map T21 rs) qs, mquantiles (map tau21 rs) qs)
  | None => None
  end.

(** liang_causality (256-406): y1 and y2 have been truncated (325-326) when they
    are handed to the significance test (389-391). *)
Definition liang_causality (y1 y2 : list A) (npt nsim : nat) (qs : list A) : option (flow * (list A * list A)) :=
  match liang y1 y2 npt with
  | None => None
  | Some r =>
      let N := length y1 - npt in
      match signif (firstn N y1) (firstn N y2) nsim qs npt with
      | Some s => Some (r, s)
      | None => None
      end
  end.
End Liang.
Arguments T21 {A}. Arguments tau21 {A}. Arguments Ztot {A}. Arguments dH1_star {A}. Arguments dH1_noise {A}.
