(** Model of src/skyborn/calc/emergent_constraints.py (cited as ec.py).

    Conventions.
    - Arithmetic is exact (R); the work dtype and its rounding are left out.
      A model value is a number or not finite ([None]); grids and the
      observed density are numbers.
    - [None] as the result of a function is a Python exception.
    - Warnings are left out. *)
From Coq Require Import Reals List Arith Lia Bool.
From Verif Require Import Base Buffer VH_Model.
Import ListNotations.
Local Open Scope nat_scope.

(** np.sum and np.mean *)
Definition rsum (l : list R) : R := fold_right Rplus 0%R l.
Definition rmean (l : list R) : R := (rsum l / INR (length l))%R.

(** np.argmin and np.argmax of a 1-D array: the first best index *)
Fixpoint argmin_from (best : R) (bi i : nat) (l : list R) : nat :=
  match l with
  | [] => bi
  | x :: rest => if Rlt_dec x best then argmin_from x i (S i) rest else argmin_from best bi (S i) rest
  end.
Definition argmin (l : list R) : option nat :=
  match l with [] => None | x :: rest => Some (argmin_from x 0 1 rest) end.
Definition argmax (l : list R) : option nat := argmin (map Ropp l).

(** ** gaussian_pdf: ec.py:59-115 *)
Inductive num := Num (x : R) | Inf | NaN.
Definition gaussian_pdf (mu sigma x : R) : num :=
  if Rlt_dec sigma 0 then NaN                                              (* 88-94 *)
  else if Req_EM_T sigma 0 then (if Req_EM_T x mu then Inf else Num 0)      (* 95-105 *)
  else Num (1 / (sqrt (2 * PI) * sigma) * exp (- (1 / 2) * ((x - mu) / sigma) ^ 2))%R. (* 106-111 *)

(** ** The regression: ec.py:118-158 *)
(** ec.py:125-127 *)
Fixpoint paired (xs ys : list (option R)) : list (R * R) :=
  match xs, ys with
  | Some x :: xs', Some y :: ys' => (x, y) :: paired xs' ys'
  | _ :: xs', _ :: ys' => paired xs' ys'
  | _, _ => []
  end.
Record fit := mkfit { f_n : nat; f_xm : R; f_slope : R; f_icpt : R; f_err : R; f_ssx : R }.
Definition fit_linear (xs ys : list (option R)) : option fit :=
  if negb (length xs =? length ys) then None else                         (* the masks do not combine *)
  match paired xs ys with
  | [] => None                                                            (* 129-132 *)
  | ps =>
      let n := length ps in
      let xm := rmean (map fst ps) in                                     (* 134-135 *)
      let ym := rmean (map snd ps) in
      let ssx := rsum (map (fun p => (fst p - xm) ^ 2)%R ps) in           (* 138 *)
      let slope := if Rlt_dec 0 ssx
                   then (rsum (map (fun p => (fst p - xm) * (snd p - ym)) ps) / ssx)%R
                   else 0%R in                                            (* 140-143 *)
      let icpt := (ym - slope * xm)%R in                                  (* 145 *)
      let ssr := rsum (map (fun p => (snd p - (icpt + slope * fst p)) ^ 2)%R ps) in
      let err := if 2 <? n then sqrt (ssr / INR (n - 2)) else sqrt (ssr / INR n) in  (* 148-153 *)
      Some (mkfit n xm slope icpt err ssx)
  end.

(** ec.py:161-178 *)
Definition prediction_std (f : fit) (grid : list R) : list R :=
  if Req_EM_T (f_err f) 0 then map (fun _ => 0%R) grid
  else map (fun x => f_err f * sqrt (1 + 1 / INR (f_n f) + (if Rlt_dec 0 (f_ssx f) then (x - f_xm f) ^ 2 / f_ssx f else 0)))%R grid.

(** ec.py:230, 348 *)
Definition regression_line (f : fit) (grid : list R) : list R := map (fun x => f_icpt f + f_slope f * x)%R grid.

(** ec.py:247-252, 361-367: one entry of the Gaussian array *)
Definition likelihood (line sigma t : R) : R :=
  (exp (- (1 / 2) * ((t - line) / sigma) ^ 2) / (sqrt (2 * PI) * sigma))%R.
(** ec.py:255-257, 370-376: the nearest target for one column *)
Definition nearest (target : list R) (line : R) : option nat := argmin (map (fun t => Rabs (t - line)) target).

(** ** The prior: ec.py:308-379.  Rows follow the target grid. *)
Definition prior_column (target : list R) (ls : R * R) : option (list R) :=
  let '(line, sigma) := ls in
  if Rlt_dec 0 sigma then Some (map (likelihood line sigma) target)
  else let* k := nearest target line in
       Some (map (fun i => if i =? k then 1 else 0)%R (seq 0 (length target))).
(** columns, one per constraint value *)
Definition prior (xs ys : list (option R)) (cgrid target : list R) : option (list (list R) * list R * list R) :=
  let* f := fit_linear xs ys in
  let line := regression_line f cgrid in
  let sg := prediction_std f cgrid in
  let* cols := mapM (prior_column target) (combine line sg) in
  Some (cols, sg, line).

(** ** The spread: ec.py:268-305; values and pdf of the same length *)
Fixpoint std_loop (threshold total : R) (values pdf : list R) (m : nat) (i : nat) : option R :=
  let frac := (rsum (firstn (m + 1 - i) (skipn i pdf)) / total)%R in      (* 299 *)
  if Rle_dec threshold frac then Some (Rabs (nth m values 0 - nth i values 0))%R
  else match i with O => None | S j => std_loop threshold total values pdf m j end.
(** [Some None] is NaN *)
Definition std_from_pdf (threshold : R) (values pdf : list R) : option (option R) :=
  let total := rsum pdf in
  if Rle_dec total 0 then Some None                                       (* 293-294 *)
  else
    let* m := argmax pdf in
    if negb (length values =? length pdf) then None else
    match std_loop threshold total values pdf m m with                    (* 298-301 *)
    | Some d => Some (Some d)
    | None =>                                                             (* 303 *)
        let v := (rsum (map (fun p => (fst p - nth m values 0) ^ 2 * snd p) (combine values pdf)) / total)%R in
        Some (if Rle_dec 0 v then Some (sqrt v) else None)
    end.

(** ** The posterior: ec.py:181-265 *)
(** ec.py:258: np.add.at of the weights at the nearest targets *)
Definition add_at (n : nat) (ks : list nat) (w : list R) : list R :=
  map (fun i => rsum (map (fun p => if fst p =? i then snd p else 0%R) (combine ks w))) (seq 0 n).
Definition posterior_pdf (f : fit) (cgrid target obs : list R) (dx : R) : option (list R) :=
  let line := regression_line f cgrid in
  let sg := prediction_std f cgrid in
  if existsb (fun s => if Rlt_dec 0 s then true else false) sg then       (* 240-242 *)
    if negb (length obs =? length cgrid) then None else
    Some (map (fun t => rsum (map (fun p => (if Rlt_dec 0 (snd (fst p)) then likelihood (fst (fst p)) (snd (fst p)) t else 0) * (snd p * dx))%R
                                  (combine (combine line sg) obs))) target)  (* 243-253 *)
  else
    let* ks := mapM (nearest target) line in                              (* 255-257 *)
    let obs' := match obs with o :: nil => repeat o (length cgrid) | _ => obs end in  (* one weight is broadcast *)
    if negb (length obs' =? length cgrid) then None else
    Some (add_at (length target) ks (map (fun o => o * dx)%R obs')).      (* 258 *)
(** pdf, std (NaN as None), "mean" *)
Definition posterior (xs ys : list (option R)) (cgrid target obs : list R) : option (list R * option R * R) :=
  match cgrid with
  | c0 :: c1 :: _ =>
      let dx := (c1 - c0)%R in                                            (* 224 *)
      let* f := fit_linear xs ys in
      let* pdf := posterior_pdf f cgrid target obs dx in
      let* sd := std_from_pdf (341 / 1000) target pdf in                  (* 261-262 *)
      let* m := argmax pdf in
      let* mean := nth_error target m in                                  (* 263 *)
      Some (pdf, sd, mean)
  | _ => None
  end.
