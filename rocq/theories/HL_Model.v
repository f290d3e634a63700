(** Pressure and layer thickness on hybrid levels with named dimensions:
    src/skyborn/interp/interpolation.py pressure_at_hybrid_levels (590-687),
    delta_pressure_hybrid (690-818), _pressure_from_hybrid (1072-1082) and their
    helpers, around the compiled columns of VH_Model.

    Simplified: exact rationals; the coefficients are one-dimensional; the compiled
    backend is present and nothing is lazy or has units; coordinates, attributes
    and warnings are left out.  Behaviour of xarray assumed here: [rename] to a name
    that the array already has raises ValueError; an array built with a repeated
    dimension name is the outcome [Repeated], about which nothing is said. *)
From Coq Require Import String List Arith Bool QArith Qcanon.
From Verif Require Import Base VH_Model.
Import ListNotations.
Local Open Scope string_scope.
Local Open Scope list_scope.
Local Open Scope nat_scope.


Inductive outcome (A : Type) := Done (a : A) | TypeErr | ValueErr | AttrErr | Repeated.
Arguments Done {A}. Arguments TypeErr {A}. Arguments ValueErr {A}. Arguments AttrErr {A}. Arguments Repeated {A}.

(** arguments: numpy array or DataArray, values in C order (interpolation.py:1316-1319) *)
Inductive array := Np (shape : list nat) (v : list Qc) | Xr (dims : list string) (shape : list nat) (v : list Qc).
Inductive coeff := NpC (v : list Qc) | XrC (dim : string) (v : list Qc).
(** interpolation.py:638, 672, 756, 774-775 (hya.shape, hya.data) *)
Definition cval (c : coeff) : list Qc := match c with NpC v => v | XrC _ v => v end.

(** a DataArray: names, sizes, value at a list of positions (interpolation.py:676-680, 802-806) *)
Record named := mk { dims : list string; sizes : list nat; get : list nat -> option Qc }.
Inductive result := NpR (shape : list nat) (v : list Qc) | XrR (a : named).

(** numpy C order, used by reshape(..., order="C") (interpolation.py:658, 673, 777, 799) *)
Fixpoint prod (s : list nat) : nat := match s with [] => 1 | n :: r => n * prod r end.
Fixpoint cindex (s i : list nat) : option nat :=
  match s, i with
  | [], [] => Some 0
  | n :: s, k :: i => if k <? n then match cindex s i with Some c => Some (k * prod s + c) | None => None end else None
  | _, _ => None
  end.
(** interpolation.py:676-680, 802-806 *)
Definition of_flat (d : list string) (s : list nat) (v : list Qc) : named :=
  mk d s (fun i => match cindex s i with Some c => nth_error v c | None => None end).

(** xarray names: [dim in dims], [sizes[dim]], position of a name (interpolation.py:131, 197-198) *)
Definition inb (x : string) (l : list string) : bool := existsb (String.eqb x) l.
Fixpoint pos (x : string) (l : list string) : nat :=
  match l with [] => 0 | y :: r => if String.eqb x y then 0 else S (pos x r) end.
Definition size_of (d : list string) (s : list nat) (x : string) : nat := nth (pos x d) s 0.

(** interpolation.py:120-138 *)
Definition rename_colliding (d : list string) (s : list nat) (c : string) (n : nat) : string :=
  if inb c d && negb (size_of d s c =? n) then (if inb "lev" d then "__hybrid_lev__" else "lev") else c.

(** xarray rename and transpose as used at interpolation.py:191, 204 *)
Definition rename (old new : string) (a : named) : outcome named :=
  if inb new (dims a) then ValueErr
  else Done (mk (map (fun x => if String.eqb x old then new else x) (dims a)) (sizes a) (get a)).
Definition transpose (o : list string) (a : named) : named :=
  mk o (map (size_of (dims a) (sizes a)) o) (fun i => if length i =? length o then get a (map (fun x => nth (pos x o) i 0) (dims a)) else None).

(** interpolation.py:196-198 *)
Definition order_of (requested d : list string) : list string :=
  let o := filter (fun x => inb x d) requested in o ++ filter (fun x => negb (inb x o)) d.
(** interpolation.py:172-206 *)
Definition finalize (a : named) (lev_name : string) (lev_dim : option string) (output_dims : option (list string)) : outcome named :=
  let target := match lev_dim with None => lev_name | Some t => t end in
  match (if String.eqb target lev_name then Done a else rename lev_name target a) with
  | Done a =>
    match output_dims with
    | None => Done a
    | Some requested =>
      let o := order_of requested (dims a) in
      if negb (length o =? length (dims a)) || negb (forallb (fun x => inb x (dims a)) o && forallb (fun x => inb x o) (dims a))
      then ValueErr else Done (transpose o a)
    end
  | e => e
  end.

(** the (nlev, ncol) array of the kernels read in C order (interpolation.py:658, 777);
    [cols] has one list per column *)
Definition stack (nlev : nat) (cols : list (list Qc)) : list Qc :=
  flat_map (fun k => map (fun c => nth k c 0%Qc) cols) (seq 0 nlev).
(** interpolation.py:1405-1460 and 1344-1402 *)
Definition pressure_flat (ps a b : list Qc) (p0 : Qc) : list Qc :=
  stack (length a) (compute_pressure_at_hybrid_levels_columns ps a b p0).
Definition thickness_flat (ps a b : list Qc) (p0 : Qc) : list Qc :=
  stack (length a - 1) (compute_delta_pressure_columns ps a b p0).

(** the default of [lev_dim] and [output_dims] (interpolation.py:595-596, 652-653, 695-696, 769-770) *)
Definition default_dims : list string := ["time"; "lev"; "lat"; "lon"].
Definition is_default (lev_dim : option string) (output_dims : option (list string)) : bool :=
  match lev_dim, output_dims with
  | Some l, Some o => String.eqb l "lev" && (if list_eq_dec string_dec o default_dims then true else false)
  | _, _ => false
  end.
(** interpolation.py:669-687 and 794-818 *)
Definition build (lev : string) (n : nat) (d : list string) (s : list nat) (v : list Qc) lev_dim output_dims : outcome result :=
  if inb lev d then Repeated
  else match finalize (of_flat (lev :: d) (n :: s) v) lev lev_dim output_dims with
       | Done a => Done (XrR a) | TypeErr => TypeErr | ValueErr => ValueErr | AttrErr => AttrErr | Repeated => Repeated
       end.

(** interpolation.py:590-687 *)
Definition pressure_at_hybrid_levels (ps : array) (hya hyb : coeff) (p0 : Qc) lev_dim output_dims : outcome result :=
  match ps, hya, hyb with
  | Np s v, NpC a, NpC b =>
    if negb (length a =? length b) then ValueErr
    else if negb (is_default lev_dim output_dims) then TypeErr
    else Done (NpR (length a :: s) (pressure_flat v a b p0))
  | Xr d s v, XrC na a, XrC _ b =>
    if negb (length a =? length b) then ValueErr
    else build (rename_colliding d s na (length a)) (length a) d s (pressure_flat v a b p0) lev_dim output_dims
  | _, _, _ => TypeErr
  end.
(** interpolation.py:690-818 *)
Definition delta_pressure_hybrid (ps : array) (hya hyb : coeff) (p0 : Qc) lev_dim output_dims : outcome result :=
  let a := cval hya in let b := cval hyb in
  if negb (length a =? length b) then ValueErr
  else match ps with
  | Np s v =>
    if negb (is_default lev_dim output_dims) then TypeErr
    else if length a =? 0 then ValueErr
    else Done (NpR ((length a - 1) :: s) (thickness_flat v a b p0))
  | Xr d s v =>
    match hya, hyb with
    | XrC _ _, NpC _ => AttrErr
    | _, _ =>
      let na := match hya with NpC _ => "lev" | XrC n _ => n end in
      if length a =? 0 then ValueErr
      else build (rename_colliding d s na (length a)) (length a - 1) d s (thickness_flat v a b p0) lev_dim output_dims
    end
  end.
(** interpolation.py:1072-1082 *)
Definition pressure_from_hybrid (ps : array) (hya hyb : coeff) (p0 : Qc) : outcome result :=
  pressure_at_hybrid_levels ps hya hyb p0 None None.
