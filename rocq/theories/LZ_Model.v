(** Model of the lazy exports of src/skyborn/__init__.py (13-111) and
    src/skyborn/calc/__init__.py (23-127).

    Modules are named by their dotted path.  Python's import system is modelled
    to the extent that matters here: importing a module imports its parents first,
    executes each module once, and binds a module's name in the namespace of its
    parent package.  Which imports succeed, and which further modules get loaded on
    the way, is arbitrary but fixed for the process. *)
From Coq Require Import String List Bool.
Import ListNotations.
Local Open Scope string_scope.
Local Open Scope list_scope.

Definition path := list string.
Definition root : path := ["skyborn"].
Definition calc : path := ["skyborn"; "calc"].

(** An object: a module, something defined in the namespace of a module, or
    (opaque) a name bound by the statements of one of the two package bodies. *)
Inductive obj := Mod (p : path) | Def (p : path) (n : string) | Own (p : path) (n : string).
Inductive outcome := Got (o : obj) | AttributeError | ImportError | RecursionError.

(** __init__.py 15-23 and 25-86 *)
Definition root_submodules : list string := ["ROF"; "calc"; "gridfill"; "interp"; "plot"; "spharm"; "windspharm"].
Definition root_objects : list (string * (path * string)) := [
    ("calc_GAUSSIAN_PDF", (calc ++ ["emergent_constraints"], "calc_GAUSSIAN_PDF"));
    ("calc_PDF_EC", (calc ++ ["emergent_constraints"], "calc_PDF_EC"));
    ("calc_PDF_EC_PRIOR", (calc ++ ["emergent_constraints"], "calc_PDF_EC_PRIOR"));
    ("calculate_potential_temperature", (calc ++ ["calculations"], "calculate_potential_temperature"));
    ("convert_longitude_range", (calc ++ ["calculations"], "convert_longitude_range"));
    ("emergent_constraint_posterior", (calc ++ ["emergent_constraints"], "emergent_constraint_posterior"));
    ("emergent_constraint_prior", (calc ++ ["emergent_constraints"], "emergent_constraint_prior"));
    ("find_std_from_PDF", (calc ++ ["emergent_constraints"], "find_std_from_PDF"));
    ("gaussian_pdf", (calc ++ ["emergent_constraints"], "gaussian_pdf"));
    ("geostrophic", (calc, "geostrophic"));
    ("kendall_correlation", (calc ++ ["calculations"], "kendall_correlation"));
    ("linear_regression", (calc ++ ["calculations"], "linear_regression"));
    ("mann_kendall_multidim", (calc ++ ["mann_kendall"], "mann_kendall_multidim"));
    ("mann_kendall_test", (calc ++ ["mann_kendall"], "mann_kendall_test"));
    ("mann_kendall_xarray", (calc ++ ["mann_kendall"], "mann_kendall_xarray"));
    ("mk_multidim", (calc ++ ["mann_kendall"], "mk_multidim"));
    ("mk_test", (calc ++ ["mann_kendall"], "mk_test"));
    ("pearson_correlation", (calc ++ ["calculations"], "pearson_correlation"));
    ("potential_intensity", (calc ++ ["GPI"; "core"], "potential_intensity"));
    ("spearman_correlation", (calc ++ ["calculations"], "spearman_correlation"));
    ("trend_analysis", (calc ++ ["mann_kendall"], "trend_analysis"));
    ("troposphere", (calc, "troposphere"));
    ("granger_causality", (root ++ ["causality"], "granger_causality"));
    ("liang_causality", (root ++ ["causality"], "liang_causality"));
    ("calculate_gradient", (root ++ ["gradients"], "calculate_gradient"));
    ("calculate_meridional_gradient", (root ++ ["gradients"], "calculate_meridional_gradient"));
    ("calculate_vertical_gradient", (root ++ ["gradients"], "calculate_vertical_gradient"));
    ("calculate_zonal_gradient", (root ++ ["gradients"], "calculate_zonal_gradient"));
    ("fill", (root ++ ["gridfill"; "gridfill"], "fill"));
    ("gridfill_fill", (root ++ ["gridfill"; "gridfill"], "fill"))].
(** calc/__init__.py 23-30 and 32-102 *)
Definition calc_submodules : list string := ["GPI"; "dcape"; "geostrophic"; "growth_rate"; "mann_kendall"; "troposphere"].
Definition calc_objects : list (string * (path * string)) := [
    ("calculate_potential_temperature", (calc ++ ["calculations"], "calculate_potential_temperature"));
    ("convert_longitude_range", (calc ++ ["calculations"], "convert_longitude_range"));
    ("kendall_correlation", (calc ++ ["calculations"], "kendall_correlation"));
    ("linear_regression", (calc ++ ["calculations"], "linear_regression"));
    ("pearson_correlation", (calc ++ ["calculations"], "pearson_correlation"));
    ("spatial_correlation", (calc ++ ["calculations"], "spatial_correlation"));
    ("spearman_correlation", (calc ++ ["calculations"], "spearman_correlation"));
    ("calculate_dcape", (calc ++ ["dcape"], "calculate_dcape"));
    ("calc_GAUSSIAN_PDF", (calc ++ ["emergent_constraints"], "calc_GAUSSIAN_PDF"));
    ("calc_PDF_EC", (calc ++ ["emergent_constraints"], "calc_PDF_EC"));
    ("calc_PDF_EC_PRIOR", (calc ++ ["emergent_constraints"], "calc_PDF_EC_PRIOR"));
    ("emergent_constraint_posterior", (calc ++ ["emergent_constraints"], "emergent_constraint_posterior"));
    ("emergent_constraint_prior", (calc ++ ["emergent_constraints"], "emergent_constraint_prior"));
    ("find_std_from_PDF", (calc ++ ["emergent_constraints"], "find_std_from_PDF"));
    ("gaussian_pdf", (calc ++ ["emergent_constraints"], "gaussian_pdf"));
    ("GeostrophicWind", (calc ++ ["geostrophic"], "GeostrophicWind"));
    ("geostrophic_speed", (calc ++ ["geostrophic"], "geostrophic_speed"));
    ("geostrophic_uv", (calc ++ ["geostrophic"], "geostrophic_uv"));
    ("geostrophic_wind", (calc ++ ["geostrophic"], "geostrophic_wind"));
    ("potential_intensity", (calc ++ ["GPI"; "core"], "potential_intensity"));
    ("baroc_growth_rate", (calc ++ ["growth_rate"], "baroc_growth_rate"));
    ("barot_growth_rate", (calc ++ ["growth_rate"], "barot_growth_rate"));
    ("trop_wmo", (calc ++ ["troposphere"], "trop_wmo"));
    ("trop_wmo_profile", (calc ++ ["troposphere"], "trop_wmo_profile"));
    ("mann_kendall_multidim", (calc ++ ["mann_kendall"], "mann_kendall_multidim"));
    ("mann_kendall_test", (calc ++ ["mann_kendall"], "mann_kendall_test"));
    ("mann_kendall_xarray", (calc ++ ["mann_kendall"], "mann_kendall_xarray"));
    ("mk_multidim", (calc ++ ["mann_kendall"], "mk_multidim"));
    ("mk_test", (calc ++ ["mann_kendall"], "mk_test"));
    ("partial_mann_kendall_multidim", (calc ++ ["mann_kendall"], "partial_mann_kendall_multidim"));
    ("partial_mann_kendall_test", (calc ++ ["mann_kendall"], "partial_mann_kendall_test"));
    ("partial_mann_kendall_xarray", (calc ++ ["mann_kendall"], "partial_mann_kendall_xarray"));
    ("partial_multidim", (calc ++ ["mann_kendall"], "partial_multidim"));
    ("partial_test", (calc ++ ["mann_kendall"], "partial_test"));
    ("trend_analysis", (calc ++ ["mann_kendall"], "trend_analysis"))].
(** Names bound by the statements of the package bodies. *)
Definition root_own : list string := ["annotations"; "import_module"; "Any"; "__version__"; "_SUBMODULE_EXPORTS"; "_OBJECT_EXPORTS"; "__all__"; "__getattr__"; "__dir__"].
Definition calc_own : list string := ["annotations"; "import_module"; "Any"; "_SUBMODULE_EXPORTS"; "_OBJECT_EXPORTS"; "__all__"; "__getattr__"; "__dir__"].
(** The modules that exist directly below the two packages. *)
Definition root_children : list string := ["ROF"; "calc"; "causality"; "cdo"; "gradients"; "gridfill"; "interp"; "plot"; "spharm"; "windspharm"].
Definition calc_children : list string := ["GPI"; "calculations"; "dcape"; "emergent_constraints"; "geostrophic"; "growth_rate"; "mann_kendall"; "troposphere"].
(** Names bound (by def, class or import) in the modules the tables refer to. *)
Definition leaf_names : list (path * list string) := [
    (calc ++ ["emergent_constraints"], ["calc_GAUSSIAN_PDF"; "calc_PDF_EC"; "calc_PDF_EC_PRIOR"; "emergent_constraint_posterior"; "emergent_constraint_prior"; "find_std_from_PDF"; "gaussian_pdf"]);
    (calc ++ ["calculations"], ["calculate_potential_temperature"; "convert_longitude_range"; "kendall_correlation"; "linear_regression"; "pearson_correlation"; "spearman_correlation"; "spatial_correlation"]);
    (calc ++ ["mann_kendall"], ["mann_kendall_multidim"; "mann_kendall_test"; "mann_kendall_xarray"; "mk_multidim"; "mk_test"; "trend_analysis"; "partial_mann_kendall_multidim"; "partial_mann_kendall_test"; "partial_mann_kendall_xarray"; "partial_multidim"; "partial_test"]);
    (calc ++ ["GPI"; "core"], ["potential_intensity"]);
    (root ++ ["causality"], ["granger_causality"; "liang_causality"]);
    (root ++ ["gradients"], ["calculate_gradient"; "calculate_meridional_gradient"; "calculate_vertical_gradient"; "calculate_zonal_gradient"]);
    (root ++ ["gridfill"; "gridfill"], ["fill"]);
    (calc ++ ["dcape"], ["calculate_dcape"]);
    (calc ++ ["geostrophic"], ["GeostrophicWind"; "geostrophic_speed"; "geostrophic_uv"; "geostrophic_wind"]);
    (calc ++ ["growth_rate"], ["baroc_growth_rate"; "barot_growth_rate"]);
    (calc ++ ["troposphere"], ["trop_wmo"; "trop_wmo_profile"])].

Definition path_eqb (p q : path) : bool := if list_eq_dec string_dec p q then true else false.
Definition mem (n : string) (l : list string) : bool := existsb (String.eqb n) l.
Fixpoint assoc {X : Type} (n : string) (l : list (string * X)) : option X :=
  match l with [] => None | (k, v) :: l => if String.eqb n k then Some v else assoc n l end.
(** The tables of the packages that have a module-level __getattr__. *)
Definition exports (p : path) : option (list string * list (string * (path * string))) :=
  if path_eqb p root then Some (root_submodules, root_objects)
  else if path_eqb p calc then Some (calc_submodules, calc_objects) else None.
Definition own (p : path) : list string :=
  if path_eqb p root then root_own else if path_eqb p calc then calc_own else [].
Definition leaf (p : path) (n : string) : bool :=
  existsb (fun e => path_eqb p (fst e) && mem n (snd e)) leaf_names.

Record state := { loaded : list path; globals : list (path * string * obj) }.
(** after "import skyborn" *)
Definition initial : state := {| loaded := [root]; globals := [] |}.
Definition is_loaded (st : state) (p : path) : bool := existsb (path_eqb p) (loaded st).
(** globals()[n] = o in module p *)
Definition bind_name (st : state) (p : path) (n : string) (o : obj) : state :=
  {| loaded := loaded st; globals := (p, n, o) :: globals st |}.
Definition lookup (st : state) (p : path) (n : string) : option obj :=
  match find (fun e => path_eqb p (fst (fst e)) && String.eqb n (snd (fst e))) (globals st) with
  | Some e => Some (snd e)
  | None => if mem n (own p) then Some (Own p n) else if leaf p n then Some (Def p n) else None
  end.

Section Lazy.
(** Executing the body of a module succeeds. *)
Variable ok : path -> bool.
(** The modules that have been loaded when that execution ends. *)
Variable also_loads : path -> list path.

(** A module has been executed: it is in sys.modules and bound in its parent. *)
Definition load (st : state) (p : path) : state :=
  if is_loaded st p then st
  else {| loaded := p :: loaded st; globals := (removelast p, last p "", Mod p) :: globals st |}.
(** import_module for one component whose parents are loaded *)
Definition import1 (st : state) (p : path) : state * bool :=
  if is_loaded st p then (st, true)
  else let st' := fold_left load (also_loads p) st in
       if ok p then (load st' p, true) else (st', false).
(** the non-empty prefixes of a path, shortest first *)
Fixpoint prefixes (p : path) : list path :=
  match p with [] => [] | x :: p => [x] :: map (cons x) (prefixes p) end.
Definition import_module (st : state) (p : path) : state * bool :=
  fold_left (fun (acc : state * bool) q => if snd acc then import1 (fst acc) q else acc) (prefixes p) (st, true).

(** Attribute access p.n, with __getattr__ (91-105, 107-121); [fuel] is the
    recursion limit. *)
Fixpoint getattr (fuel : nat) (st : state) (p : path) (n : string) : state * outcome :=
  match lookup st p n with
  | Some o => (st, Got o)
  | None =>
    match exports p with
    | None => (st, AttributeError)
    | Some (subs, objs) =>
      match fuel with
      | 0 => (st, RecursionError)
      | S fuel =>
        if mem n subs then                                                     (* 94-97 *)
          let '(st, b) := import_module st (p ++ [n]) in
          if b then (bind_name st p n (Mod (p ++ [n])), Got (Mod (p ++ [n]))) else (st, ImportError)
        else match assoc n objs with                                           (* 99-103 *)
        | Some (m, o) =>
          let '(st, b) := import_module st m in
          if b then
            let '(st, v) := getattr fuel st m o in
            match v with Got x => (bind_name st p n x, Got x) | _ => (st, v) end
          else (st, ImportError)
        | None => (st, AttributeError)                                         (* 105 *)
        end
      end
    end
  end.

(** What a program may do: read an attribute of a module it has, or import. *)
Inductive op := Get (p : path) (n : string) | Import (p : path).
Definition step (fuel : nat) (st : state) (o : op) : state :=
  match o with
  | Get p n => if is_loaded st p then fst (getattr fuel st p n) else st
  | Import p => fst (import_module st p)
  end.
Definition run (fuel : nat) (h : list op) : state := fold_left (step fuel) h initial.
End Lazy.
