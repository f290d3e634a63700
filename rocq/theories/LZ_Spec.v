(** What an export denotes, independently of any history. *)
From Coq Require Import String List Bool.
From Verif Require Import LZ_Model.
Import ListNotations.
Local Open Scope list_scope.

Section Denote.
Variable ok : path -> bool.
(** A module can be imported: its own body and those of its parents execute. *)
Definition importable (p : path) : bool := forallb ok (prefixes p).
(** The modules below the packages are those that exist in the source tree. *)
Definition tree : Prop :=
  ok root = true /\
  (forall n, ok (root ++ [n]) = true -> In n root_children) /\
  (forall n, ok (calc ++ [n]) = true -> In n calc_children) /\
  (forall m n, leaf m n = true -> ok (m ++ [n]) = false).
(** An exported submodule denotes that module. *)
Inductive denotes : path -> string -> outcome -> Prop :=
| D_module p subs objs n : exports p = Some (subs, objs) -> In n subs ->
    denotes p n (if importable (p ++ [n]) then Got (Mod (p ++ [n])) else ImportError)
(** An exported object denotes the object of that name in the module the table
    gives ... *)
| D_object p subs objs n m o : exports p = Some (subs, objs) -> ~ In n subs -> In (n, (m, o)) objs -> exports m = None ->
    denotes p n (if importable m then Got (Def m o) else ImportError)
(** ... or, when that module itself exports lazily, what it denotes there. *)
| D_forward p subs objs n m o v : exports p = Some (subs, objs) -> ~ In n subs -> In (n, (m, o)) objs -> exports m <> None ->
    denotes m o v -> denotes p n (if importable m then v else ImportError).
End Denote.
(** The names in __all__ that are resolved lazily. *)
Definition exported (p : path) (n : string) : Prop :=
  exists subs objs, exports p = Some (subs, objs) /\ (In n subs \/ exists m o, In (n, (m, o)) objs).
