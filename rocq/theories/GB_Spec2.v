(** What interpolation to the solver grid should return. *)
From Verif Require Import Base I2P_Spec.
Local Open Scope nat_scope.
Definition rises (l : list Qc) : Prop := forall i j a b, i < j -> nth_error l i = Some a -> nth_error l j = Some b -> (a < b)%Qc.
Definition falls (l : list Qc) : Prop := forall i j a b, i < j -> nth_error l i = Some a -> nth_error l j = Some b -> (b < a)%Qc.
(** a source coordinate the interpolation accepts *)
Definition usable_source (s : list Qc) : Prop := 2 <= length s /\ (rises s \/ falls s).
(** the profile has the value [x] at the pressure [p] *)
Definition sample (s v : list Qc) (p x : Qc) : Prop := exists i, nth_error s i = Some p /\ nth_error v i = Some x.
(** [t] is beyond every pressure of [s] *)
Definition outside (s : list Qc) (t : Qc) : Prop := (forall p, In p s -> (t < p)%Qc) \/ (forall p, In p s -> (p < t)%Qc).
(** the value at [t] of the broken line through the samples [L] in the coordinate [c] *)
Definition broken_line (L : Qc -> Qc -> Prop) (c : Qc -> Qc) (t x : Qc) : Prop :=
  L t x \/ exists p0 x0 p1 x1, neighbours L p0 x0 p1 x1 /\ (p1 < t)%Qc /\ (t < p0)%Qc /\ x = on_line c p0 x0 p1 x1 t.
(** every pressure and target is positive *)
Definition positive (l : list Qc) : Prop := forall p, In p l -> (0 < p)%Qc.
