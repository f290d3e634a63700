(** C115, C116: pressure and layer thickness on hybrid levels, read by the names of
    the dimensions. *)
From Coq Require Import String List Arith Bool QArith Qcanon Permutation Lia.
From Verif Require Import Base VH_Model VH_Spec VH_Props HL_Model HL_Spec HL_Proofs.
Import ListNotations.
Local Open Scope string_scope.
Local Open Scope list_scope.
Local Open Scope nat_scope.

(** ** C115: the functions on DataArrays *)
(** Whatever names and order were asked for, the result has one more dimension than
    the surface pressure, and its value at any names is the hybrid formula on the
    surface pressure at the same names; past the last level there is nothing. *)
Theorem C115_pressure d s v na nb a b p0 lev_dim output_dims r : field d s v -> length a = length b ->
  pressure_at_hybrid_levels (Xr d s v) (XrC na a) (XrC nb b) p0 lev_dim output_dims = Done r ->
  exists R t, r = XrR R /\ (forall u, lev_dim = Some u -> t = u) /\ ~ In t d /\ Permutation (dims R) (t :: d) /\
  (forall env x y p, nth_error a (env t) = Some x -> nth_error b (env t) = Some y ->
     at_names (of_flat d s v) env = Some p -> at_names R env = Some (x * p0 + y * p)%Qc) /\
  (forall env, length a <= env t -> at_names R env = None).
Proof.
  intros (N & Ls & Lv) Lab. unfold pressure_at_hybrid_levels. rewrite Lab, Nat.eqb_refl. cbn [negb]. rewrite <- Lab. intros H.
  destruct (build_ok _ _ _ _ _ _ _ _ N H) as (R & -> & Ht & _ & P & G).
  exists R, (target_of (rename_colliding d s na (length a)) lev_dim). split; auto.
  split; [intros u ->; reflexivity|]. split; auto. split; auto. split.
  - intros env x y p Hx Hy Hp. rewrite G. apply surface_at in Hp. destruct Hp as (c & Hc & Hv). unfold pressure_flat.
    erewrite flat_at; [|unfold compute_pressure_at_hybrid_levels_columns; rewrite map_length, prod_fold; exact Lv
      |apply nth_error_Some; congruence|exact Hc
      |unfold compute_pressure_at_hybrid_levels_columns; rewrite nth_error_map, Hv; reflexivity].
    f_equal. apply pressures_at; auto.
  - intros env Hk. rewrite G. apply flat_outside; auto.
Qed.
(** The thickness of layer k is the distance between the pressures of interfaces k
    and k+1 of that column. *)
Theorem C115_thickness d s v hya hyb p0 lev_dim output_dims r : field d s v ->
  delta_pressure_hybrid (Xr d s v) hya hyb p0 lev_dim output_dims = Done r ->
  exists R t, r = XrR R /\ (forall u, lev_dim = Some u -> t = u) /\ ~ In t d /\ Permutation (dims R) (t :: d) /\
  (forall env x y x' y' p, nth_error (cval hya) (env t) = Some x -> nth_error (cval hyb) (env t) = Some y ->
     nth_error (cval hya) (env t + 1) = Some x' -> nth_error (cval hyb) (env t + 1) = Some y' ->
     at_names (of_flat d s v) env = Some p -> at_names R env = Some (distance (x * p0 + y * p) (x' * p0 + y' * p))%Qc) /\
  (forall env, length (cval hya) <= env t + 1 -> at_names R env = None).
Proof.
  intros (N & Ls & Lv). unfold delta_pressure_hybrid. set (a := cval hya). set (b := cval hyb).
  destruct (Nat.eqb_spec (length a) (length b)) as [Lab|]; [|discriminate]. cbn [negb].
  set (na := match hya with NpC _ => "lev" | XrC n _ => n end). intros H.
  assert (H' : build (rename_colliding d s na (length a)) (length a - 1) d s (thickness_flat v a b p0) lev_dim output_dims = Done r
               /\ length a <> 0).
  { destruct hya, hyb; try discriminate; destruct (Nat.eqb_spec (length a) 0); try discriminate; auto. }
  clear H. destruct H' as [H L0].
  destruct (build_ok _ _ _ _ _ _ _ _ N H) as (R & -> & Ht & _ & P & G).
  exists R, (target_of (rename_colliding d s na (length a)) lev_dim). split; auto.
  split; [intros u ->; reflexivity|]. split; auto. split; auto. split.
  - intros env x y x' y' p Hx Hy Hx' Hy' Hp. rewrite G. apply surface_at in Hp. destruct Hp as (c & Hc & Hv).
    set (k := env _) in *. unfold thickness_flat.
    assert (Hk : k + 1 < length a) by (apply nth_error_Some; congruence).
    assert (E : forall k x y, nth_error a k = Some x -> nth_error b k = Some y ->
      nth_error (hybrid_pressures a b p0 p) k = Some (x * p0 + y * p)%Qc).
    { clear. unfold hybrid_pressures. generalize a b. clear. induction a as [|u a IH]; intros [|w b] [|k] x y; cbn; try discriminate; [|apply IH].
      intros [= ->] [= ->]. reflexivity. }
    assert (Hcol : nth_error (compute_delta_pressure_columns v a b p0) c = Some (delta_pressure_column a b p0 p))
      by (unfold compute_delta_pressure_columns; rewrite nth_error_map, Hv; reflexivity).
    erewrite flat_at; [|unfold compute_delta_pressure_columns; rewrite map_length, prod_fold; exact Lv|lia|exact Hc|exact Hcol].
    f_equal. apply nth_error_nth. eapply thickness_layer; eauto.
  - intros env Hk. rewrite G. apply flat_outside. lia.
Qed.
(** The names asked for come first, in the order asked for; the others keep theirs. *)
Theorem C115_order d s v na nb a b p0 t req R : field d s v -> length a = length b ->
  pressure_at_hybrid_levels (Xr d s v) (XrC na a) (XrC nb b) p0 (Some t) (Some req) = Done (XrR R) ->
  (forall x, In x (dims R) <-> x = t \/ In x d) /\ NoDup (dims R) /\
  exists first rest, dims R = first ++ rest /\
    (forall x, In x first <-> In x req /\ (x = t \/ In x d)) /\
    (forall x y, before x y first -> before x y req) /\ (forall x y, before x y rest -> before x y (t :: d)).
Proof.
  intros (N & Ls & Lv) Lab. unfold pressure_at_hybrid_levels. rewrite Lab, Nat.eqb_refl. cbn [negb]. rewrite <- Lab. intros H.
  destruct (build_ok _ _ _ _ _ _ _ _ N H) as (R' & E & Ht & D & P & _). injection E as <-. cbn [target_of dims_of] in *.
  assert (S : forall (f : string -> bool) l x y, before x y (filter f l) -> before x y l).
  { intros f l x y (l1 & l2 & l3 & E). revert l1 E. induction l as [|z l IH]; intros l1 E; [destruct l1; discriminate|].
    cbn in E. destruct (f z).
    - destruct l1 as [|w l1]; cbn in E; injection E as -> E.
      + assert (Hy : In y l). { apply (proj1 (filter_In f y l)). rewrite E. apply in_or_app. cbn; auto. }
        apply in_split in Hy. destruct Hy as (m1 & m2 & ->). exists [], m1, m2. reflexivity.
      + destruct (IH l1 E) as (m1 & m2 & m3 & ->). exists (w :: m1), m2, m3. reflexivity.
    - destruct (IH l1 E) as (m1 & m2 & m3 & ->). exists (z :: m1), m2, m3. reflexivity. }
  split; [|split].
  - intros x. rewrite D, order_of_in. cbn. intuition congruence.
  - apply (Permutation_NoDup (Permutation_sym P)). constructor; auto.
  - rewrite order_of_eq in D. eexists _, _. split; [exact D|]. split; [|split].
    + intros x. rewrite filter_In, inb_in. cbn. intuition congruence.
    + intros x y. apply S.
    + intros x y. apply S.
Qed.
(** When it succeeds, and when it refuses: a dimension asked for twice. *)
Theorem C115_accepts d s v na nb a b p0 t req : field d s v -> length a = length b -> ~ In na d -> ~ In t d ->
  ((forall x l1 l2 l3, req = l1 ++ x :: l2 ++ x :: l3 -> ~ (x = t \/ In x d)) ->
     exists R, pressure_at_hybrid_levels (Xr d s v) (XrC na a) (XrC nb b) p0 (Some t) (Some req) = Done (XrR R)) /\
  ((exists x l1 l2 l3, req = l1 ++ x :: l2 ++ x :: l3 /\ (x = t \/ In x d)) ->
     pressure_at_hybrid_levels (Xr d s v) (XrC na a) (XrC nb b) p0 (Some t) (Some req) = ValueErr).
Proof.
  intros (N & Ls & Lv) Lab Hna Ht. unfold pressure_at_hybrid_levels. rewrite Lab, Nat.eqb_refl. cbn [negb]. rewrite <- Lab.
  assert (Er : rename_colliding d s na (length a) = na) by (unfold rename_colliding; rewrite (proj2 (inb_not na d) Hna); reflexivity).
  rewrite Er. split.
  - intros H. destruct (build_done na (length a) d s (pressure_flat v a b p0) (Some t) (Some req)) as [r Hr]; auto.
    + cbn [target_of]. clear - H. induction req as [|z req IH]; [constructor|]. cbn [filter].
      assert (I : NoDup (filter (fun x => inb x (t :: d)) req)).
      { apply IH. intros x l1 l2 l3 E. apply (H x (z :: l1) l2 l3). rewrite E. reflexivity. }
      destruct (inb z (t :: d)) eqn:Z; auto. constructor; auto. rewrite filter_In. intros [Q _].
      apply in_split in Q. destruct Q as (m1 & m2 & ->). apply (H z [] m1 m2 eq_refl). apply inb_in in Z. cbn in Z. intuition congruence.
    + destruct (build_ok _ _ _ _ _ _ _ _ N Hr) as (R & -> & _). eauto.
  - intros (x & l1 & l2 & l3 & -> & Hx). apply build_refuses; auto. cbn [target_of].
    assert (Z : inb x (t :: d) = true) by (apply inb_in; cbn; intuition congruence).
    rewrite filter_app. cbn [filter]. rewrite Z, filter_app. cbn [filter]. rewrite Z.
    intros Q. apply NoDup_remove_2 in Q. apply Q. rewrite !in_app_iff. cbn. auto.
Qed.
(** numpy arrays: the level is the first axis, the others are those of the surface pressure *)
Theorem C115_numpy s v a b p0 k i c x y p : length v = fold_right Nat.mul 1 s -> length a = length b ->
  cindex s i = Some c -> nth_error v c = Some p -> nth_error a k = Some x -> nth_error b k = Some y ->
  exists w j, pressure_at_hybrid_levels (Np s v) (NpC a) (NpC b) p0 (Some "lev") (Some ["time"; "lev"; "lat"; "lon"]) = Done (NpR (length a :: s) w) /\
  length w = fold_right Nat.mul 1 (length a :: s) /\
  cindex (length a :: s) (k :: i) = Some j /\ nth_error w j = Some (x * p0 + y * p)%Qc.
Proof.
  intros Lv Lab Hi Hp Hx Hy.
  assert (Hk : k < length a) by (apply nth_error_Some; congruence).
  exists (pressure_flat v a b p0), (k * prod s + c). split; [|split; [|split]].
  - unfold pressure_at_hybrid_levels. rewrite Lab, Nat.eqb_refl. reflexivity.
  - unfold pressure_flat. rewrite stack_length. unfold compute_pressure_at_hybrid_levels_columns. rewrite map_length, Lv. reflexivity.
  - cbn [cindex]. rewrite (proj2 (Nat.ltb_lt _ _) Hk), Hi. reflexivity.
  - pose proof (flat_at "" [] s (length a) (compute_pressure_at_hybrid_levels_columns v a b p0) k i c) as F.
    unfold of_flat in F. cbn [get cindex] in F. rewrite (proj2 (Nat.ltb_lt _ _) Hk), Hi in F.
    unfold pressure_flat. erewrite F; [|unfold compute_pressure_at_hybrid_levels_columns; rewrite map_length, prod_fold; exact Lv|auto|reflexivity
      |unfold compute_pressure_at_hybrid_levels_columns; rewrite nth_error_map, Hp; reflexivity].
    f_equal. apply pressures_at; auto.
Qed.

(** two times, two longitudes, three interfaces *)
Definition ex_ps : list Qc := [qz 100000; qz 90000; qz 80000; qz 70000].
Definition ex_a : list Qc := [0; dec 1 10; 0]%Qc.
Definition ex_b : list Qc := [0; dec 1 2; 1]%Qc.
Definition show (r : outcome result) : list string * list nat * list (option Q) :=
  match r with
  | Done (XrR R) => (dims R, sizes R, map (fun i => option_map this (get R i)) [[0; 0; 0]; [0; 1; 0]; [0; 1; 1]; [1; 1; 0]; [1; 1; 1]; [1; 3; 0]])
  | _ => ([], [], [])
  end.
Example C115_example :
  field ["time"; "lon"] [2; 2] ex_ps /\
  show (pressure_at_hybrid_levels (Xr ["time"; "lon"] [2; 2] ex_ps) (XrC "ilev" ex_a) (XrC "ilev" ex_b) (qz 100000) (Some "lev") (Some default_dims))
  = (["time"; "lev"; "lon"], [2; 3; 2], [Some 0%Q; Some 60000%Q; Some 55000%Q; Some 50000%Q; Some 45000%Q; None]) /\
  show (delta_pressure_hybrid (Xr ["time"; "lon"] [2; 2] ex_ps) (XrC "ilev" ex_a) (NpC ex_b) (qz 100000) (Some "lev") (Some default_dims)) = ([], [], []) /\
  show (delta_pressure_hybrid (Xr ["time"; "lon"] [2; 2] ex_ps) (NpC ex_a) (NpC ex_b) (qz 100000) (Some "lev") (Some default_dims))
  = (["time"; "lev"; "lon"], [2; 2; 2], [Some 60000%Q; Some 40000%Q; Some 35000%Q; Some 30000%Q; Some 25000%Q; None]).
Proof.
  split; [|vm_compute; auto]. split; [|split; reflexivity].
  repeat constructor; cbn; intuition discriminate.
Qed.
(** a name asked for twice *)
Example C115_accepts_example :
  pressure_at_hybrid_levels (Xr ["time"; "lon"] [2; 2] ex_ps) (XrC "ilev" ex_a) (XrC "ilev" ex_b) (qz 100000) (Some "lev") (Some ["lev"; "lon"; "lev"]) = ValueErr /\
  (forall x l1 l2 l3, default_dims = l1 ++ x :: l2 ++ x :: l3 -> ~ (x = "lev" \/ In x ["time"; "lon"])).
Proof.
  split; [vm_compute; reflexivity|]. intros x l1 l2 l3 E. exfalso.
  assert (N : NoDup default_dims) by (repeat constructor; cbn; intuition discriminate).
  rewrite E in N. apply NoDup_remove_2 in N. apply N. rewrite !in_app_iff. cbn. auto.
Qed.
Example C115_numpy_example : exists w j,
  pressure_at_hybrid_levels (Np [2; 2] ex_ps) (NpC ex_a) (NpC ex_b) (qz 100000) (Some "lev") (Some default_dims) = Done (NpR [3; 2; 2] w) /\
  cindex [3; 2; 2] [1; 1; 0] = Some j /\ option_map this (nth_error w j) = Some 50000%Q.
Proof. eexists _, _. split; [reflexivity|]. split; [reflexivity|]. vm_compute. reflexivity. Qed.

(** ** C116: the backward-compatible wrapper _pressure_from_hybrid *)
(** On DataArrays it gives the level first and the dimensions of the surface pressure
    after it, with the hybrid formula. *)
Theorem C116_dataarray d s v na nb a b p0 : field d s v -> length a = length b -> ~ In na d ->
  exists R, pressure_from_hybrid (Xr d s v) (XrC na a) (XrC nb b) p0 = Done (XrR R) /\ dims R = na :: d /\
  forall env x y p, nth_error a (env na) = Some x -> nth_error b (env na) = Some y ->
     at_names (of_flat d s v) env = Some p -> at_names R env = Some (x * p0 + y * p)%Qc.
Proof.
  intros F Lab Hna. destruct F as (N & Ls & Lv). unfold pressure_from_hybrid.
  assert (Er : rename_colliding d s na (length a) = na) by (unfold rename_colliding; rewrite (proj2 (inb_not na d) Hna); reflexivity).
  destruct (build_done na (length a) d s (pressure_flat v a b p0) None None) as [r Hr]; auto.
  assert (Hp : pressure_at_hybrid_levels (Xr d s v) (XrC na a) (XrC nb b) p0 None None = Done r).
  { unfold pressure_at_hybrid_levels. rewrite Lab, Nat.eqb_refl. cbn [negb]. rewrite <- Lab, Er. exact Hr. }
  destruct (build_ok _ _ _ _ _ _ _ _ N Hr) as (R & -> & _ & D & _ & G). cbn [target_of dims_of] in *.
  exists R. split; auto. split; auto. intros env x y p Hx Hy Hs. rewrite G.
  apply surface_at in Hs. destruct Hs as (c & Hc & Hv). unfold pressure_flat.
  erewrite flat_at; [|unfold compute_pressure_at_hybrid_levels_columns; rewrite map_length, prod_fold; exact Lv
    |apply nth_error_Some; congruence|exact Hc
    |unfold compute_pressure_at_hybrid_levels_columns; rewrite nth_error_map, Hv; reflexivity].
  f_equal. apply pressures_at; auto.
Qed.
(** On numpy arrays it never returns: it passes None for two arguments that the
    numpy path accepts only with their default values. *)
Theorem C116_numpy_never s v hya hyb p0 r : pressure_from_hybrid (Np s v) hya hyb p0 <> Done r.
Proof. unfold pressure_from_hybrid, pressure_at_hybrid_levels. destruct hya, hyb; try discriminate. destruct (negb _); discriminate. Qed.
(** The claim "the wrapper gives what pressure_at_hybrid_levels gives by default" is
    false: here the function returns and the wrapper raises TypeError. *)
Theorem C116_compatible_refuted : exists ps hya hyb p0 r,
  pressure_at_hybrid_levels ps hya hyb p0 (Some "lev") (Some default_dims) = Done r /\
  pressure_from_hybrid ps hya hyb p0 = TypeErr.
Proof. exists (Np [2; 2] ex_ps), (NpC ex_a), (NpC ex_b), (qz 100000). eexists. split; reflexivity. Qed.
Example C116_example :
  show (pressure_from_hybrid (Xr ["time"; "lon"] [2; 2] ex_ps) (XrC "ilev" ex_a) (XrC "x" ex_b) (qz 100000))
  = (["ilev"; "time"; "lon"], [3; 2; 2], [Some 0%Q; Some 0%Q; Some 0%Q; Some 50000%Q; Some 45000%Q; None]).
Proof. vm_compute. reflexivity. Qed.

Print Assumptions C115_pressure.
Print Assumptions C115_thickness.
Print Assumptions C115_order.
Print Assumptions C115_accepts.
Print Assumptions C115_numpy.
Print Assumptions C116_dataarray.
Print Assumptions C116_numpy_never.
Print Assumptions C116_compatible_refuted.
