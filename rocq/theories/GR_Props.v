(** C49: skyborn.gradients. *)
From Coq Require Import Lia Arith.
From Verif Require Import Base GR_Model GR_Spec GR_Proofs GR_Proofs2.
Local Open Scope Qc_scope.

Section Props.
(** Behaviour with coordinates that are not one-dimensional: arbitrary. *)
Variable nd : array -> array -> Z -> option array.
Notation gradient := (calculate_gradient nd).

(** The call is well formed: the axis exists and has as many points as there are
    coordinates, at least two, strictly monotonic; the radius, if given, is positive. *)
Definition well_formed (field : array) (c : list Qc) (axis : Z) (ax : nat) (radius : option Qc) : Prop :=
  axis_of (length (shape field)) axis = Some ax /\ length c = len (shape field) ax /\ (2 <= length c)%nat /\
  strictly_monotonic (fun i => nth i c q0) (length c) /\ (forall r, radius = Some r -> 0 < r).
(** Position of coordinate [i]: the coordinate itself, or the distance in metres. *)
Definition position (radius : option Qc) (c : list Qc) (i : nat) : Qc :=
  match radius with Some r => nth i c q0 * np_pi / qz 180 * r | None => nth i c q0 end.

Lemma position_eq radius c i : nth i (distances radius c) q0 = position radius c i.
Proof. rewrite distances_nth. destruct radius; cbn [per_degree position]; unfold Qcdiv; ring. Qed.
Lemma positions_monotonic field c axis ax radius : well_formed field c axis ax radius ->
  strictly_monotonic (position radius c) (length c).
Proof.
  intros (_ & _ & _ & M & Hr).
  apply (mono_ext (fun i => nth i c q0 * per_degree radius)); [intros; rewrite <- distances_nth; apply position_eq|].
  apply (scale_mono (fun i => nth i c q0)); [|exact M]. destruct radius as [r|]; [|reflexivity]. cbn [per_degree].
  specialize (Hr r eq_refl). assert (0 < np_pi / qz 180) by reflexivity. generalize dependent (np_pi / qz 180). intros. qcnra.
Qed.

(** What is computed: the differences quotients of each line along the axis. *)
Definition gradient_of (field : array) (ax : nat) (res : option array) (v : nat -> nat -> nat -> Qc) : Prop :=
  exists g, res = Some {| shape := shape field; data := g |} /\
    length g = (outer (shape field) ax * len (shape field) ax * inner (shape field) ax)%nat /\
    forall o i k, (o < outer (shape field) ax)%nat -> (i < len (shape field) ax)%nat -> (k < inner (shape field) ax)%nat ->
      entry (shape field) ax g o i k = v o i k.
Lemma gradient_slopes field c axis ax radius : well_formed field c axis ax radius ->
  gradient_of field ax (gradient field (vec c) axis radius)
    (fun o i k => slope_at (fun j => entry (shape field) ax (data field) o j k) (position radius c) (length c) i (close (distances radius c))).
Proof.
  intros (Ea & El & E2 & _). destruct (gradient_entry nd field c axis ax radius Ea El E2) as (g & E & Lg & V).
  exists g. split; [exact E|]. rewrite <- El. split; [exact Lg|]. intros o i k Ho Hi Hk. rewrite (V o i k Ho Hi Hk).
  unfold slope_at. rewrite !position_eq. reflexivity.
Qed.

(** Positions that are evenly spaced, or whose spacing differs by more than the
    tolerance with which the code compares them. *)
Definition resolved (radius : option Qc) (c : list Qc) : Prop :=
  evenly_spaced (position radius c) (length c) \/ visibly_uneven (position radius c) (length c).
Lemma resolved_close radius c : resolved radius c -> close (distances radius c) = true -> evenly_spaced (position radius c) (length c).
Proof.
  intros [H|H] Ec; [exact H|]. exfalso.
  rewrite close_false in Ec; [discriminate|]. rewrite distances_length. destruct H as (i & Hi & H). exists i. split; [exact Hi|].
  rewrite !position_eq. exact H.
Qed.

(** Exact at every point, boundaries included, on fields that are linear along
    the axis. *)
Theorem C49_linear_exact : forall field c axis ax radius A B, well_formed field c axis ax radius -> resolved radius c ->
  (forall o i k, (o < outer (shape field) ax)%nat -> (i < len (shape field) ax)%nat -> (k < inner (shape field) ax)%nat ->
     entry (shape field) ax (data field) o i k = line (A o k) (B o k) (position radius c i)) ->
  gradient_of field ax (gradient field (vec c) axis radius) (fun o i k => A o k).
Proof.
  intros field c axis ax radius A B W Hres HF. pose proof (positions_monotonic _ _ _ _ _ W) as M.
  destruct (gradient_slopes field c axis ax radius W) as (g & E & Lg & V). destruct W as (Ea & El & E2 & _).
  exists g. split; [exact E|]. split; [exact Lg|]. intros o i k Ho Hi Hk. rewrite (V o i k Ho Hi Hk).
  apply (slope_line (position radius c) (length c) E2 M _ (A o k) (B o k)); [lia| |apply resolved_close; exact Hres].
  intros j Hj. apply HF; [exact Ho|lia|exact Hk].
Qed.
(** The two wrappers differentiate per unit of pressure and per metre of meridional
    distance. *)
Theorem C49_wrappers : forall field c axis ax radius A B,
  (well_formed field c axis ax None -> resolved None c ->
   (forall o i k, (o < outer (shape field) ax)%nat -> (i < len (shape field) ax)%nat -> (k < inner (shape field) ax)%nat ->
      entry (shape field) ax (data field) o i k = line (A o k) (B o k) (nth i c q0)) ->
   gradient_of field ax (calculate_vertical_gradient nd field (vec c) axis) (fun o i k => A o k)) /\
  (well_formed field c axis ax (Some radius) -> resolved (Some radius) c ->
   (forall o i k, (o < outer (shape field) ax)%nat -> (i < len (shape field) ax)%nat -> (k < inner (shape field) ax)%nat ->
      entry (shape field) ax (data field) o i k = line (A o k) (B o k) (nth i c q0 * np_pi / qz 180 * radius)) ->
   gradient_of field ax (calculate_meridional_gradient nd field (vec c) axis radius) (fun o i k => A o k)).
Proof. intros. split; intros W Hres HF; eapply C49_linear_exact; eauto. Qed.
(** In the interior exact on parabolas as well: second order. *)
Theorem C49_quadratic_exact : forall field c axis ax radius A B C, well_formed field c axis ax radius -> resolved radius c ->
  (forall o i k, (o < outer (shape field) ax)%nat -> (i < len (shape field) ax)%nat -> (k < inner (shape field) ax)%nat ->
     entry (shape field) ax (data field) o i k = parabola (A o k) (B o k) (C o k) (position radius c i)) ->
  exists g, gradient field (vec c) axis radius = Some {| shape := shape field; data := g |} /\
    forall o i k, (o < outer (shape field) ax)%nat -> (0 < i < len (shape field) ax - 1)%nat -> (k < inner (shape field) ax)%nat ->
      entry (shape field) ax g o i k = parabola' (A o k) (B o k) (position radius c i).
Proof.
  intros field c axis ax radius A B C W Hres HF. pose proof (positions_monotonic _ _ _ _ _ W) as M.
  destruct (gradient_slopes field c axis ax radius W) as (g & E & Lg & V). destruct W as (Ea & El & E2 & _).
  exists g. split; [exact E|]. intros o i k Ho Hi Hk. rewrite (V o i k Ho ltac:(lia) Hk).
  apply (slope_parabola (position radius c) (length c) E2 M _ (A o k) (B o k) (C o k)); [lia|lia| |apply resolved_close; exact Hres].
  intros j Hj. apply HF; [exact Ho|lia|exact Hk].
Qed.
(** On any strictly monotonic coordinate, also one that is almost evenly spaced:
    the error on a linear field is at most (atol/|h| + rtol)*|slope|, where h is
    the first spacing. *)
Theorem C49_linear_error : forall field c axis ax radius A B, well_formed field c axis ax radius ->
  (forall o i k, (o < outer (shape field) ax)%nat -> (i < len (shape field) ax)%nat -> (k < inner (shape field) ax)%nat ->
     entry (shape field) ax (data field) o i k = line (A o k) (B o k) (position radius c i)) ->
  let h := mag (position radius c 1 - position radius c 0) in
  exists g, gradient field (vec c) axis radius = Some {| shape := shape field; data := g |} /\
    forall o i k, (o < outer (shape field) ax)%nat -> (i < len (shape field) ax)%nat -> (k < inner (shape field) ax)%nat ->
      mag (entry (shape field) ax g o i k - A o k) * h <= mag (A o k) * (atol + rtol * h).
Proof.
  intros field c axis ax radius A B W HF h. pose proof (positions_monotonic _ _ _ _ _ W) as M.
  destruct (gradient_slopes field c axis ax radius W) as (g & E & Lg & V). destruct W as (Ea & El & E2 & _).
  exists g. split; [exact E|]. intros o i k Ho Hi Hk. rewrite (V o i k Ho Hi Hk).
  assert (HF' : forall j, (j < length c)%nat -> entry (shape field) ax (data field) o j k = line (A o k) (B o k) (position radius c j))
    by (intros j Hj; apply HF; [exact Ho|lia|exact Hk]).
  destruct (close (distances radius c)) eqn:Ec.
  - apply (slope_close (position radius c) (length c) E2 M _ (A o k) (B o k)); [lia|exact HF'|].
    intros j Hj. pose proof (allclose_spec (distances radius c) j Ec ltac:(rewrite distances_length; exact Hj)) as T.
    rewrite !position_eq in T. exact T.
  - rewrite (slope_line (position radius c) (length c) E2 M _ (A o k) (B o k)); [|lia|exact HF'|discriminate].
    replace (A o k - A o k) with 0 by ring. rewrite (mag_pos 0) by apply Qcle_refl.
    pose proof (tol_pos (position radius c 1 - position radius c 0)) as P. fold h in P. pose proof (mag_nonneg (A o k)) as Q.
    generalize dependent (mag (A o k)). generalize dependent (atol + rtol * h). generalize h. intros. qcnra.
Qed.
(** Linear in the field. *)
Theorem C49_linear_in_field : forall f1 f2 f3 c axis ax radius x y, shape f2 = shape f1 -> shape f3 = shape f1 ->
  well_formed f1 c axis ax radius ->
  (forall p, (p < outer (shape f1) ax * len (shape f1) ax * inner (shape f1) ax)%nat ->
     nth p (data f3) q0 = x * nth p (data f1) q0 + y * nth p (data f2) q0) ->
  exists g1 g2 g3, gradient f1 (vec c) axis radius = Some {| shape := shape f1; data := g1 |} /\
    gradient f2 (vec c) axis radius = Some {| shape := shape f1; data := g2 |} /\
    gradient f3 (vec c) axis radius = Some {| shape := shape f1; data := g3 |} /\
    forall o i k, (o < outer (shape f1) ax)%nat -> (i < len (shape f1) ax)%nat -> (k < inner (shape f1) ax)%nat ->
      entry (shape f1) ax g3 o i k = x * entry (shape f1) ax g1 o i k + y * entry (shape f1) ax g2 o i k.
Proof.
  intros f1 f2 f3 c axis ax radius x y S2 S3 W1 HF.
  assert (W2 : well_formed f2 c axis ax radius) by (unfold well_formed in *; rewrite S2; exact W1).
  assert (W3 : well_formed f3 c axis ax radius) by (unfold well_formed in *; rewrite S3; exact W1).
  destruct (gradient_slopes f1 c axis ax radius W1) as (g1 & E1 & _ & V1).
  destruct (gradient_slopes f2 c axis ax radius W2) as (g2 & E2 & _ & V2).
  destruct (gradient_slopes f3 c axis ax radius W3) as (g3 & E3 & _ & V3).
  exists g1, g2, g3. rewrite S2 in *. rewrite S3 in *. split; [exact E1|]. split; [exact E2|]. split; [exact E3|].
  intros o i k Ho Hi Hk. rewrite V1, V2, V3 by assumption. rewrite <- slope_combo. destruct W1 as (_ & El & L2 & _).
  apply slope_ext; [|exact L2|lia]. intros j Hj. unfold entry. apply HF. apply pos_bound; [exact Ho|lia|exact Hk].
Qed.
(** The gradient of a field that does not vary along the axis is zero. *)
Theorem C49_constants : forall field c axis ax radius B, well_formed field c axis ax radius ->
  (forall o i k, (o < outer (shape field) ax)%nat -> (i < len (shape field) ax)%nat -> (k < inner (shape field) ax)%nat ->
     entry (shape field) ax (data field) o i k = B o k) ->
  gradient_of field ax (gradient field (vec c) axis radius) (fun _ _ _ => 0).
Proof.
  intros field c axis ax radius B W HF. pose proof (positions_monotonic _ _ _ _ _ W) as M.
  destruct (C49_linear_error field c axis ax radius (fun _ _ => 0) B W) as (g & E & V).
  { intros o i k Ho Hi Hk. rewrite HF by assumption. unfold line. ring. }
  destruct (gradient_slopes field c axis ax radius W) as (g' & E' & Lg & _). rewrite E in E'. injection E' as <-.
  exists g. split; [exact E|]. split; [exact Lg|]. intros o i k Ho Hi Hk. specialize (V o i k Ho Hi Hk). cbv beta in V.
  destruct W as (_ & _ & L2 & _). pose proof (step_nz _ _ M 0 ltac:(lia)) as Nz.
  set (h := mag (position radius c 1 - position radius c 0)) in *.
  assert (Hh : 0 < h).
  { pose proof (mag_nonneg (position radius c 1 - position radius c 0)) as P. fold h in P.
    destruct (Qcle_lt_or_eq _ _ P) as [L|L]; [exact L|]. exfalso. apply Nz. apply mag_0. symmetry. exact L. }
  change (mag 0) with 0 in V. replace (entry (shape field) ax g o i k - 0) with (entry (shape field) ax g o i k) in V by ring.
  apply mag_0. pose proof (mag_nonneg (entry (shape field) ax g o i k)) as P.
  generalize dependent (mag (entry (shape field) ax g o i k)). intros m V P. generalize dependent (atol + rtol * h). intros t V.
  assert (m * h <= 0) by (replace (0 * t) with 0 in V by ring; exact V). clear V. clearbody h. qcnra.
Qed.
(** Fewer than two points: zeros; wrong number of coordinates or no such axis: an
    exception. *)
Theorem C49_degenerate : forall field c axis radius,
  match axis_of (length (shape field)) axis with
  | None => gradient field (vec c) axis radius = None
  | Some ax =>
    (length c <> len (shape field) ax -> gradient field (vec c) axis radius = None) /\
    (length c = len (shape field) ax -> (length c < 2)%nat ->
     gradient field (vec c) axis radius = Some {| shape := shape field; data := repeat 0 (length (data field)) |})
  end.
Proof.
  intros field c axis radius. unfold calculate_gradient. destruct (axis_of (length (shape field)) axis) as [ax|]; [|reflexivity].
  cbn [vec data shape]. split.
  - intro H. destruct (Nat.eqb_spec (length c) (len (shape field) ax)); [contradiction|reflexivity].
  - intros H L. rewrite H, Nat.eqb_refl. cbn [negb]. destruct (Nat.ltb_spec (len (shape field) ax) 2); [reflexivity|lia].
Qed.

Lemma fold_none {X Y : Type} (f : option X -> Y -> option X) l : (forall y, f None y = None) -> fold_left f l None = None.
Proof. intro H. induction l as [|y l IH]; [reflexivity|]. cbn [fold_left]. rewrite H. exact IH. Qed.

(** *** calculate_zonal_gradient *)
Variables cos cast : Qc -> Qc.
Notation zonal := (calculate_zonal_gradient nd cos cast).

(** Default axes, three or four dimensions, at least two latitudes: always an
    exception, although the documentation gives these as the supported layouts. *)
Theorem C49_zonal_default_axes_raise : forall field longitudes latitudes radius,
  (length (shape field) = 3 \/ length (shape field) = 4)%nat ->
  len (shape field) (length (shape field) - 1) = length longitudes -> (1 <= length longitudes)%nat ->
  (2 <= length latitudes)%nat ->
  zonal field longitudes latitudes (-1) (-2) radius = None.
Proof.
  intros field longitudes latitudes radius Hd Hl H1 H2. unfold calculate_zonal_gradient.
  assert (E : ((length (shape field) =? 4)%nat || (length (shape field) =? 3)%nat = true)%bool) by (destruct Hd as [-> | ->]; reflexivity).
  rewrite E. cbn [andb Z.eqb Pos.eqb]. unfold calculate_gradient.
  assert (Ea : axis_of (length (shape field)) (-1) = Some (length (shape field) - 1)%nat) by (destruct Hd as [-> | ->]; reflexivity).
  rewrite Ea, Hl. cbn [data].
  assert (L : length (flat_map (fun c => map (fun l => radians l * radius * c) longitudes) (map (fun p => cos (radians p)) latitudes))
              = (length latitudes * length longitudes)%nat).
  { clear. induction latitudes as [|p l IH]; [reflexivity|]. cbn [map flat_map length]. rewrite app_length, map_length, IH. reflexivity. }
  rewrite L. destruct (Nat.eqb_spec (length latitudes * length longitudes) (length longitudes)); [nia|reflexivity].
Qed.
(** Positive axis numbers with latitude before longitude: always an exception. *)
Theorem C49_zonal_positive_axes_raise : forall nlat nlon d longitudes latitudes radius, (1 <= length latitudes)%nat ->
  zonal {| shape := [nlat; nlon]; data := d |} longitudes latitudes 1 0 radius = None.
Proof.
  intros nlat nlon d longitudes latitudes radius H. unfold calculate_zonal_gradient. cbn [shape length Nat.eqb orb andb].
  change (axis_of 2 0) with (Some 0%nat). cbv iota beta zeta.
  destruct latitudes as [|p l]; [cbn in H; lia|]. cbn [length seq fold_left].
  match goal with |- option_map _ (fold_left ?f ?m ?x) = None => replace x with (@None (list Qc)); [rewrite fold_none; reflexivity|] end.
  symmetry. unfold take. cbn [shape]. destruct (0 <? len [nlat; nlon] 0)%nat; [|reflexivity]. reflexivity.
Qed.
End Props.

(** ** The two-dimensional zonal gradient
    On a latitude-longitude field that is linear in longitude the result is the
    true slope per metre times 180/pi: the conversion to radians is applied twice. *)
Section Zonal2.
Variable nd : array -> array -> Z -> option array.
Variable cos : Qc -> Qc.
Notation zonal := (calculate_zonal_gradient nd cos (fun x => x)).
Variables (nlat nlon : nat) (d longitudes latitudes : list Qc) (radius : Qc).
Let field := {| shape := [nlat; nlon]; data := d |}.
Hypotheses (Hd : length d = (nlat * nlon)%nat) (Hlat : length latitudes = nlat) (Hlon : length longitudes = nlon) (H2 : (2 <= nlon)%nat).
Hypothesis M : strictly_monotonic (fun i => nth i longitudes q0) nlon.
Hypothesis Hr : 0 < radius.
Hypothesis Hc : forall p, In p latitudes -> 0 < cos (radians p).
(** metres per degree of longitude at latitude [i] *)
Let per_deg i := np_pi / qz 180 * radius * cos (radians (nth i latitudes q0)).
Let pos i j := nth j longitudes q0 * (np_pi / qz 180) * per_deg i.

Let row i := slab [nlat; nlon] 0 d i.
Lemma shape2 : (outer [nlat; nlon] 0 = 1 /\ len [nlat; nlon] 0 = nlat /\ inner [nlat; nlon] 0 = nlon)%nat.
Proof. unfold outer, len, inner, prod. cbn. lia. Qed.
Lemma row_nth i j : (j < nlon)%nat -> nth j (row i) q0 = nth (i * nlon + j) d q0.
Proof.
  intro Hj. destruct shape2 as (O & L & I). unfold row. pose proof (nth_slab [nlat; nlon] 0 d i 0 j) as E.
  rewrite O, I in E. cbn [Nat.mul Nat.add] in E. rewrite E by lia. unfold entry. rewrite L, I. f_equal.
Qed.
Let dist i := map (fun l => l * nth i (map (fun p => cos (radians p)) latitudes) q0) (map (fun l => radians l * radius) longitudes).
Lemma dist_len i : length (dist i) = nlon. Proof. unfold dist. rewrite !map_length. exact Hlon. Qed.
Lemma coslat i : (i < nlat)%nat -> nth i (map (fun p => cos (radians p)) latitudes) q0 = cos (radians (nth i latitudes q0)).
Proof.
  intro Hi. rewrite (nth_indep _ q0 (cos (radians q0))) by (rewrite map_length; lia).
  apply (map_nth (fun p => cos (radians p))).
Qed.
Lemma dist_nth i j : (i < nlat)%nat -> nth j (dist i) q0 = nth j longitudes q0 * per_deg i.
Proof.
  intro Hi. unfold dist. rewrite map_map. rewrite coslat by exact Hi.
  set (f := fun l => radians l * radius * cos (radians (nth i latitudes q0))).
  transitivity (nth j (map f longitudes) (f q0)); [f_equal; unfold f, radians, q0, Qcdiv; ring|].
  rewrite (map_nth f). unfold f, per_deg, radians, Qcdiv. ring.
Qed.
Lemma coslat_pos i : (i < nlat)%nat -> 0 < cos (radians (nth i latitudes q0)).
Proof. intro Hi. apply Hc. apply nth_In. lia. Qed.
Lemma per_deg_pos i : (i < nlat)%nat -> 0 < per_deg i.
Proof.
  intro Hi. unfold per_deg. pose proof (coslat_pos i Hi) as C. apply Qcmul_pos; [apply Qcmul_pos; [reflexivity|exact Hr]|exact C].
Qed.
Lemma dist_mono i : (i < nlat)%nat -> strictly_monotonic (fun j => nth j (dist i) q0) nlon.
Proof.
  intro Hi. apply (mono_ext (fun j => nth j longitudes q0 * per_deg i)); [intros; symmetry; apply dist_nth; exact Hi|].
  apply (scale_mono (fun j => nth j longitudes q0)); [apply per_deg_pos; exact Hi|exact M].
Qed.
Lemma dist_even i : (i < nlat)%nat -> evenly_spaced (fun j => nth j longitudes q0) nlon -> evenly_spaced (position (Some 1) (dist i)) nlon.
Proof.
  intros Hi E. apply (even_ext (fun j => nth j longitudes q0 * (per_deg i * (np_pi / qz 180)))); [exact H2| |].
  - intros j Hj. cbn [position]. rewrite dist_nth by exact Hi. unfold Qcdiv. ring.
  - apply (scale_even (fun j => nth j longitudes q0)). exact E.
Qed.

Theorem C49_zonal_factor : forall A B, evenly_spaced (fun j => nth j longitudes q0) nlon ->
  (forall i j, (i < nlat)%nat -> (j < nlon)%nat ->
     nth (i * nlon + j) d q0 = line (A i) (B i) (nth j longitudes q0 * per_deg i)) ->
  exists g, zonal field longitudes latitudes (-1) (-2) radius = Some {| shape := [nlat; nlon]; data := g |} /\
    forall i j, (i < nlat)%nat -> (j < nlon)%nat -> nth (i * nlon + j) g q0 = A i * (qz 180 / np_pi).
Proof.
  intros A B Ev HF.
  assert (G : forall i, (i < nlat)%nat -> exists g, calculate_gradient nd {| shape := [nlon]; data := row i |} (vec (dist i)) (-1) (Some 1)
      = Some {| shape := [nlon]; data := g |} /\ forall j, (j < nlon)%nat -> nth j g q0 = A i * (qz 180 / np_pi)).
  { intros i Hi.
    assert (W : well_formed {| shape := [nlon]; data := row i |} (dist i) (-1) 0 (Some 1)).
    { split; [reflexivity|]. rewrite dist_len. split; [reflexivity|]. split; [exact H2|]. split; [apply dist_mono; exact Hi|].
      intros r E. injection E as <-. reflexivity. }
    assert (Res : resolved (Some 1) (dist i)) by (left; rewrite dist_len; apply dist_even; assumption).
    destruct (C49_linear_exact nd {| shape := [nlon]; data := row i |} (dist i) (-1) 0 (Some 1)
        (fun _ _ => A i * (qz 180 / np_pi)) (fun _ _ => B i) W Res) as (g & E & Lg & V).
    - cbn [shape data]. unfold outer, len, inner, prod. cbn [firstn skipn fold_left nth]. intros o j k Ho Hj Hk.
      unfold entry, len, inner, prod. cbn [nth skipn fold_left].
      replace ((o * nlon + j) * 1 + k)%nat with j by nia. rewrite row_nth by exact Hj. rewrite HF by assumption.
      unfold line. cbn [position]. rewrite dist_nth by exact Hi. field. split; discriminate.
    - exists g. split; [exact E|]. intros j Hj. specialize (V 0%nat j 0%nat). cbn [shape] in V.
      unfold entry, outer, len, inner, prod in V. cbn [nth skipn firstn fold_left] in V.
      replace ((0 * nlon + j) * 1 + 0)%nat with j in V by lia. apply V; lia. }
  unfold calculate_zonal_gradient. cbn [field shape length Nat.eqb orb andb].
  change (axis_of 2 (-2)) with (Some 0%nat). cbv iota beta zeta. cbn [data].
  rewrite Hlat, Hlon.
  match goal with |- exists g, option_map _ (fold_left ?f _ _) = _ /\ _ => set (step := f) end.
  assert (K : forall m, (m <= nlat)%nat -> exists g, fold_left step (seq 0 m) (Some (repeat q0 (length d))) = Some g /\
     forall i j, (i < m)%nat -> (j < nlon)%nat -> nth (i * nlon + j) g q0 = A i * (qz 180 / np_pi)).
  { destruct shape2 as (O & L & I).
    induction m as [|m IH]; intro Hm; [exists (repeat q0 (length d)); split; [reflexivity|intros; lia]|].
    destruct (IH ltac:(lia)) as (g & E & V). destruct (G m ltac:(lia)) as (gm & Em & Vm).
    rewrite seq_S, fold_left_app, E. cbn [fold_left Nat.add]. unfold step at 1.
    unfold take. change (len (shape field) 0) with nlat. destruct (Nat.ltb_spec m nlat); [|lia].
    cbn [firstn skipn app data shape field]. change (slab [nlat; nlon] 0 d m) with (row m).
    assert (Ev' : {| shape := [nlon]; data := map (fun l => l * nth m (map (fun p => cos (radians p)) latitudes) q0)
         (map (fun l => radians l * radius) longitudes) |} = vec (dist m)) by (unfold vec; rewrite dist_len; reflexivity).
    rewrite Ev', Em. cbn [data]. rewrite map_id. eexists. split; [reflexivity|].
    intros i j Hi Hj. pose proof (entry_set [nlat; nlon] 0 g m gm 0 i j) as S. rewrite O, L, I in S.
    specialize (S ltac:(lia) ltac:(lia) Hj). unfold entry in S. rewrite L, I in S. cbn [Nat.mul Nat.add] in S. rewrite S.
    destruct (Nat.eqb_spec i m) as [->|Ne]; [apply Vm; exact Hj|]. apply V; [lia|exact Hj]. }
  destruct (K nlat (Nat.le_refl _)) as (g & E & V). exists g. split; [|exact V].
  change (option_map (fun e => {| shape := [nlat; nlon]; data := e |}) (fold_left step (seq 0 nlat) (Some (repeat q0 (length d)))) = Some {| shape := [nlat; nlon]; data := g |}).
  rewrite E. reflexivity.
Qed.
End Zonal2.

(** ** Examples *)
Definition ql (l : list Z) : list Qc := map qz l.
Definition nd0 (_ _ : array) (_ : Z) : option array := None.
Definition show (r : option array) : option (list Q) := option_map (fun a => map this (data a)) r.
(** Unevenly spaced coordinates 0, 1, 3, 7 along the first axis of a 4 x 2 array;
    the columns are 2x+1 and x^2. *)
Example C49_example :
  well_formed {| shape := [4; 2]%nat; data := ql [1; 0; 3; 1; 7; 9; 15; 49]%Z |} (ql [0; 1; 3; 7]%Z) (-2) 0 None /\
  resolved None (ql [0; 1; 3; 7]%Z) /\
  show (calculate_gradient nd0 {| shape := [4; 2]%nat; data := ql [1; 0; 3; 1; 7; 9; 15; 49]%Z |} (vec (ql [0; 1; 3; 7]%Z)) (-2) None)
  = Some [2; 1; 2; 2; 2; 6; 2; 10]%Q.
Proof.
  split; [|split].
  - split; [reflexivity|]. split; [reflexivity|]. split; [cbn; lia|]. split; [|discriminate].
    left. intros [|[|[|i]]] Hi; cbn in Hi; try lia; reflexivity.
  - right. exists 1%nat. split; [cbn; lia|reflexivity].
  - vm_compute. reflexivity.
Qed.
Example C49_example_even : resolved (Some (qz 6371000)) (ql [90; 60; 30; 0]%Z).
Proof. left. intros [|[|[|i]]] Hi; cbn in Hi; try lia; apply Qc_is_canon; reflexivity. Qed.

(** Exactness fails for coordinates that are almost evenly spaced ... *)
Theorem C49_any_monotonic_refuted : exists f c, well_formed f c (-1) 0 None /\
  (forall i, (i < 3)%nat -> nth i (data f) q0 = line 1 0 (nth i c q0)) /\
  show (calculate_gradient nd0 f (vec c) (-1) None) <> Some [1; 1; 1]%Q.
Proof.
  exists {| shape := (3 :: nil)%nat; data := [qz 0; qz 1; Q2Qc (2000001 # 1000000)] |}, [qz 0; qz 1; Q2Qc (2000001 # 1000000)].
  split; [|split].
  - split; [reflexivity|]. split; [reflexivity|]. split; [cbn; lia|]. split; [|discriminate].
    left. intros [|[|i]] Hi; cbn in Hi; try lia; reflexivity.
  - intros i Hi. unfold line. cbn [data]. ring.
  - vm_compute. discriminate.
Qed.
(** ... and badly when the spacings are of the size of the absolute tolerance:
    at the coordinates 0, 1e-9, 5e-9 the slope 1 comes out as 1, 5/2, 4. *)
Theorem C49_small_units_refuted : exists f c, well_formed f c (-1) 0 None /\
  (forall i, (i < 3)%nat -> nth i (data f) q0 = line 1 0 (nth i c q0)) /\
  show (calculate_gradient nd0 f (vec c) (-1) None) = Some [1; 5 # 2; 4]%Q.
Proof.
  exists {| shape := (3 :: nil)%nat; data := [qz 0; Q2Qc (1 # 1000000000); Q2Qc (5 # 1000000000)] |},
         [qz 0; Q2Qc (1 # 1000000000); Q2Qc (5 # 1000000000)].
  split; [|split].
  - split; [reflexivity|]. split; [reflexivity|]. split; [cbn; lia|]. split; [|discriminate].
    left. intros [|[|i]] Hi; cbn in Hi; try lia; reflexivity.
  - intros i Hi. unfold line. cbn [data]. ring.
  - vm_compute. reflexivity.
Qed.
(** The zonal gradient of an integer field is truncated to integers (the result
    array takes the data type of the field): here 0 instead of a positive slope. *)
Definition trunc (x : Qc) : Qc := qz (Z.quot (Qnum x) (Z.pos (Qden x))).
Theorem C49_zonal_integer_field_refuted : exists field lons lats radius,
  show (calculate_zonal_gradient nd0 (fun _ => 1) (fun x => x) field lons lats (-1) (-2) radius) <> Some [0; 0; 0]%Q /\
  show (calculate_zonal_gradient nd0 (fun _ => 1) trunc field lons lats (-1) (-2) radius) = Some [0; 0; 0]%Q.
Proof.
  exists {| shape := [1; 3]%nat; data := ql [0; 1; 2]%Z |}, (ql [0; 1; 2]%Z), (ql (0 :: nil)%Z), (qz 6371000).
  split; vm_compute; [discriminate|reflexivity].
Qed.
Example C49_zonal_example :
  strictly_monotonic (fun i => nth i (ql [0; 1; 2]%Z) q0) 3 /\ evenly_spaced (fun i => nth i (ql [0; 1; 2]%Z) q0) 3 /\
  (forall p, In p (ql (0 :: nil)%Z) -> 0 < (fun _ : Qc => 1) (radians p)).
Proof.
  split; [left; intros [|[|i]] Hi; cbn in Hi; try lia; reflexivity|].
  split; [intros [|[|i]] Hi; cbn in Hi; try lia; apply Qc_is_canon; reflexivity|reflexivity].
Qed.

Print Assumptions C49_linear_exact.
Print Assumptions C49_wrappers.
Print Assumptions C49_quadratic_exact.
Print Assumptions C49_linear_error.
Print Assumptions C49_linear_in_field.
Print Assumptions C49_constants.
Print Assumptions C49_degenerate.
Print Assumptions C49_zonal_default_axes_raise.
Print Assumptions C49_zonal_positive_axes_raise.
Print Assumptions C49_zonal_factor.
Print Assumptions C49_any_monotonic_refuted.
Print Assumptions C49_small_units_refuted.
Print Assumptions C49_zonal_integer_field_refuted.
