(** Geostrophic wind: the property theorems (C42, C43), examples and refutations. *)
From Coq Require Import QArith Qcanon.
From Verif Require Import Base Loops NdArray AX_Model AX_Spec AX_Props VH_Model TP_Model GW_Model GW_Spec GW_Proofs GW_Proofs2 GW_Proofs3.
Local Close Scope Qc_scope.
Local Open Scope nat_scope.

(** ** C43: missing values *)
(** In any arithmetic: where the latitude is excluded or a height of the stencil
    is missing, the component is the missing value.  Either storage order. *)
Theorem geostrophic_missing_in_missing_out :
  forall (A : fl) sn cs pi J z nlat mlon (zmsg : A) glon glat iopt nl ml,
  2 <= nlat -> 2 <= mlon -> 1 <= nl <= nlat -> 1 <= ml <= mlon -> feqb A zmsg zmsg = true ->
  let c := (iopt =? 1)%Z in
  let w := z2geouv A sn cs pi J z nlat mlon zmsg glon glat iopt nl ml in
  (lat_ok A (glat nl) = false -> w = (zmsg, zmsg)) /\
  (feqb A (z (north nlat nl) ml) zmsg = true \/ feqb A (z (south nl) ml) zmsg = true -> fst w = zmsg) /\
  (feqb A (z nl (east c mlon ml)) zmsg = true \/ feqb A (z nl (west c mlon ml)) zmsg = true -> snd w = zmsg).
Proof.
  intros A sn cs pi J z nlat mlon zmsg glon glat iopt nl ml Hn Hm Hl Hc R c w. split; [|split].
  - intros H. rewrite (surjective_pairing w). f_equal; [apply u_missing|apply v_missing]; auto.
  - intros H. apply u_missing; auto.
  - intros H. apply v_missing; auto.
Qed.
Print Assumptions geostrophic_missing_in_missing_out.

(** A grid smaller than 2 by 2 gives missing values everywhere. *)
Theorem geostrophic_small_grid :
  forall (A : fl) sn cs pi J z nlat mlon (zmsg : A) glon glat iopt nl ml,
  nlat < 2 \/ mlon < 2 -> z2geouv A sn cs pi J z nlat mlon zmsg glon glat iopt nl ml = (zmsg, zmsg).
Proof.
  intros A sn cs pi J z nlat mlon zmsg glon glat iopt nl ml H. unfold z2geouv.
  destruct (Nat.ltb_spec nlat 2), (Nat.ltb_spec mlon 2); cbn [orb]; auto; lia.
Qed.
Print Assumptions geostrophic_small_grid.

(** Each component depends on its two stencil heights only: no other point
    (missing or not) and no uninitialised memory matters. *)
Theorem geostrophic_is_local :
  forall (A : fl) sn cs pi J J' z z' nlat mlon (zmsg : A) glon glat iopt nl ml,
  2 <= nlat -> 2 <= mlon -> 1 <= nl <= nlat -> 1 <= ml <= mlon ->
  let c := (iopt =? 1)%Z in
  (z (north nlat nl) ml = z' (north nlat nl) ml -> z (south nl) ml = z' (south nl) ml ->
   fst (z2geouv A sn cs pi J z nlat mlon zmsg glon glat iopt nl ml) =
   fst (z2geouv A sn cs pi J' z' nlat mlon zmsg glon glat iopt nl ml)) /\
  (z nl (east c mlon ml) = z' nl (east c mlon ml) -> z nl (west c mlon ml) = z' nl (west c mlon ml) ->
   snd (z2geouv A sn cs pi J z nlat mlon zmsg glon glat iopt nl ml) =
   snd (z2geouv A sn cs pi J' z' nlat mlon zmsg glon glat iopt nl ml)).
Proof. intros. split; intros; [apply u_local|apply v_local]; auto. Qed.
Print Assumptions geostrophic_is_local.

(** In exact arithmetic the components are the difference formulas of GW_Spec,
    for latitudes stored in either order; at an edge column of a grid that does
    not wrap, vg is lost when half of it equals the missing value. *)
Theorem geostrophic_values :
  forall lg ex (sn cs : Qc -> Qc) (pi : Qc) J (z : nat -> nat -> Qc) nlat mlon (zmsg : Qc) (glon glat : nat -> Qc) iopt nl ml,
  2 <= nlat -> 2 <= mlon -> 1 <= nl <= nlat -> 1 <= ml <= mlon ->
  let c := (iopt =? 1)%Z in
  let w := z2geouv (QF lg ex) sn cs pi J z nlat mlon zmsg glon glat iopt nl ml in
  let v := v_exact sn cs pi z mlon c (glon 2%nat - glon 1%nat)%Qc glat nl ml in
  mid_latitude (glat nl) ->
  (z (north nlat nl) ml <> zmsg -> z (south nl) ml <> zmsg -> fst w = u_exact sn pi z nlat glat nl ml) /\
  (z nl (east c mlon ml) <> zmsg -> z nl (west c mlon ml) <> zmsg ->
   (edge c mlon ml = false \/ v <> ((1 + 1) * zmsg)%Qc -> snd w = v) /\
   (edge c mlon ml = true /\ v = ((1 + 1) * zmsg)%Qc -> snd w = zmsg)).
Proof.
  intros lg ex sn cs pi J z nlat mlon zmsg glon glat iopt nl ml Hn Hm Hl Hc c w v M. split.
  - intros N S. apply u_value; auto.
  - intros N S. pose proof (v_value lg ex sn cs pi J z nlat mlon zmsg glon glat iopt nl ml Hn Hm Hl Hc M N S) as E.
    cbv zeta in E. fold c in E. fold v in E. fold w in E. rewrite E.
    assert (HV : ((v / (1 + 1))%Qc = zmsg <-> v = ((1 + 1) * zmsg)%Qc)).
    { split; intros X; [rewrite <- X|rewrite X]; field; discriminate. }
    destruct (edge c mlon ml), (Qceqb_spec (v / (1 + 1))%Qc zmsg) as [X|X]; cbn [andb]; split; auto.
    + intros [Y|Y]; [discriminate|]. exfalso. tauto.
    + intros [_ Y]. exfalso. tauto.
    + intros [Y _]. discriminate.
    + intros [Y _]. discriminate.
Qed.
Print Assumptions geostrophic_values.

(** The missing rule as an equivalence, when no computed value collides with the
    missing value. *)
Theorem geostrophic_missing_iff :
  forall lg ex (sn cs : Qc -> Qc) (pi : Qc) J (z : nat -> nat -> Qc) nlat mlon (zmsg : Qc) (glon glat : nat -> Qc) iopt nl ml,
  2 <= nlat -> 2 <= mlon -> 1 <= nl <= nlat -> 1 <= ml <= mlon ->
  let c := (iopt =? 1)%Z in
  let w := z2geouv (QF lg ex) sn cs pi J z nlat mlon zmsg glon glat iopt nl ml in
  let v := v_exact sn cs pi z mlon c (glon 2%nat - glon 1%nat)%Qc glat nl ml in
  (u_exact sn pi z nlat glat nl ml <> zmsg ->
   (fst w = zmsg <-> ~ mid_latitude (glat nl) \/ z (north nlat nl) ml = zmsg \/ z (south nl) ml = zmsg)) /\
  (v <> zmsg -> v <> ((1 + 1) * zmsg)%Qc ->
   (snd w = zmsg <-> ~ mid_latitude (glat nl) \/ z nl (east c mlon ml) = zmsg \/ z nl (west c mlon ml) = zmsg)).
Proof.
  intros lg ex sn cs pi J z nlat mlon zmsg glon glat iopt nl ml Hn Hm Hl Hc c w v.
  assert (D : {mid_latitude (glat nl)} + {~ mid_latitude (glat nl)}).
  { destruct (lat_ok (QF lg ex) (glat nl)) eqn:E; [left|right; intros X; apply (lat_ok_spec lg ex) in X; congruence].
    apply (lat_ok_spec lg ex). auto. }
  assert (R : feqb (QF lg ex) zmsg zmsg = true) by (cbn [feqb QF F]; destruct (Qceqb_spec zmsg zmsg); congruence).
  assert (EQ : forall a : Qc, a = zmsg -> feqb (QF lg ex) a zmsg = true) by (intros a ->; exact R).
  assert (NM : ~ mid_latitude (glat nl) -> lat_ok (QF lg ex) (glat nl) = false).
  { intros N. destruct (lat_ok (QF lg ex) (glat nl)) eqn:E; auto. exfalso. apply N. apply (lat_ok_spec lg ex). auto. }
  split.
  - intros NU. split.
    + intros E. destruct D as [M|M]; auto. right.
      destruct (Qceqb_spec (z (north nlat nl) ml) zmsg) as [?|N1]; auto.
      destruct (Qceqb_spec (z (south nl) ml) zmsg) as [?|N2]; auto.
      exfalso. apply NU. rewrite <- E. symmetry. apply u_value; auto.
    + intros [M|[E|E]]; apply u_missing; auto.
  - intros NV NV2. split.
    + intros E. destruct D as [M|M]; auto. right.
      destruct (Qceqb_spec (z nl (east c mlon ml)) zmsg) as [?|N1]; auto.
      destruct (Qceqb_spec (z nl (west c mlon ml)) zmsg) as [?|N2]; auto.
      exfalso. apply NV. rewrite <- E. symmetry.
      apply (geostrophic_values lg ex sn cs pi J z nlat mlon zmsg glon glat iopt nl ml Hn Hm Hl Hc M); auto.
    + intros [M|[E|E]]; apply v_missing; auto.
Qed.
Print Assumptions geostrophic_missing_iff.

(** Adding a constant to every height that is present changes nothing. *)
Definition shifted (zmsg k : Qc) (z : nat -> nat -> Qc) (i j : nat) : Qc :=
  if Qceqb (z i j) zmsg then zmsg else (z i j + k)%Qc.
Theorem geostrophic_shift :
  forall lg ex (sn cs : Qc -> Qc) (pi : Qc) J J' (z : nat -> nat -> Qc) nlat mlon (zmsg k : Qc) (glon glat : nat -> Qc) iopt nl ml,
  2 <= nlat -> 2 <= mlon -> 1 <= nl <= nlat -> 1 <= ml <= mlon ->
  (forall i j, 1 <= i <= nlat -> 1 <= j <= mlon -> z i j <> zmsg -> (z i j + k)%Qc <> zmsg) ->
  z2geouv (QF lg ex) sn cs pi J (shifted zmsg k z) nlat mlon zmsg glon glat iopt nl ml =
  z2geouv (QF lg ex) sn cs pi J' z nlat mlon zmsg glon glat iopt nl ml.
Proof.
  intros lg ex sn cs pi J J' z nlat mlon zmsg k glon glat iopt nl ml Hn Hm Hl Hc H.
  assert (FN : forall i j, 1 <= i <= nlat -> 1 <= j <= mlon -> fne (QF lg ex) (shifted zmsg k z i j) zmsg = fne (QF lg ex) (z i j) zmsg).
  { intros i j Hi Hj. unfold fne, shifted. cbn [feqb QF F]. destruct (Qceqb_spec (z i j) zmsg) as [E|E].
    - destruct (Qceqb_spec zmsg zmsg); congruence.
    - specialize (H i j Hi Hj E). destruct (Qceqb_spec (z i j + k)%Qc zmsg); congruence. }
  assert (D : forall i j i' j', fne (QF lg ex) (z i j) zmsg = true -> fne (QF lg ex) (z i' j') zmsg = true ->
     fsub (QF lg ex) (shifted zmsg k z i j) (shifted zmsg k z i' j') = fsub (QF lg ex) (z i j) (z i' j')).
  { intros i j i' j' E1 E2. unfold fne, shifted in *. cbn [feqb fsub QF F] in *.
    destruct (Qceqb (z i j) zmsg), (Qceqb (z i' j') zmsg); try discriminate. ring. }
  pose proof (north_range nlat nl Hl). pose proof (south_range nlat nl Hl).
  pose proof (east_range (iopt =? 1)%Z mlon ml Hc). pose proof (west_range (iopt =? 1)%Z mlon ml Hc).
  rewrite !z2geouv_ok by auto. cbv zeta.
  destruct (fltb (QF lg ex) (glat 1) (glat 2));
  (match goal with |- ?a = ?b => rewrite (surjective_pairing a), (surjective_pairing b) end; f_equal;
   [rewrite !cell_fst|rewrite !cell_snd]; cbv zeta; rewrite !FN by auto;
   repeat match goal with |- context [fne (QF lg ex) (z ?a ?b) zmsg] => destruct (fne (QF lg ex) (z a b) zmsg) eqn:? end;
   rewrite ?andb_false_r; try reflexivity; rewrite !D by auto; reflexivity).
Qed.
Print Assumptions geostrophic_shift.

(** Exactness: a height field linear in latitude gives the exact ug on any
    latitudes, evenly spaced or not, boundary rows included; a field linear in
    longitude gives the exact vg on evenly spaced longitudes. *)
Theorem geostrophic_exact_on_linear :
  forall lg ex (sn cs : Qc -> Qc) (pi : Qc) J (z : nat -> nat -> Qc) nlat mlon (zmsg a b : Qc) (glon glat : nat -> Qc) iopt nl ml,
  2 <= nlat -> 2 <= mlon -> 1 <= nl <= nlat -> 1 <= ml <= mlon ->
  let c := (iopt =? 1)%Z in
  let w := z2geouv (QF lg ex) sn cs pi J z nlat mlon zmsg glon glat iopt nl ml in
  mid_latitude (glat nl) -> (forall i j, 1 <= i <= nlat -> 1 <= j <= mlon -> z i j <> zmsg) ->
  ((forall i j, i < j -> 1 <= i -> j <= nlat -> glat i <> glat j) ->
   (forall i, 1 <= i <= nlat -> z i ml = (a + b * glat i)%Qc) ->
   fst w = (- (g_over_f sn pi (glat nl) * (b / metres_per_degree pi)))%Qc) /\
  (forall d, d <> 0%Qc -> (forall j, 1 <= j <= mlon -> glon j = (glon 1%nat + qz (Z.of_nat (j - 1)%nat) * d)%Qc) ->
   (forall j, 1 <= j <= mlon -> z nl j = (a + b * glon j)%Qc) ->
   (c = false \/ 1 < ml < mlon) ->
   let v := (g_over_f sn pi (glat nl) * (b / (metres_per_degree pi * cs (in_radians pi (glat nl)))))%Qc in
   v <> ((1 + 1) * zmsg)%Qc -> snd w = v).
Proof.
  intros lg ex sn cs pi J z nlat mlon zmsg a b glon glat iopt nl ml Hn Hm Hl Hc c w M P.
  pose proof (north_range nlat nl Hl). pose proof (south_range nlat nl Hl).
  pose proof (east_range c mlon ml Hc). pose proof (west_range c mlon ml Hc). split.
  - intros DL ZL. unfold w. rewrite (u_value lg ex) by auto. unfold u_exact. rewrite !ZL by auto.
    assert (NE : (glat (north nlat nl) - glat (south nl))%Qc <> 0%Qc).
    { intros E. apply (DL (south nl) (north nlat nl)); try lia.
      - unfold north, south. destruct (Nat.eqb_spec nl nlat), (Nat.eqb_spec nl 1); lia.
      - rewrite <- (Qcplus_0_r (glat (south nl))), <- E. ring. }
    rewrite Qcdiv_mul. unfold Qcdiv.
    replace (a + b * glat (north nlat nl) - (a + b * glat (south nl)))%Qc with (b * (glat (north nlat nl) - glat (south nl)))%Qc by ring.
    set (D := (glat (north nlat nl) - glat (south nl))%Qc) in *.
    replace (b * D * / metres_per_degree pi * / D)%Qc with (b * / metres_per_degree pi * (D * / D))%Qc by ring.
    rewrite Qcmult_inv_r by auto. match goal with |- @eq _ ?a ?b => change (@eq Qc a b) end. ring.
  - intros d Nd GL ZL CE v NV.
    assert (E : v_exact sn cs pi z mlon c (glon 2%nat - glon 1%nat)%Qc glat nl ml = v).
    { unfold v_exact, v. rewrite !ZL by auto. rewrite (GL (east c mlon ml)), (GL (west c mlon ml)), (GL 2) by (auto; lia).
      assert (S : (qz (Z.of_nat (east c mlon ml - 1)%nat) - qz (Z.of_nat (west c mlon ml - 1)%nat))%Qc = steps c mlon ml).
      { rewrite <- qz_sub. unfold steps, edge.
        assert (Two : (1 + 1)%Qc = qz 2) by (apply Qc_is_canon; reflexivity). rewrite Two, <- qz_1.
        unfold east, west. destruct c; cbn [negb andb].
        - destruct CE as [CE|CE]; [discriminate|]. destruct (Nat.eqb_spec ml mlon), (Nat.eqb_spec ml 1); try lia. f_equal. lia.
        - destruct (Nat.eqb_spec ml 1), (Nat.eqb_spec ml mlon); cbn [orb]; try lia; f_equal; lia. }
      replace (Z.of_nat (2 - 1)) with 1%Z by lia. rewrite qz_1. f_equal.
      replace (a + b * (glon 1%nat + qz (Z.of_nat (east c mlon ml - 1)%nat) * d) - (a + b * (glon 1%nat + qz (Z.of_nat (west c mlon ml - 1)%nat) * d)))%Qc
        with (b * (qz (Z.of_nat (east c mlon ml - 1)%nat) - qz (Z.of_nat (west c mlon ml - 1)%nat)) * d)%Qc by ring.
      rewrite S. replace (glon 1%nat + 1 * d - glon 1%nat)%Qc with d by ring.
      assert (NS : steps c mlon ml <> 0%Qc) by (unfold steps; destruct (edge c mlon ml); discriminate).
      set (s := steps c mlon ml) in *. set (m := metres_per_degree pi). set (q := cs (in_radians pi (glat nl))).
      rewrite !Qcdiv_mul. unfold Qcdiv.
      replace (b * s * d * / s * (/ m * / d) * / q)%Qc with (b * / m * / q * (s * / s) * (d * / d))%Qc by ring.
      assert (X : forall p : Qc, (p * s * d * / s * / m * / d * / q)%Qc = (p * / m * / q * (s * / s) * (d * / d))%Qc) by (intros; ring).
      first [rewrite X|idtac]. rewrite !Qcmult_inv_r by auto. ring. }
    destruct (geostrophic_values lg ex sn cs pi J z nlat mlon zmsg glon glat iopt nl ml Hn Hm Hl Hc M) as [_ V].
    destruct V as [V _]; [apply P; auto|apply P; auto|]. cbv zeta in V. fold c in V. rewrite E in V. apply V. auto.
Qed.
Print Assumptions geostrophic_exact_on_linear.

(** ** C42: reversed latitudes *)
(** The Fortran routine, any arithmetic: reversing the rows of the heights and
    the latitudes reverses the rows of the result. *)
Theorem geostrophic_kernel_flip :
  forall (A : fl) sn cs pi J J' z nlat mlon (zmsg : A) glon glat iopt nl ml,
  2 <= nlat -> 2 <= mlon -> 1 <= nl <= nlat -> 1 <= ml <= mlon ->
  fltb A (glat 1) (glat 2) = true -> fltb A (glat nlat) (glat (nlat - 1)) = false ->
  z2geouv A sn cs pi J (flipped_rows nlat z) nlat mlon zmsg glon (flipped_rows nlat glat) iopt nl ml =
  flipped_rows nlat (z2geouv A sn cs pi J' z nlat mlon zmsg glon glat iopt) nl ml.
Proof. intros. unfold flipped_rows at 3. apply z2geouv_flip; auto. Qed.
Print Assumptions geostrophic_kernel_flip.

(** The Python function, any rank and axis order: every element comes from the
    slice through it; but rows stored from north to south come out from south to
    north. *)
Theorem geostrophic_wind_slicewise :
  forall (A : fl) sn cs pi r32 J out0 J' (z : nda A) glon glat o zmsg out,
  proper_order o (ndim z) -> (ndim z = 2 -> o = [ch_y; ch_x]) ->
  geostrophic_wind A sn cs pi r32 J out0 z glon glat o zmsg = Some out ->
  let x := pos ch_x o in let y := pos ch_y o in
  let iopt := if is_longitude_cyclic A glon then 1%Z else 0%Z in
  length glat = nthn (nd_shape z) y /\ length glon = nthn (nd_shape z) x /\
  nd_shape out = nd_shape z /\
  forall ix, valid ix (nd_shape z) ->
  let wind := z2geouv A sn cs pi J' (fun i j => r32 (slice x y z ix i j)) (length glat) (length glon) zmsg
                (sub1 A glon) (sub1 A glat) iopt in
  (fltb A (last glat (fc A 0 1)) (hd (fc A 0 1) glat) = false ->
   nd_elt out ix = wind (nthn ix y + 1) (nthn ix x + 1)) /\
  (fltb A (last glat (fc A 0 1)) (hd (fc A 0 1) glat) = true -> 2 <= length glat -> 2 <= length glon ->
   fltb A (sub1 A glat 1) (sub1 A glat 2) = false -> fltb A (sub1 A glat (length glat)) (sub1 A glat (length glat - 1)) = true ->
   nd_elt out ix = wind (length glat - nthn ix y) (nthn ix x + 1)).
Proof.
  intros A sn cs pi r32 J out0 J' z glon glat o zmsg out PO O2 H x y iopt.
  destruct (geostrophic_wind_ok A sn cs pi r32 J out0 J' z glon glat o zmsg out PO O2 H) as (K1 & K2 & K3 & K4).
  fold x y iopt in K1, K2, K3, K4. split; auto. split; auto. split; auto. intros ix V wind. specialize (K4 ix V). split; intros R.
  - rewrite R in K4. exact K4.
  - intros Hn Hm A1 A2. rewrite R in K4. rewrite K4.
    destruct PO as (L & ND & Ix & Iy & _).
    assert (Ly : y < length (nd_shape z)) by (change (y < ndim z); rewrite <- L; apply pos_lt; auto).
    assert (Lx : x < length (nd_shape z)) by (change (x < ndim z); rewrite <- L; apply pos_lt; auto).
    pose proof (AX_Proofs.valid_nth _ _ y V Ly) as Vy. pose proof (AX_Proofs.valid_nth _ _ x V Lx) as Vx.
    unfold wind. set (n := length glat) in *. set (f := fun i j => r32 (slice x y z ix i j)) in *. set (g := sub1 A glat) in *.
    replace (nthn ix y + 1) with (n + 1 - (n - nthn ix y)) by lia.
    rewrite <- (z2geouv_flip A sn cs pi J' J' (flipped_rows n f) n (length glon) zmsg (sub1 A glon) (flipped_rows n g) iopt
                 (n - nthn ix y) (nthn ix x + 1)); try lia.
    + apply z2geouv_ext; try lia; auto.
      * intros i j Hi Hj. unfold flipped_rows. f_equal. lia.
      * intros i Hi. unfold flipped_rows. f_equal. lia.
    + unfold flipped_rows. replace (n + 1 - 1) with n by lia. replace (n + 1 - 2) with (n - 1) by lia. auto.
    + unfold flipped_rows. replace (n + 1 - n) with 1 by lia. replace (n + 1 - (n - 1)) with 2 by lia. auto.
Qed.
Print Assumptions geostrophic_wind_slicewise.

(** ** Concrete runs: unit sine and cosine, pi = 180 (one degree = re metres) *)
Definition one (x : Qc) : Qc := 1%Qc.
Definition QA : fl := QF one one.
Definition J0 : junk QA :=
  Build_junk QA (fun _ _ => (qz 77, qz 77)) (fun _ _ => qz 77) (fun _ => Build_row QA true (qz 77) (qz 77) (qz 77))
    (fun _ => qz 77) (fun _ _ => qz 77) (fun _ => qz 77).
Definition z0 (i j : nat) : Qc := nth (j - 1) (nth (i - 1) [[qz 5; qz 7; qz (-999); qz 12]; [qz 6; qz 3; qz 8; qz 9]; [qz 1; qz 4; qz 2; qz 11]] []) 0%Qc.
Definition lat0 (i : nat) : Qc := nth (i - 1) [qz 10; qz 25; qz 30] 0%Qc.
Definition lon0 (j : nat) : Qc := nth (j - 1) [qz 0; qz 2; qz 4; qz 6] 0%Qc.
Definition msg : Qc := qz (-999).
Definition demo (iopt : Z) : nat -> nat -> Qc * Qc := z2geouv QA one one (qz 180) J0 z0 3 4 msg lon0 lat0 iopt.
Definition show (w : Qc * Qc) : Q * Q := (this (fst w), this (snd w)).
Definition shows (f : nat -> nat -> Qc * Qc) : list (list (Q * Q)) := map (fun i => map (fun j => show (f i j)) (seq 1 4)) (seq 1 3).

(** The hypotheses of the theorems above hold on this grid: all latitudes are
    used, row 1 column 3 is missing, and it takes with it exactly ug at (1,3),
    (2,3) and vg at (1,2), (1,4). *)
Example geostrophic_demo :
  (forall i, 1 <= i <= 3 -> mid_latitude (lat0 i)) /\
  map (fun i => map (fun j => (Qceqb (fst (demo 0 i j)) msg, Qceqb (snd (demo 0 i j)) msg)) (seq 1 4)) (seq 1 3) =
  [[(false, false); (false, true); (true, false); (false, true)];
   [(false, false); (false, false); (true, false); (false, false)];
   [(false, false); (false, false); (false, false); (false, false)]] /\
  show (demo 0 2 1) = (this (u_exact one (qz 180) z0 3 lat0 2 1), this (v_exact one one (qz 180) z0 4 false (qz 2) lat0 2 1)) /\
  show (demo 1 2 1) = (this (u_exact one (qz 180) z0 3 lat0 2 1), this (v_exact one one (qz 180) z0 4 true (qz 2) lat0 2 1)).
Proof.
  split. { intros i Hi. assert (E : i = 1 \/ i = 2 \/ i = 3) by lia. destruct E as [->|[->| ->]]; repeat split; discriminate. }
  split; [vm_compute; reflexivity|]. split; [vm_compute; reflexivity|]. vm_compute. reflexivity.
Qed.
Example geostrophic_demo_flip :
  fltb QA (lat0 1) (lat0 2) = true /\ fltb QA (lat0 3) (lat0 (3 - 1)) = false /\
  shows (z2geouv QA one one (qz 180) J0 (flipped_rows 3 z0) 3 4 msg lon0 (flipped_rows 3 lat0) 1) = rev (shows (demo 1)).
Proof. vm_compute. repeat split. Qed.

(** ** C42 and C43 at the Python level *)
(** Reversed input gives the same array as the original input, not the reversed
    one: the rows are put in order and never put back. *)
Theorem geostrophic_wind_reversed_input :
  forall (A : fl) sn cs pi r32 J out0 J' out0' (z : nda A) glon glat o zmsg out out',
  proper_order o (ndim z) -> (ndim z = 2 -> o = [ch_y; ch_x]) ->
  fltb A (last glat (fc A 0 1)) (hd (fc A 0 1) glat) = false ->
  fltb A (last (rev glat) (fc A 0 1)) (hd (fc A 0 1) (rev glat)) = true ->
  geostrophic_wind A sn cs pi r32 J out0 z glon glat o zmsg = Some out ->
  geostrophic_wind A sn cs pi r32 J' out0' (flip (pos ch_y o) z) glon (rev glat) o zmsg = Some out' ->
  nd_shape out' = nd_shape out /\ forall ix, valid ix (nd_shape z) -> nd_elt out' ix = nd_elt out ix.
Proof.
  intros A sn cs pi r32 J out0 J' out0' z glon glat o zmsg out out' PO O2 R1 R2 H1 H2.
  destruct (geostrophic_wind_ok A sn cs pi r32 J out0 (J 0) z glon glat o zmsg out PO O2 H1) as (K1 & K2 & K3 & K4).
  destruct (geostrophic_wind_ok A sn cs pi r32 J' out0' (J 0) (flip (pos ch_y o) z) glon (rev glat) o zmsg out' PO O2 H2) as (M1 & M2 & M3 & M4).
  cbn [flip nd_shape] in M1, M2, M3, M4. split; [congruence|]. intros ix V.
  specialize (K4 ix V). specialize (M4 ix V). rewrite R1 in K4. rewrite R2 in M4. rewrite K4, M4. clear K4 M4.
  destruct PO as (L & ND & Ix & Iy & _). set (x := pos ch_x o) in *. set (y := pos ch_y o) in *.
  assert (Ly : y < length (nd_shape z)) by (change (y < ndim z); rewrite <- L; apply pos_lt; auto).
  assert (Lx : x < length (nd_shape z)) by (change (x < ndim z); rewrite <- L; apply pos_lt; auto).
  assert (Nxy : x <> y). { intros E. assert (ch_x = ch_y) by (eapply pos_inj; eauto). discriminate. }
  pose proof (AX_Proofs.valid_nth _ _ y V Ly) as Vy. pose proof (AX_Proofs.valid_nth _ _ x V Lx) as Vx.
  pose proof (valid_length _ _ V) as LV. rewrite rev_length in *.
  apply z2geouv_ext; auto; try lia.
  - intros i j Hi Hj. unfold flipped_rows. f_equal. unfold slice. cbn [flip nd_elt]. f_equal.
    assert (LS : forall v, length (set_nth y v ix) = length ix) by (intros; apply AX_Proofs2.set_nth_length; lia).
    assert (LS2 : forall v w, length (set_nth x v (set_nth y w ix)) = length ix)
      by (intros; rewrite AX_Proofs2.set_nth_length; rewrite LS; lia).
    apply AX_Proofs2.nthn_ext; [rewrite AX_Proofs2.set_nth_length; rewrite !LS2; lia|].
    intros d Hd. rewrite !AX_Proofs2.nthn_set_nth by (rewrite ?LS2, ?LS; lia).
    destruct (Nat.eqb_spec d y), (Nat.eqb_spec d x), (Nat.eqb_spec y x); try lia. rewrite Nat.eqb_refl. lia.
  - intros i Hi. unfold flipped_rows, sub1. rewrite rev_nth by lia. f_equal. lia.
Qed.
Print Assumptions geostrophic_wind_reversed_input.

Definition wind2 (r32 : Qc -> Qc) (z : nda Qc) (glon glat : list Qc) (o : list nat) (zmsg : Qc) : option (nda (Qc * Qc)) :=
  geostrophic_wind QA one one (qz 180) r32 (fun _ => J0) (fun _ _ _ => (qz 77, qz 77)) z glon glat o zmsg.
Definition zz0 : nda Qc := mk_nda [3; 4] (fun ix => z0 (nthn ix 0 + 1) (nthn ix 1 + 1)).
Definition glat0 : list Qc := [qz 10; qz 25; qz 30].
Definition glon0 : list Qc := [qz 0; qz 2; qz 4; qz 6].
Definition same (x : Qc) : Qc := x.

(** So the property stated for C42 fails for [geostrophic_wind]. *)
Theorem geostrophic_wind_flip_refuted :
  exists z glon glat out out',
  proper_order [ch_y; ch_x] (ndim z) /\ (forall i j, i < j < length glat -> (nth i glat 0 < nth j glat 0)%Qc) /\
  wind2 same z glon glat [ch_y; ch_x] msg = Some out /\
  wind2 same (flip 0 z) glon (rev glat) [ch_y; ch_x] msg = Some out' /\
  exists ix, valid ix (nd_shape z) /\ nd_elt out' ix <> nd_elt (flip 0 out) ix.
Proof.
  exists zz0, glon0, glat0. eexists. eexists.
  split. { repeat split; try (simpl; intuition discriminate); try reflexivity. repeat constructor; simpl; intuition discriminate. }
  split. { intros i j Hij. cbn [length glat0] in Hij.
    assert (E : (i = 0 /\ j = 1) \/ (i = 0 /\ j = 2) \/ (i = 1 /\ j = 2)) by lia.
    destruct E as [[-> ->]|[[-> ->]|[-> ->]]]; reflexivity. }
  split; [reflexivity|]. split; [reflexivity|].
  exists [0; 0]. split; [repeat constructor|].
  intros E. apply (f_equal (fun w => this (fst w))) in E. vm_compute in E. discriminate.
Qed.
Print Assumptions geostrophic_wind_flip_refuted.

(** A demonstration of rank 3 in the order (lon, time, lat). *)
Definition zz3 : nda Qc := mk_nda [4; 2; 3] (fun ix => (z0 (nthn ix 2 + 1) (nthn ix 0 + 1) + qz (Z.of_nat (nthn ix 1)) * z0 1 (nthn ix 0 + 1))%Qc).
Example geostrophic_wind_slicewise_demo :
  proper_order [ch_x; 116; ch_y] (ndim zz3) /\ (ndim zz3 = 2 -> [ch_x; 116; ch_y] = [ch_y; ch_x]) /\
  option_map (fun out => (nd_shape out, show (nd_elt out [1; 0; 2]))) (wind2 same zz3 glon0 glat0 [ch_x; 116; ch_y] msg)
  = Some ([4; 2; 3], show (demo 0 3 2)) /\
  fltb QA (last glat0 0%Qc) (hd 0%Qc glat0) = false /\
  fltb QA (last (rev glat0) 0%Qc) (hd 0%Qc (rev glat0)) = true /\
  option_map (fun out => show (nd_elt out [1; 0; 2])) (wind2 same (flip 2 zz3) glon0 (rev glat0) [ch_x; 116; ch_y] msg)
  = Some (show (demo 0 3 2)).
Proof.
  split. { repeat split; try (simpl; intuition discriminate); try reflexivity. repeat constructor; simpl; intuition discriminate. }
  split; [discriminate|]. vm_compute. repeat split.
Qed.

(** A 2-D array stored as (lon, lat) is taken for (lat, lon) when it is square. *)
Theorem geostrophic_wind_2d_order_refuted :
  exists z glon glat out, proper_order [ch_x; ch_y] (ndim z) /\
  wind2 same z glon glat [ch_x; ch_y] msg = Some out /\
  exists ix, valid ix (nd_shape z) /\
  nd_elt out ix <> z2geouv QA one one (qz 180) J0 (fun i j => slice 0 1 z ix i j) (length glat) (length glon) msg
                     (sub1 QA glon) (sub1 QA glat) 0 (nthn ix 1 + 1) (nthn ix 0 + 1).
Proof.
  exists (mk_nda [2; 2] (fun ix => z0 (nthn ix 0 + 1) (nthn ix 1 + 1))), [qz 0; qz 2], [qz 10; qz 25]. eexists.
  split. { repeat split; try (simpl; intuition discriminate); try reflexivity. repeat constructor; simpl; intuition discriminate. }
  split; [reflexivity|]. exists [0; 0]. split; [repeat constructor|].
  intros E. apply (f_equal (fun w => this (fst w))) in E. vm_compute in E. discriminate.
Qed.
Print Assumptions geostrophic_wind_2d_order_refuted.

(** The heights are rounded to single precision before they are compared with
    the missing value, which is not: with -999.9 a field that is missing
    everywhere gives zero wind.  Rounding to a multiple of 2^-14 is what single
    precision does between 512 and 1024. *)
Definition round14 (x : Qc) : Qc := (qz (Qround.Qfloor (this (x * qz 16384 + Q2Qc (1 # 2))%Qc)) / qz 16384)%Qc.
Theorem geostrophic_wind_missing_refuted :
  exists zmsg z out, (forall ix, nd_elt z ix = zmsg) /\ round14 (round14 zmsg) = round14 zmsg /\
  wind2 round14 z glon0 glat0 [ch_y; ch_x] zmsg = Some out /\
  forall ix, valid ix (nd_shape z) -> show (nd_elt out ix) = (0%Q, 0%Q).
Proof.
  exists (Q2Qc (-9999 # 10)), (mk_nda [3; 4] (fun _ => Q2Qc (-9999 # 10))). eexists.
  split; [reflexivity|]. split; [apply Qc_is_canon; vm_compute; reflexivity|]. split; [reflexivity|].
  intros ix V. assert (L := valid_length _ _ V). destruct ix as [|a [|b [|? ?]]]; try discriminate L.
  inversion V as [|? ? ? ? Va V' E1 E2]; subst. inversion V' as [|? ? ? ? Vb V'' E1 E2]; subst. clear V V' V'' L.
  assert (Ea : a = 0 \/ a = 1 \/ a = 2) by lia. assert (Eb : b = 0 \/ b = 1 \/ b = 2 \/ b = 3) by lia.
  destruct Ea as [->|[->| ->]]; destruct Eb as [->|[->|[->| ->]]]; vm_compute; reflexivity.
Qed.
Print Assumptions geostrophic_wind_missing_refuted.

(** A present vg at an edge column can be reported missing. *)
Theorem geostrophic_edge_value_refuted :
  exists (z : nat -> nat -> Qc) nl ml,
  (forall i j, z i j <> msg) /\ mid_latitude (lat0 nl) /\
  v_exact one one (qz 180) z 4 false (qz 2) lat0 nl ml <> msg /\
  snd (z2geouv QA one one (qz 180) J0 z 3 4 msg lon0 lat0 0 nl ml) = msg.
Proof.
  exists (fun i j => if j =? 1 then (qz 2 * msg * (qz 6371220 * qz 2) / - (g_const / two_omega))%Qc else 0%Qc), 1, 1.
  split. { intros i j. destruct (j =? 1); intros E; apply (f_equal this) in E; vm_compute in E; discriminate. }
  split. { repeat split; discriminate. }
  split. { intros E. apply (f_equal this) in E. vm_compute in E. discriminate. }
  apply Qc_is_canon. vm_compute. reflexivity.
Qed.
Print Assumptions geostrophic_edge_value_refuted.

(** Unevenly spaced longitudes: the spacing of the first two columns is used
    everywhere, so a field linear in longitude is not differentiated exactly. *)
Theorem geostrophic_uneven_longitudes_refuted :
  exists (glon : nat -> Qc) nl ml, (forall j, 1 <= j < 4 -> (glon j < glon (j + 1)%nat)%Qc) /\ mid_latitude (lat0 nl) /\
  snd (z2geouv QA one one (qz 180) J0 (fun _ j => glon j) 3 4 msg glon lat0 0 nl ml) <>
  (g_over_f one (qz 180) (lat0 nl) * (1 / (metres_per_degree (qz 180) * one (in_radians (qz 180) (lat0 nl)))))%Qc.
Proof.
  exists (fun j => nth (j - 1) [qz 0; qz 1; qz 3; qz 4] (qz 9)), 2, 2.
  split. { intros j Hj. assert (E : j = 1 \/ j = 2 \/ j = 3) by lia. destruct E as [->|[->| ->]]; reflexivity. }
  split. { repeat split; discriminate. }
  intros E. apply (f_equal this) in E. vm_compute in E. discriminate.
Qed.
Print Assumptions geostrophic_uneven_longitudes_refuted.

(** ** Wrapping longitudes *)
Lemma diffs_even lg ex (l0 d : Qc) n k : 
  diffs (QF lg ex) (map (fun k => (l0 + qz (Z.of_nat k) * d)%Qc) (seq k (S n))) = repeat d n.
Proof.
  revert k. induction n as [|n IH]; intros k; [reflexivity|].
  specialize (IH (S k)). cbn [seq map repeat] in *. cbn [diffs]. rewrite <- IH. f_equal.
  cbn [fsub QF F]. rewrite Nat2Z.inj_succ. unfold Z.succ. rewrite qz_add, qz_1. 
  change (((l0 + (qz (Z.of_nat k) + 1) * d) - (l0 + qz (Z.of_nat k) * d))%Qc = d). ring.
Qed.
Lemma mean_repeat lg ex (d : Qc) n : n <> 0 -> fmean (QF lg ex) (repeat d n) = d.
Proof.
  intros N. unfold fmean. rewrite repeat_length. cbn [fadd fdiv fc QF F].
  assert (E : forall (a : Qc), fold_left Qcplus (repeat d n) a = (a + qz (Z.of_nat n) * d)%Qc).
  { clear. induction n as [|n IH]; intros a; cbn [repeat fold_left]; [change (Z.of_nat 0) with 0%Z; rewrite qz_0; ring|].
    rewrite IH. rewrite Nat2Z.inj_succ. unfold Z.succ. rewrite qz_add, qz_1. ring. }
  change (fold_left Qcplus (repeat d n) (dec 0 1) / dec (Z.of_nat n) 1 = d)%Qc. rewrite E.
  rewrite !dec_1, qz_0. field. intros X. rewrite <- qz_0 in X. apply qz_inj in X. lia.
Qed.
(** An evenly spaced grid of n >= 3 points is taken to wrap iff n steps, or the
    n-1 steps from the first to the last point, come within one degree of 360. *)
Theorem cyclic_detection :
  forall lg ex (l0 d : Qc) n, 3 <= n ->
  let near360 := fun r : Qc => (qz 359 < r /\ r < qz 361)%Qc in
  is_longitude_cyclic (QF lg ex) (map (fun k => (l0 + qz (Z.of_nat k) * d)%Qc) (seq 0 n)) = true <->
  (near360 (qz (Z.of_nat n) * d)%Qc \/ near360 (qz (Z.of_nat (n - 1)) * d)%Qc).
Proof.
  intros lg ex l0 d n Hn near360. unfold is_longitude_cyclic.
  rewrite map_length, seq_length. destruct (Nat.ltb_spec n 3) as [?|_]; [lia|].
  assert (EL : forall x, last (map (fun k => (l0 + qz (Z.of_nat k) * d)%Qc) (seq 0 n)) x = (l0 + qz (Z.of_nat (n - 1)%nat) * d)%Qc).
  { intros x. replace n with (S (n - 1)) at 1 by lia. rewrite seq_S, map_app. cbn [map Nat.add]. apply last_last. }
  rewrite EL. replace (hd (fc (QF lg ex) 0 1) (map (fun k => (l0 + qz (Z.of_nat k) * d)%Qc) (seq 0 n))) with l0.
  2:{ destruct n as [|n]; [lia|]. cbn [seq map hd]. change (Z.of_nat 0) with 0%Z. rewrite qz_0. change (l0 = l0 + 0 * d)%Qc. ring. }
  assert (EM : fmean (QF lg ex) (diffs (QF lg ex) (map (fun k => (l0 + qz (Z.of_nat k) * d)%Qc) (seq 0 n))) = d).
  { replace n with (S (n - 1)) at 1 by lia. rewrite diffs_even. apply mean_repeat. lia. }
  rewrite EM.
  unfold fle. cbn [fsub fadd fabs fltb feqb fc QF F]. rewrite !(dec_1 1), !(dec_1 360), qz_1.
  set (r := (l0 + qz (Z.of_nat (n - 1)%nat) * d - l0)%Qc).
  assert (ER : r = (qz (Z.of_nat (n - 1)%nat) * d)%Qc) by (unfold r; ring).
  assert (EN : (r + d)%Qc = (qz (Z.of_nat n) * d)%Qc).
  { rewrite ER. replace (Z.of_nat n) with (Z.of_nat (n - 1)%nat + 1)%Z by lia. rewrite qz_add, qz_1. ring. }
  rewrite <- ER, <- EN.
  assert (NEAR : forall t : Qc, Qcltb (qcabs (t - qz 360)) 1 = true <-> near360 t).
  { intros t. unfold near360. replace (qz 359) with (qz 360 - 1)%Qc by (apply Qc_is_canon; reflexivity).
    replace (qz 361) with (qz 360 + 1)%Qc by (apply Qc_is_canon; reflexivity). unfold qcabs.
    destruct (Qcleb_spec 0 (t - qz 360)) as [P|P]; [|apply Qcnot_le_lt in P];
    match goal with |- context [Qcltb ?x ?y] => destruct (Qcltb_spec x y) as [Q|Q]; [|apply Qcnot_lt_le in Q] end;
    split; try discriminate; auto; try (intros _; split; qclra); intros [Q1 Q2]; exfalso; qclra. }
  assert (DEAD : (Qcltb (qcabs d) 1 || Qceqb (qcabs d) 1) && Qcltb 1 (qcabs d) = false).
  { destruct (Qcltb_spec (qcabs d) 1), (Qceqb_spec (qcabs d) 1), (Qcltb_spec 1 (qcabs d)); cbn [orb andb]; auto; exfalso; try qclra. }
  rewrite <- (NEAR (r + d)%Qc), <- (NEAR r). cbv zeta.
  destruct (Qcltb (qcabs (r + d - qz 360)) 1) eqn:E1; cbn [andb].
  - rewrite DEAD. cbn [orb]. split; auto.
  - cbn [orb]. split; [auto|]. intros [X|X]; [discriminate|auto].
Qed.
Print Assumptions cyclic_detection.
Example cyclic_detection_demo :
  is_longitude_cyclic QA (map (fun k => (qz 0 + qz (Z.of_nat k) * qz 90)%Qc) (seq 0 4)) = true /\
  is_longitude_cyclic QA (map (fun k => (qz 0 + qz (Z.of_nat k) * qz 90)%Qc) (seq 0 5)) = true /\
  is_longitude_cyclic QA (map (fun k => (qz 0 + qz (Z.of_nat k) * qz 90)%Qc) (seq 0 3)) = false.
Proof. vm_compute. repeat split. Qed.

(** A grid that repeats the first meridian at 360 is wrapped as well, and its
    own first column then serves as western neighbour: vg there is not what the
    grid without the repeated column gives. *)
Theorem geostrophic_repeated_meridian_refuted :
  exists (f : nat -> nat -> Qc) out out', (forall i, f i 4 = f i 0) /\
  wind2 same (mk_nda [3; 4] (fun ix => f (nthn ix 0) (nthn ix 1))) [qz 0; qz 90; qz 180; qz 270] glat0 [ch_y; ch_x] msg = Some out /\
  wind2 same (mk_nda [3; 5] (fun ix => f (nthn ix 0) (nthn ix 1))) [qz 0; qz 90; qz 180; qz 270; qz 360] glat0 [ch_y; ch_x] msg = Some out' /\
  snd (nd_elt out' [1; 0]) <> snd (nd_elt out [1; 0]).
Proof.
  exists (fun i j => if j =? 1 then qz 10 else if j =? 3 then qz (-10) else 0%Qc). eexists. eexists.
  split; [reflexivity|]. split; [reflexivity|]. split; [reflexivity|].
  intros E. apply (f_equal this) in E. vm_compute in E. discriminate.
Qed.
Print Assumptions geostrophic_repeated_meridian_refuted.

(** ** Wind speed: missing iff a component is missing, else sqrt(u^2 + v^2). *)
Theorem geostrophic_speed :
  forall (A : fl) (sq : A -> A) zmsg w,
  (feqb A (fst w) zmsg = true \/ feqb A (snd w) zmsg = true -> speed A sq zmsg w = zmsg) /\
  (feqb A (fst w) zmsg = false -> feqb A (snd w) zmsg = false ->
   speed A sq zmsg w = sq (fadd A (fmul A (fst w) (fst w)) (fmul A (snd w) (snd w)))).
Proof.
  intros A sq zmsg w. unfold speed. split.
  - intros [H|H]; rewrite H; rewrite ?orb_true_r; reflexivity.
  - intros H1 H2. rewrite H1, H2. reflexivity.
Qed.
Print Assumptions geostrophic_speed.
Example geostrophic_speed_demo :
  this (speed QA same msg (qz 3, qz 4)) = 25%Q /\ this (speed QA same msg (qz 3, msg)) = (-999)%Q.
Proof. vm_compute. split; reflexivity. Qed.

(** Non-trivial cases for the shift and the linear fields. *)
Example geostrophic_shift_demo :
  (forall i j, 1 <= i <= 3 -> 1 <= j <= 4 -> z0 i j <> msg -> (z0 i j + qz 40)%Qc <> msg) /\
  shows (z2geouv QA one one (qz 180) J0 (shifted msg (qz 40) z0) 3 4 msg lon0 lat0 0) = shows (demo 0) /\
  show (demo 0 2 1) = (408590 # 193578901, -3064425 # 193578901)%Q.
Proof.
  split.
  { intros i j Hi Hj _ E. apply (f_equal this) in E.
    assert (Ei : i = 1 \/ i = 2 \/ i = 3) by lia. assert (Ej : j = 1 \/ j = 2 \/ j = 3 \/ j = 4) by lia.
    destruct Ei as [->|[->| ->]]; destruct Ej as [->|[->|[->| ->]]]; vm_compute in E; discriminate. }
  split; vm_compute; reflexivity.
Qed.
Example geostrophic_linear_demo :
  (forall i j, i < j -> 1 <= i -> j <= 3 -> lat0 i <> lat0 j) /\
  this (fst (z2geouv QA one one (qz 180) J0 (fun i j => (qz 7 + qz 3 * lat0 i)%Qc) 3 4 msg lon0 lat0 0 2 1)) =
  this (- (g_over_f one (qz 180) (lat0 2) * (qz 3 / metres_per_degree (qz 180))))%Qc /\
  (forall j, 1 <= j <= 4 -> lon0 j = (lon0 1%nat + qz (Z.of_nat (j - 1)%nat) * qz 2)%Qc) /\
  map (fun j => this (snd (z2geouv QA one one (qz 180) J0 (fun i j => (qz 7 + qz 3 * lon0 j)%Qc) 3 4 msg lon0 lat0 0 2 j))) [1; 2; 4] =
  repeat (this (g_over_f one (qz 180) (lat0 2) * (qz 3 / metres_per_degree (qz 180)))%Qc) 3.
Proof.
  split. { intros i j H1 H2 H3 E. apply (f_equal this) in E.
    assert (C : (i = 1 /\ j = 2) \/ (i = 1 /\ j = 3) \/ (i = 2 /\ j = 3)) by lia.
    destruct C as [[-> ->]|[[-> ->]|[-> ->]]]; vm_compute in E; discriminate. }
  split; [vm_compute; reflexivity|]. split.
  { intros j Hj. apply Qc_is_canon. assert (E : j = 1 \/ j = 2 \/ j = 3 \/ j = 4) by lia.
    destruct E as [->|[->|[->| ->]]]; vm_compute; reflexivity. }
  vm_compute. reflexivity.
Qed.
