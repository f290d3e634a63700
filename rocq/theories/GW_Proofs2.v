(** Proofs about the geostrophic kernel: missing values, locality, reversed
    latitudes (any arithmetic) and the exact values (rational arithmetic). *)
From Verif Require Import Base NdArray AX_Model VH_Model VH_Proofs TP_Model GW_Model GW_Spec GW_Proofs.
Local Close Scope Qc_scope.
Local Open Scope nat_scope.

Lemma north_range n k : 1 <= k <= n -> 1 <= north n k <= n.
Proof. unfold north. destruct (Nat.eqb_spec k n); lia. Qed.
Lemma south_range n k : 1 <= k <= n -> 1 <= south k <= n.
Proof. unfold south. destruct (Nat.eqb_spec k 1); lia. Qed.
Lemma east_range c n k : 1 <= k <= n -> 1 <= east c n k <= n.
Proof. unfold east. destruct (Nat.eqb_spec k n), c; lia. Qed.
Lemma west_range c n k : 1 <= k <= n -> 1 <= west c n k <= n.
Proof. unfold west. destruct (Nat.eqb_spec k 1), c; lia. Qed.
Lemma north_flip n k : 1 <= k <= n -> n + 1 - north n (n + 1 - k) = south k.
Proof. unfold north, south. destruct (Nat.eqb_spec (n + 1 - k) n), (Nat.eqb_spec k 1); lia. Qed.
Lemma south_flip n k : 1 <= k <= n -> n + 1 - south (n + 1 - k) = north n k.
Proof. unfold north, south. destruct (Nat.eqb_spec (n + 1 - k) 1), (Nat.eqb_spec k n); lia. Qed.

Lemma flipped_twice {T} n (f : nat -> T) k : 1 <= k <= n -> flipped_rows n f (n + 1 - k) = f k.
Proof. intros H. unfold flipped_rows. f_equal. lia. Qed.

Section Any.
Variable A : fl.
Variables (sn cs : A -> A) (pi : A).
Notation z2guv := (z2guv A sn cs pi).
Notation z2geouv := (z2geouv A sn cs pi).
Notation cell_at := (cell_at A sn cs pi).

(** The kernel at a point of either storage order. *)
Lemma z2geouv_ok J z nlat mlon zmsg glon glat iopt nl ml : 2 <= nlat -> 2 <= mlon -> 1 <= nl <= nlat -> 1 <= ml <= mlon ->
  let c := (iopt =? 1)%Z in
  z2geouv J z nlat mlon zmsg glon glat iopt nl ml =
  if fltb A (glat 1) (glat 2)
  then cell_at nlat mlon iopt zmsg glon glat (z (north nlat nl) ml) (z (south nl) ml) (z nl (east c mlon ml)) (z nl (west c mlon ml)) nl ml
  else cell_at nlat mlon iopt zmsg glon (flipped_rows nlat glat)
         (z (south nl) ml) (z (north nlat nl) ml) (z nl (east c mlon ml)) (z nl (west c mlon ml)) (nlat + 1 - nl) ml.
Proof.
  intros Hn Hm Hl Hc c. unfold GW_Model.z2geouv.
  destruct (Nat.ltb_spec nlat 2) as [?|_]; [lia|]. destruct (Nat.ltb_spec mlon 2) as [?|_]; [lia|]. cbn [orb].
  destruct (fltb A (glat 1) (glat 2)); [rewrite z2guv_ok by auto; reflexivity|].
  rewrite zuvnew_ok by auto. rewrite z2guv_ok by lia. cbv zeta. unfold flipped_rows at 2 3 4 5.
  rewrite north_flip, south_flip by auto. replace (nlat + 1 - (nlat + 1 - nl)) with nl by lia. reflexivity.
Qed.

(** *** Locality *)
Lemma cell_fst nlat mlon iopt zmsg glon glat zn zs ze zw nl ml :
  fst (cell_at nlat mlon iopt zmsg glon glat zn zs ze zw nl ml) =
  (let r := row_at A sn cs pi nlat zmsg (fmul A (fc A 2 1) (fmul A (rr A pi) (fsub A (glon 2) (glon 1)))) glat nl in
   if r_valid A r && fne A zn zmsg && fne A zs zmsg
   then fneg A (fmul A (fmul A (r_gf A r) (fsub A zn zs)) (inv_dy_at A pi nlat glat nl)) else zmsg).
Proof.
  unfold GW_Proofs.cell_at, doubled, point. cbv zeta.
  repeat match goal with |- context [if ?b then _ else _] => match b with
    | fne A zn zmsg && _ => fail 1 | _ => destruct b eqn:? end; cbn [andb orb fst snd] in * end;
  repeat match goal with H : context [fne A ?x zmsg] |- _ => destruct (fne A x zmsg); cbn [andb] in *; try discriminate end;
  repeat match goal with |- context [fne A ?x zmsg] => destruct (fne A x zmsg); cbn [andb fst snd] in *; try discriminate end;
  try congruence; auto.
Qed.
Lemma cell_snd nlat mlon iopt zmsg glon glat zn zs ze zw nl ml :
  snd (cell_at nlat mlon iopt zmsg glon glat zn zs ze zw nl ml) =
  (let r := row_at A sn cs pi nlat zmsg (fmul A (fc A 2 1) (fmul A (rr A pi) (fsub A (glon 2) (glon 1)))) glat nl in
   let v := if r_valid A r && fne A ze zmsg && fne A zw zmsg
            then fmul A (fmul A (r_gf A r) (fsub A ze zw)) (r_inv_dx A r) else zmsg in
   if edge (iopt =? 1)%Z mlon ml && fne A v zmsg then fmul A v (fc A 2 1) else v).
Proof.
  unfold GW_Proofs.cell_at, doubled, point. cbv zeta.
  set (r := row_at _ _ _ _ _ _ _ _ _).
  destruct (r_valid A r), (edge (iopt =? 1)%Z mlon ml); cbn [andb];
  destruct (fne A zn zmsg), (fne A zs zmsg), (fne A ze zmsg), (fne A zw zmsg); cbn [andb fst snd];
  try reflexivity; match goal with |- context [if ?b then _ else _] => destruct b end; reflexivity.
Qed.

(** Whether a row is processed and its factors depend on its latitude only. *)
Lemma row_valid nlat zmsg dlon2 glat nl :
  r_valid A (row_at A sn cs pi nlat zmsg dlon2 glat nl) = fne A (glat nl) (fc A 0 1) && fle A (fabs A (glat nl)) (fc A 89999 1000).
Proof.
  unfold row_at. cbv zeta. unfold row_coef.
  destruct (fne A (glat nl) (fc A 0 1) && fle A (fabs A (glat nl)) (fc A 89999 1000));
  match goal with |- context [if ?b then _ else _] => destruct b end; reflexivity.
Qed.
Definition lat_ok (lat : A) : bool := fne A lat (fc A 0 1) && fle A (fabs A lat) (fc A 89999 1000).

Lemma u_missing J z nlat mlon zmsg glon glat iopt nl ml : 2 <= nlat -> 2 <= mlon -> 1 <= nl <= nlat -> 1 <= ml <= mlon ->
  lat_ok (glat nl) = false \/ feqb A (z (north nlat nl) ml) zmsg = true \/ feqb A (z (south nl) ml) zmsg = true ->
  fst (z2geouv J z nlat mlon zmsg glon glat iopt nl ml) = zmsg.
Proof.
  intros Hn Hm Hl Hc H. rewrite z2geouv_ok by auto. cbv zeta.
  destruct (fltb A (glat 1) (glat 2)); rewrite cell_fst; cbv zeta; rewrite row_valid;
  rewrite ?flipped_twice by auto;
  unfold lat_ok, fne in *;
  destruct H as [H|[H|H]]; rewrite H; cbn [negb andb]; rewrite ?andb_false_r; reflexivity.
Qed.
Lemma v_missing J z nlat mlon zmsg glon glat iopt nl ml : 2 <= nlat -> 2 <= mlon -> 1 <= nl <= nlat -> 1 <= ml <= mlon ->
  let c := (iopt =? 1)%Z in feqb A zmsg zmsg = true ->
  lat_ok (glat nl) = false \/ feqb A (z nl (east c mlon ml)) zmsg = true \/ feqb A (z nl (west c mlon ml)) zmsg = true ->
  snd (z2geouv J z nlat mlon zmsg glon glat iopt nl ml) = zmsg.
Proof.
  intros Hn Hm Hl Hc c R H. rewrite z2geouv_ok by auto. cbv zeta. fold c.
  destruct (fltb A (glat 1) (glat 2)); rewrite cell_snd; cbv zeta; rewrite row_valid;
  rewrite ?flipped_twice by auto;
  unfold lat_ok, fne in *;
  (destruct H as [H|[H|H]]; rewrite H; cbn [negb andb]; rewrite ?andb_false_r; cbn [andb]; rewrite R; cbn [negb]; rewrite andb_false_r; reflexivity).
Qed.
(** Two runs that differ outside the stencil (and in uninitialised memory). *)
Lemma u_local J J' z z' nlat mlon zmsg glon glat iopt nl ml : 2 <= nlat -> 2 <= mlon -> 1 <= nl <= nlat -> 1 <= ml <= mlon ->
  z (north nlat nl) ml = z' (north nlat nl) ml -> z (south nl) ml = z' (south nl) ml ->
  fst (z2geouv J z nlat mlon zmsg glon glat iopt nl ml) = fst (z2geouv J' z' nlat mlon zmsg glon glat iopt nl ml).
Proof.
  intros Hn Hm Hl Hc E1 E2. rewrite !z2geouv_ok by auto. cbv zeta.
  destruct (fltb A (glat 1) (glat 2)); rewrite !cell_fst, E1, E2; reflexivity.
Qed.
Lemma v_local J J' z z' nlat mlon zmsg glon glat iopt nl ml : 2 <= nlat -> 2 <= mlon -> 1 <= nl <= nlat -> 1 <= ml <= mlon ->
  let c := (iopt =? 1)%Z in
  z nl (east c mlon ml) = z' nl (east c mlon ml) -> z nl (west c mlon ml) = z' nl (west c mlon ml) ->
  snd (z2geouv J z nlat mlon zmsg glon glat iopt nl ml) = snd (z2geouv J' z' nlat mlon zmsg glon glat iopt nl ml).
Proof.
  intros Hn Hm Hl Hc c E1 E2. rewrite !z2geouv_ok by auto. cbv zeta. fold c.
  destruct (fltb A (glat 1) (glat 2)); rewrite !cell_snd, E1, E2; reflexivity.
Qed.

(** *** Reversed rows *)
Lemma cell_lat_ext nlat mlon iopt zmsg glon glat glat' zn zs ze zw nl ml : 2 <= nlat -> 1 <= nl <= nlat ->
  (forall k, 1 <= k <= nlat -> glat k = glat' k) ->
  cell_at nlat mlon iopt zmsg glon glat zn zs ze zw nl ml = cell_at nlat mlon iopt zmsg glon glat' zn zs ze zw nl ml.
Proof.
  intros Hn Hl E. unfold GW_Proofs.cell_at, row_at, inv_dy_at.
  rewrite !E by (pose proof (north_range nlat nl); pose proof (south_range nlat nl); lia). reflexivity.
Qed.
Lemma z2geouv_flip J J' z nlat mlon zmsg glon glat iopt nl ml : 2 <= nlat -> 2 <= mlon -> 1 <= nl <= nlat -> 1 <= ml <= mlon ->
  fltb A (glat 1) (glat 2) = true -> fltb A (glat nlat) (glat (nlat - 1)) = false ->
  z2geouv J (flipped_rows nlat z) nlat mlon zmsg glon (flipped_rows nlat glat) iopt nl ml =
  z2geouv J' z nlat mlon zmsg glon glat iopt (nlat + 1 - nl) ml.
Proof.
  intros Hn Hm Hl Hc A1 A2. rewrite !z2geouv_ok by lia. cbv zeta. rewrite A1.
  unfold flipped_rows at 1 2. replace (nlat + 1 - 1) with nlat by lia. replace (nlat + 1 - 2) with (nlat - 1) by lia. rewrite A2.
  unfold flipped_rows at 2 3 4 5.
  replace (nlat + 1 - south nl) with (north nlat (nlat + 1 - nl))
    by (pose proof (north_flip nlat nl Hl); pose proof (north_range nlat (nlat + 1 - nl)); lia).
  replace (nlat + 1 - north nlat nl) with (south (nlat + 1 - nl))
    by (pose proof (south_flip nlat nl Hl); pose proof (south_range nlat (nlat + 1 - nl)); pose proof (north_range nlat nl Hl); lia).
  apply cell_lat_ext; try lia. intros k Hk. unfold flipped_rows. f_equal. lia.
Qed.
(** Equal inputs on the grid give equal outputs on the grid. *)
Lemma z2geouv_ext J J' z z' nlat mlon zmsg glon glon' glat glat' iopt nl ml : 1 <= nl <= nlat -> 1 <= ml <= mlon ->
  (forall i j, 1 <= i <= nlat -> 1 <= j <= mlon -> z i j = z' i j) -> (forall i, 1 <= i <= nlat -> glat i = glat' i) ->
  (forall j, 1 <= j <= mlon -> glon j = glon' j) ->
  z2geouv J z nlat mlon zmsg glon glat iopt nl ml = z2geouv J' z' nlat mlon zmsg glon' glat' iopt nl ml.
Proof.
  intros Hl Hc EZ EL EO. destruct (le_lt_dec 2 nlat) as [Hn|Hn]; [destruct (le_lt_dec 2 mlon) as [Hm|Hm]|].
  - rewrite !z2geouv_ok by auto. cbv zeta. rewrite <- (EL 1), <- (EL 2) by lia.
    rewrite <- !EZ by (pose proof (north_range nlat nl); pose proof (south_range nlat nl);
                    pose proof (east_range (iopt =? 1)%Z mlon ml); pose proof (west_range (iopt =? 1)%Z mlon ml); lia).
    assert (EC : forall g g' zn zs ze zw k l, 1 <= k <= nlat -> (forall i, 1 <= i <= nlat -> g i = g' i) ->
       cell_at nlat mlon iopt zmsg glon g zn zs ze zw k l = cell_at nlat mlon iopt zmsg glon' g' zn zs ze zw k l).
    { intros g g' zn zs ze zw k l Hk E. rewrite (cell_lat_ext nlat mlon iopt zmsg glon g g') by auto.
      unfold GW_Proofs.cell_at. rewrite !EO by lia. reflexivity. }
    destruct (fltb A (glat 1) (glat 2)); apply EC; auto; try lia. intros i Hi. unfold flipped_rows. apply EL. lia.
  - unfold GW_Model.z2geouv. destruct (Nat.ltb_spec mlon 2); [|lia]. rewrite orb_true_r. reflexivity.
  - unfold GW_Model.z2geouv. destruct (Nat.ltb_spec nlat 2); [|lia]. reflexivity.
Qed.
Lemma z2geouv_3d_ok J z nlat mlon n3 zmsg glon glat iopt out0 i j k : 1 <= k <= n3 ->
  z2geouv_3d A sn cs pi J z nlat mlon n3 zmsg glon glat iopt out0 i j k =
  z2geouv (J k) (fun a b => z a b k) nlat mlon zmsg glon glat iopt i j.
Proof.
  intros Hk. unfold z2geouv_3d.
  pose proof (loop_ind (fun l (f : nat -> nat -> nat -> A * A) => forall i j k, 1 <= k < l ->
       f i j k = z2geouv (J k) (fun a b => z a b k) nlat mlon zmsg glon glat iopt i j)
     (fun out k => let r := z2geouv (J k) (fun i j => z i j k) nlat mlon zmsg glon glat iopt in
         fun i j l => if l =? k then r i j else out i j l) 1 n3 out0) as H.
  apply H; try lia. intros l f Hl G a b c Hc. cbv beta zeta. destruct (Nat.eqb_spec c l) as [E|N]; [subst c; reflexivity|]. apply G. lia.
Qed.
End Any.

(** ** Rational arithmetic *)
Section Rational.
Variables (lg ex sn cs : Qc -> Qc) (pi : Qc).
Notation A := (QF lg ex).
Local Open Scope Qc_scope.

Lemma dec_1 n : dec n 1 = qz n.
Proof. unfold dec. rewrite qz_1. unfold Qcdiv. replace (/ 1) with 1 by (apply Qc_is_canon; reflexivity). ring. Qed.
Lemma c_89999 : dec 89999 1000 = Q2Qc (89999 # 1000).
Proof. apply Qc_is_canon. reflexivity. Qed.
Lemma lat_ok_spec lat : lat_ok A lat = true <-> mid_latitude lat.
Proof.
  unfold lat_ok, mid_latitude, fne, fle. cbn [feqb fltb fabs fc QF F]. rewrite dec_1, c_89999, qz_0.
  rewrite andb_true_iff, orb_true_iff, negb_true_iff.
  assert (E : (Qcltb (qcabs lat) (Q2Qc (89999 # 1000)) = true \/ Qceqb (qcabs lat) (Q2Qc (89999 # 1000)) = true) <->
              qcabs lat <= Q2Qc (89999 # 1000)).
  { destruct (Qcltb_spec (qcabs lat) (Q2Qc (89999 # 1000))), (Qceqb_spec (qcabs lat) (Q2Qc (89999 # 1000))); split;
    try (intros [H|H]; discriminate); auto; try (intros _; qclra).
    intros H. exfalso. destruct (Qcle_lt_or_eq _ _ H); auto. }
  rewrite E. clear E. unfold qcabs. destruct (Qceqb_spec lat 0) as [E|E].
  { split; [intros [H _]; discriminate|intros [H _]; congruence]. }
  destruct (Qcleb_spec 0 lat) as [P|P].
  - split; [intros [_ H]; repeat split; auto; qclra|intros (_ & H1 & H2); auto].
  - assert (lat < 0) by (apply Qcnot_le_lt; auto).
    split; [intros [_ H1]; repeat split; auto; qclra|intros (_ & H1 & H2); split; auto; qclra].
Qed.

Lemma valid_row nlat zmsg dlon2 glat nl : mid_latitude (glat nl) ->
  row_at A sn cs pi nlat zmsg dlon2 glat nl =
  {| r_valid := true; r_gf := dec 980616 100000 / (dec 2 1 * dec 7292 100000000) / sn (glat nl * (pi / dec 180 1)) : A;
     r_dx := dlon2 * cs (glat nl * (pi / dec 180 1)) : A; r_inv_dx := 1 / (dlon2 * cs (glat nl * (pi / dec 180 1))) : A |}.
Proof.
  intros M. assert (V := M). apply lat_ok_spec in V. unfold row_at. cbv zeta. destruct M as (N0 & L1 & L2).
  assert (P : ((nl =? 1)%nat && fltb A (glat 1%nat) (fneg A (fc A 89999 1000)) || (nl =? nlat)%nat && fltb A (fc A 89999 1000) (glat nlat)) = false).
  { cbn [fltb fneg fsub fc QF F]. rewrite c_89999, dec_1, qz_0. apply orb_false_iff. split; apply andb_false_iff.
    - destruct (Nat.eqb_spec nl 1) as [->|]; [right|left; auto]. destruct (Qcltb_spec (glat 1%nat) (0 - Q2Qc (89999 # 1000))); auto. exfalso. qclra.
    - destruct (Nat.eqb_spec nl nlat) as [->|]; [right|left; auto]. destruct (Qcltb_spec (Q2Qc (89999 # 1000)) (glat nlat)); auto. exfalso. qclra. }
  rewrite P. unfold row_coef. fold (lat_ok A (glat nl)). rewrite V. cbv zeta.
  unfold gr_over_two_omega, gr, omega, rad, fne. cbn [fdiv fmul fc feqb QF F]. rewrite !(dec_1 0), !(dec_1 1), qz_0, qz_1.
  f_equal. match goal with |- context [Qceqb ?x 0] => destruct (Qceqb_spec x 0) as [E|E] end; cbn [negb]; auto.
  rewrite E. apply Qc_is_canon. reflexivity.
Qed.

Lemma half_twice (x : Qc) : x / (1 + 1) * (1 + 1) = x.
Proof. field. discriminate. Qed.
Lemma two_Qc : dec 2 1 = 1 + 1. Proof. apply Qc_is_canon. reflexivity. Qed.
Lemma Qcdiv_mul (x y z : Qc) : x / (y * z) = x / y / z.
Proof. unfold Qcdiv. rewrite Qcinv_mult_distr. ring. Qed.
Lemma gf_eq lat : dec 980616 100000 / (dec 2 1 * dec 7292 100000000) / sn (lat * (pi / dec 180 1)) = g_over_f sn pi lat.
Proof.
  rewrite (dec_1 180). unfold g_over_f, in_radians.
  assert (E : dec 980616 100000 / (dec 2 1 * dec 7292 100000000) = g_const / two_omega) by (apply Qc_is_canon; reflexivity).
  rewrite E. symmetry. apply Qcdiv_mul.
Qed.
Lemma rr_eq : rr A pi = metres_per_degree pi.
Proof. unfold rr, re, rad, metres_per_degree. cbn [fmul fdiv fc QF F]. rewrite !dec_1. reflexivity. Qed.
Lemma fne_spec (x y : Qc) : fne A x y = true <-> x <> y.
Proof. unfold fne. cbn [feqb QF F]. destruct (Qceqb_spec x y); cbn [negb]; split; congruence. Qed.
Lemma Qcdiv_opp2 (x y : Qc) : (- x) / (- y) = x / y.
Proof.
  destruct (Qceqb_spec y 0) as [->|N].
  - unfold Qcdiv. replace (- 0) with 0 by ring. replace (/ 0) with 0 by (apply Qc_is_canon; reflexivity). ring.
  - field. split; auto. intros E. apply N. rewrite <- (Qcopp_involutive y), E. ring.
Qed.

Lemma u_value J z nlat mlon zmsg glon glat iopt nl ml : (2 <= nlat)%nat -> (2 <= mlon)%nat -> (1 <= nl <= nlat)%nat -> (1 <= ml <= mlon)%nat ->
  mid_latitude (glat nl) -> z (north nlat nl) ml <> zmsg -> z (south nl) ml <> zmsg ->
  fst (z2geouv A sn cs pi J z nlat mlon zmsg glon glat iopt nl ml) = u_exact sn pi z nlat glat nl ml.
Proof.
  intros Hn Hm Hl Hc M N S. rewrite z2geouv_ok by auto. cbv zeta.
  apply fne_spec in N. apply fne_spec in S.
  assert (K : forall g zn zs dlat k, mid_latitude (g k) -> fne A zn zmsg = true -> fne A zs zmsg = true ->
     g (north nlat k) - g (south k) = dlat -> g k = glat nl ->
     fst (cell_at A sn cs pi nlat mlon iopt zmsg glon g zn zs (z nl (east (iopt =? 1)%Z mlon ml)) (z nl (west (iopt =? 1)%Z mlon ml)) k ml) =
     - (g_over_f sn pi (glat nl) * ((zn - zs) / (metres_per_degree pi * dlat)))).
  { intros g zn zs dlat k M' N' S' <- E. rewrite cell_fst. cbv zeta. rewrite valid_row by auto. cbn [r_valid r_gf].
    rewrite N', S'. cbn [andb]. rewrite gf_eq, E. unfold inv_dy_at. rewrite rr_eq. unfold fneg.
    cbn [fsub fmul fdiv fc QF F]. rewrite !(dec_1 1), !(dec_1 0), qz_0, qz_1. unfold Qcdiv.
    rewrite (Qcmult_comm (metres_per_degree pi)). ring. }
  unfold u_exact. destruct (fltb A (glat 1%nat) (glat 2%nat)).
  - rewrite (K glat _ _ (glat (north nlat nl) - glat (south nl))); auto.
  - rewrite (K (flipped_rows nlat glat) _ _ (glat (south nl) - glat (north nlat nl))); auto.
    + replace (z (south nl) ml - z (north nlat nl) ml) with (- (z (north nlat nl) ml - z (south nl) ml)) by ring.
      replace (metres_per_degree pi * (glat (south nl) - glat (north nlat nl))) with
         (- (metres_per_degree pi * (glat (north nlat nl) - glat (south nl)))) by ring.
      rewrite Qcdiv_opp2. reflexivity.
    + rewrite flipped_twice; auto.
    + unfold flipped_rows. rewrite north_flip, south_flip by auto. reflexivity.
    + apply flipped_twice; auto.
Qed.

Lemma v_value J z nlat mlon zmsg glon glat iopt nl ml : (2 <= nlat)%nat -> (2 <= mlon)%nat -> (1 <= nl <= nlat)%nat -> (1 <= ml <= mlon)%nat ->
  let c := (iopt =? 1)%Z in
  mid_latitude (glat nl) -> z nl (east c mlon ml) <> zmsg -> z nl (west c mlon ml) <> zmsg ->
  let v := v_exact sn cs pi z mlon c (glon 2%nat - glon 1%nat) glat nl ml in
  snd (z2geouv A sn cs pi J z nlat mlon zmsg glon glat iopt nl ml) =
  if edge c mlon ml && Qceqb (v / (1 + 1)) zmsg then zmsg else v.
Proof.
  intros Hn Hm Hl Hc c M N S v. rewrite z2geouv_ok by auto. cbv zeta. fold c.
  apply fne_spec in N. apply fne_spec in S.
  assert (K : forall g zn zs k, mid_latitude (g k) -> g k = glat nl ->
     snd (cell_at A sn cs pi nlat mlon iopt zmsg glon g zn zs (z nl (east c mlon ml)) (z nl (west c mlon ml)) k ml) =
     if edge c mlon ml && Qceqb (v / (1 + 1)) zmsg then zmsg else v).
  { intros g zn zs k M' E. rewrite cell_snd. cbv zeta. rewrite valid_row by auto. cbn [r_valid r_gf r_inv_dx].
    rewrite N, S. cbn [andb]. rewrite gf_eq, E. fold c.
    set (w := fmul A _ _).
    assert (EW : w = g_over_f sn pi (glat nl) * ((z nl (east c mlon ml) - z nl (west c mlon ml)) /
        ((1 + 1) * (metres_per_degree pi * (glon 2%nat - glon 1%nat) * cs (in_radians pi (glat nl)))))).
    { unfold w. rewrite rr_eq. unfold in_radians. cbn [fmul fsub fc QF F]. rewrite two_Qc, (dec_1 180). unfold Qcdiv.
      rewrite Qcmult_1_l, <- !Qcmult_assoc. reflexivity. }
    unfold v, v_exact, steps. destruct (edge c mlon ml); cbn [andb].
    - assert (EV : w = g_over_f sn pi (glat nl) * ((z nl (east c mlon ml) - z nl (west c mlon ml)) /
        (1 * (metres_per_degree pi * (glon 2%nat - glon 1%nat) * cs (in_radians pi (glat nl))))) / (1 + 1)).
      { rewrite EW. rewrite !Qcdiv_mul. unfold Qcdiv. replace (/ 1) with 1 by (apply Qc_is_canon; reflexivity). match goal with |- @eq _ ?a ?b => change (@eq Qc a b) end. ring. }
      rewrite <- EV. unfold fne. cbn [feqb QF F]. destruct (Qceqb_spec w zmsg) as [E2|E2]; cbn [negb]; auto.
      cbn [fmul fc QF F]. rewrite EV, two_Qc. apply half_twice.
    - rewrite EW. reflexivity. }
  destruct (fltb A (glat 1%nat) (glat 2%nat)); apply K; auto; rewrite flipped_twice by auto; auto.
Qed.
End Rational.
