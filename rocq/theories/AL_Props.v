(** C111, C112: the Legendre functions at a point. *)
From Coq Require Import Reals List Arith ZArith Lia Bool Lra.
From Verif Require Import Base Buffer VH_Model RS_Spec RS_Dft RS_Table GS_Spec GS_Proofs8 LG_Spec LG_Proofs1 LG_Proofs3 GS_Model LG_Model LG_Proofs4 LG_Props LG_Proofs5 LG_Proofs6 SH_Spec ST_Spec ST_Model ST_Proofs1 ST_Proofs2 ST_Proofs3 ST_Proofs4 ST_Props AL_Spec AL_Model AL_Proofs2 AL_Proofs3.
From Verif Require SH_Model SH_Proofs SH_Proofs7 SH_Props.
Import ListNotations.
Local Open Scope R_scope.

Lemma legendre_sign m n th : order_sign m * Pbar (Z.abs_nat m) n th = legendre m n th.
Proof.
  unfold order_sign, neg_odd, legendre. destruct (m <? 0)%Z; cbn [andb]; [|ring]. f_equal. destruct (Nat.Even_or_Odd (Z.abs_nat m)) as [[k ->]|[k ->]].
  - rewrite even_nat, pow_1_even. reflexivity.
  - rewrite odd_nat, Nat.add_1_r, pow_1_odd. reflexivity.
Qed.
Lemma colatitude_val lat : colatitude lat = colatitude_of lat.
Proof. unfold colatitude, colatitude_of. field. Qed.
Lemma colatitude_inv th : colatitude_of (latitude_of th) = th.
Proof. unfold colatitude_of, latitude_of. field. pose proof PI_RGT_0. lra. Qed.
Lemma leading_g n : 2 ^ n * g n = leading n.
Proof.
  unfold leading. rewrite <- g_fact. assert (P1 : 2 ^ n <> 0) by (apply pow_nonzero; lra). pose proof (INR_fact_neq_0 n). replace (4 ^ n) with (2 ^ n * 2 ^ n) by (rewrite <- Rpow_mult_distr; f_equal; ring). field. auto.
Qed.
Lemma leading_S n : leading (S n) = leading n * ((2 * INR n + 1) / (INR n + 1)).
Proof. rewrite <- !leading_g. cbn [g pow]. pose proof (pos_INR n). field. lra. Qed.
Lemma leading_gt n : (2 <= n)%nat -> 1 < leading n.
Proof.
  intros H. induction H as [|n H IH].
  - rewrite !leading_S. unfold leading. cbn. lra.
  - rewrite leading_S. pose proof (pos_INR n). assert (1 <= (2 * INR n + 1) / (INR n + 1)) by (apply (Rmult_le_reg_r (INR n + 1)); [lra|]; unfold Rdiv; rewrite Rmult_assoc, Rinv_l by lra; lra). nra.
Qed.

(** ** C111 *)
(** alfk then lfpt: the normalised function of any degree and any integer order at any
    colatitude, whatever the coefficient array holds before. *)
Theorem C111_value : forall n m cp, (n / 2 + 1 <= length cp)%nat ->
  exists cp', alfk n m cp = Some cp' /\ length cp' = length cp /\ forall th, lfpt n m th cp' = Some (legendre m n th).
Proof. intros n m cp H. destruct (alfk_ok n m cp H) as (cp' & E & L & V). exists cp'. split; auto. split; auto. intros th. rewrite V, legendre_sign. auto. Qed.
(** getlegfunc: all functions up to the truncation at the latitude, in the order of
    the spectral coefficients; what its arrays hold before has no effect. *)
Theorem C111_getlegfunc : forall lat N cp junk, length cp = (N / 2 + 1)%nat -> length junk = tri N ->
  exists out, getlegfunc lat (Z.of_nat N) cp junk = Some out /\ length out = tri N /\
    forall m n, (m <= n <= N)%nat -> nth_error out (index N m n) = Some (Pbar m n (colatitude_of lat)).
Proof.
  intros lat N cp junk HC HJ. exists (points N (colatitude lat)). split; [apply getlegfunc_ok; auto; lia|]. unfold points. split; [rewrite map_length; apply SH_Proofs.pairs_length|].
  intros m n H. rewrite nth_error_map, SH_Proofs.nth_pairs by auto. cbn [option_map fst snd]. rewrite colatitude_val. auto.
Qed.
Theorem C111_determined : forall lat N cp cp' junk junk', length cp = (N / 2 + 1)%nat -> length cp' = (N / 2 + 1)%nat -> length junk = tri N -> length junk' = tri N ->
  getlegfunc lat (Z.of_nat N) cp junk = getlegfunc lat (Z.of_nat N) cp' junk'.
Proof. intros. rewrite !getlegfunc_ok by (auto; lia). auto. Qed.
(** With specintrp: the spectral series at the point. *)
Lemma point_ok N lat cp junk : length cp = (N / 2 + 1)%nat -> length junk = tri N ->
  getlegfunc lat (Z.of_nat N) cp junk = SH_Model.getlegfunc SH_Model.RR (fun n m => Pbar (Z.to_nat m) (Z.to_nat n) (colatitude_of lat)) (Z.of_nat N) junk.
Proof.
  intros HC HJ. rewrite getlegfunc_ok by (auto; lia). rewrite SH_Proofs7.getlegfunc_result by auto. unfold points. rewrite colatitude_val. apply (f_equal (@Some (list R))). apply map_ext. intros [m n]. cbn [fst snd]. rewrite !Nat2Z.id. auto.
Qed.
Theorem C111_point : forall N lat lon d cp junk, length d = tri N -> length cp = (N / 2 + 1)%nat -> length junk = tri N ->
  exists p, getlegfunc lat (Z.of_nat N) cp junk = Some p /\
    SH_Model.specintrp SH_Model.RR (fun m => (cos (IZR m * lon), sin (IZR m * lon))) (Z.of_nat N) d p =
    Some (fold_right Rplus 0 (map (fun e : (R * R) * (nat * nat) => let '((re, im), (m, n)) := e in
      Pbar m n (colatitude_of lat) * (if (m =? 0)%nat then re else 2 * (re * cos (INR m * lon) - im * sin (INR m * lon)))) (combine d (pairs N)))).
Proof.
  intros N lat lon d cp junk HD HC HJ. destruct (SH_Props.C52_point_value N lon (fun n m => Pbar (Z.to_nat m) (Z.to_nat n) (colatitude_of lat)) d junk HD HJ) as (p & E & S). exists p. split; [rewrite point_ok by auto; exact E|].
  rewrite S. do 2 f_equal. apply map_ext. intros [[re im] [m n]]. rewrite !Nat2Z.id, <- INR_IZR_INZ. auto.
Qed.
(** At the points of a Gaussian grid it gives what spectogrd gives there. *)
Theorem C111_grid_point : forall nlat nlon th s d row N fresh c cp junk, (3 <= nlat)%nat -> (4 <= nlon)%nat -> symmetric_colatitudes nlat th -> prepared nlat nlon th s -> length row = nlon ->
  (N < lmax nlat nlon)%nat -> (Z.of_nat (tri N) < 2 ^ 31)%Z -> length c = tri N -> length (fresh 0%nat) = (nlat * nlon)%nat -> length cp = (N / 2 + 1)%nat -> length junk = tri N ->
  exists y, spectogrd nlat nlon s d row fresh (mk_array (tri N :: nil) c) = Done y /\
    forall i j, (i < nlat)%nat -> (j < nlon)%nat -> exists p,
      getlegfunc (latitude_of (th (i + 1)%nat)) (Z.of_nat N) cp junk = Some p /\
      SH_Model.specintrp SH_Model.RR (fun m => (cos (IZR m * longitude nlon j), sin (IZR m * longitude nlon j))) (Z.of_nat N) c p = Some (sample nlon 1 (elements y) 0 i j).
Proof.
  intros nlat nlon th s d row N fresh c cp junk H1 H2 HS HP LR HN HT LC LF LP LJ. destruct (C103_point_value nlat nlon th s d row N fresh c junk H1 H2 HS HP LR HN HT LC LF LJ) as (y & E & V). exists y. split; [exact E|].
  intros i j Hi Hj. destruct (V i j Hi Hj) as (p & EP & ES). exists p. split; [|exact ES]. rewrite point_ok, colatitude_inv by auto. exact EP.
Qed.

(** order 2, degree 3, at the pole and at 60 degrees; order -1 of degree 2 *)
Example C111_value_ex : exists cp', alfk 3 2 (7 :: 7 :: nil) = Some cp' /\ length cp' = 2%nat /\ forall th, lfpt 3 2 th cp' = Some (legendre 2 3 th).
Proof. exact (C111_value 3 2 (7 :: 7 :: nil) (le_n 2)). Qed.
Example C111_getlegfunc_ex : exists out, getlegfunc 30 (Z.of_nat 2) (1 :: 1 :: nil) (repeat 9 6) = Some out /\ length out = 6%nat /\ nth_error out 5 = Some (Pbar 2 2 (colatitude_of 30)).
Proof. destruct (C111_getlegfunc 30 2 (1 :: 1 :: nil) (repeat 9 6) eq_refl eq_refl) as (out & E & L & V). exists out. split; auto. split; auto. exact (V 2%nat 2%nat ltac:(lia)). Qed.
Example C111_determined_ex : getlegfunc 45 (Z.of_nat 1) (0 :: nil) (repeat 0 3) = getlegfunc 45 (Z.of_nat 1) (5 :: nil) (repeat 8 3).
Proof. exact (C111_determined 45 1 (0 :: nil) (5 :: nil) (repeat 0 3) (repeat 8 3) eq_refl eq_refl eq_refl eq_refl). Qed.
Example C111_point_ex : exists p, getlegfunc 0 (Z.of_nat 1) (0 :: nil) (repeat 0 3) = Some p /\
  SH_Model.specintrp SH_Model.RR (fun m => (cos (IZR m * PI), sin (IZR m * PI))) (Z.of_nat 1) ((1, 0) :: (2, 0) :: (3, 1) :: nil) p =
  Some (Pbar 0 0 (colatitude_of 0) * 1 + (Pbar 0 1 (colatitude_of 0) * 2 + (Pbar 1 1 (colatitude_of 0) * (2 * (3 * cos (INR 1 * PI) - 1 * sin (INR 1 * PI))) + 0))).
Proof. exact (C111_point 1 0 PI ((1, 0) :: (2, 0) :: (3, 1) :: nil) (0 :: nil) (repeat 0 3) eq_refl eq_refl eq_refl). Qed.

(** the grid of 3 latitudes and 5 longitudes *)
Example C111_grid_point_ex : exists s y, spectogrd 3 5 s 0 (repeat 0 5) (fun _ => repeat 9 15) (mk_array (3%nat :: nil) ((1, 0) :: (2, 0) :: (0, 3) :: nil)) = Done y /\
  exists p, getlegfunc (latitude_of (LG_Props.colatitude theta3 3)) (Z.of_nat 1) (4 :: nil) (repeat 0 3) = Some p /\
    SH_Model.specintrp SH_Model.RR (fun m => (cos (IZR m * longitude 5 4), sin (IZR m * longitude 5 4))) (Z.of_nat 1) ((1, 0) :: (2, 0) :: (0, 3) :: nil) p = Some (sample 5 1 (elements y) 0 2 4).
Proof.
  destruct workspace3 as (s & _ & PR). exists s.
  destruct (C111_grid_point 3 5 (LG_Props.colatitude theta3) s 0 (repeat 0 5) 1 (fun _ => repeat 9 15) ((1, 0) :: (2, 0) :: (0, 3) :: nil) (4 :: nil) (repeat 0 3) (le_n 3) ltac:(lia) theta3_symmetric PR eq_refl ltac:(cbn; lia) ltac:(cbn; lia) eq_refl eq_refl eq_refl eq_refl) as (y & E & V).
  exists y. split; [exact E|]. exact (V 2%nat 4%nat ltac:(lia) ltac:(lia)).
Qed.

(** ** C112: the directives of alfk *)
(** With the PRIVATE clauses in force, the zonal functions come out divided by the
    leading coefficient of the Legendre polynomial. *)
Theorem C112_scaled : forall copy n cp, (2 <= n)%nat -> (n / 2 + 1 <= length cp)%nat ->
  exists cp', alfk_private copy n 0 cp = Some cp' /\ length cp' = length cp /\ forall th, lfpt n 0 th cp' = Some (Pbar 0 n th / leading n).
Proof. intros copy n cp H1 H2. destruct (private_ok copy n cp H1 H2) as (cp' & E & L & V). exists cp'. split; auto. split; auto. intros th. rewrite V, leading_g. auto. Qed.
(** so the directives change the result of every zonal function of degree 2 or more,
    whatever the undefined copies hold: *)
Theorem C112_wrong : forall copy n cp, (2 <= n)%nat -> (n / 2 + 1 <= length cp)%nat ->
  exists cp1 cp2 v1 v2, alfk n 0 cp = Some cp1 /\ alfk_private copy n 0 cp = Some cp2 /\ lfpt n 0 0 cp1 = Some v1 /\ lfpt n 0 0 cp2 = Some v2 /\ v1 <> v2.
Proof.
  intros copy n cp H1 H2. destruct (C111_value n 0 cp H2) as (cp1 & E1 & _ & V1). destruct (C112_scaled copy n cp H1 H2) as (cp2 & E2 & _ & V2). exists cp1, cp2, (legendre 0 n 0), (Pbar 0 n 0 / leading n). repeat (split; auto).
  change (legendre 0 n 0) with (Pbar 0 n 0). assert (PP : 0 < Pbar 0 n 0).
  { unfold Pbar. rewrite pow_O, Rmult_1_l, cos_0. change (D 0 n 1) with (leg n 1). rewrite leg_one. rewrite Rmult_1_r, pnorm_0. apply sqrt_lt_R0. pose proof (pos_INR n). lra. }
  pose proof (leading_gt n H1) as LG. intros E. assert (X : Pbar 0 n 0 * leading n = Pbar 0 n 0) by (rewrite E at 1; field; lra). nra.
Qed.
Theorem C112_directives_refuted : exists copy n m cp, (n / 2 + 1 <= length cp)%nat /\ alfk_private copy n m cp <> alfk n m cp.
Proof.
  exists (fun _ => 1), 2%nat, 0%Z, (0 :: 0 :: nil). split; [cbn; lia|]. destruct (C112_wrong (fun _ => 1) 2 (0 :: 0 :: nil) (le_n 2) (le_n 2)) as (cp1 & cp2 & v1 & v2 & E1 & E2 & V1 & V2 & NE).
  rewrite E1, E2. intros X. injection X as ->. rewrite V1 in V2. injection V2 as ->. auto.
Qed.
(** and with orders above 0 it depends on what the undefined copies hold *)
Theorem C112_undefined : exists copy copy' n m cp, (n / 2 + 1 <= length cp)%nat /\ alfk_private copy n m cp <> alfk_private copy' n m cp.
Proof.
  exists (fun _ => 2), (fun _ => 3), 2%nat, 1%Z, (0 :: 0 :: nil). split; [cbn; lia|]. unfold alfk_private, alfk_with, alfk_down, wrx. cbn -[cp2_private]. change (Pos.to_nat 1) with 1%nat. intros X. injection X as E. revert E. unfold cp2_private. change ((2 + 1) mod 2 =? 0)%nat with false. change ((1 / 2) mod 2 =? 0)%nat with true. cbn [seq fold_left].
  set (t := 1 / sc20 / powerRZ 2 (Z.of_nat 2 - 1 - 20)). assert (T : t <> 0).
  { unfold t, sc20, sc10. apply Rmult_integral_contrapositive_currified; [|apply Rinv_neq_0_compat, powerRZ_NOR]; lra. }
  replace (2 * 1 / (2 + -1)) with 2 by field. replace (3 * 1 / (3 + -1)) with (3 / 2) by field.
  intros E. apply Rmult_eq_reg_l in E; auto.
  apply sqrt_inj in E; cbn [INR] in *; lra.
Qed.
Example C112_scaled_ex : exists cp', alfk_private (fun i => INR i) 2 0 (0 :: 0 :: nil) = Some cp' /\ length cp' = 2%nat /\ forall th, lfpt 2 0 th cp' = Some (Pbar 0 2 th / leading 2).
Proof. exact (C112_scaled (fun i => INR i) 2 (0 :: 0 :: nil) (le_n 2) (le_n 2)). Qed.
Example C112_leading_ex : leading 2 = 3 / 2 /\ leading 4 = 35 / 8.
Proof. rewrite !leading_S. unfold leading. cbn. split; field. Qed.

Print Assumptions C111_value.
Print Assumptions C111_getlegfunc.
Print Assumptions C111_determined.
Print Assumptions C111_point.
Print Assumptions C111_grid_point.
Print Assumptions C112_scaled.
Print Assumptions C112_wrong.
Print Assumptions C112_directives_refuted.
Print Assumptions C112_undefined.
