(** C108-C110: spectral smoothing and spectral interpolation. *)
From Coq Require Import Reals List Arith ZArith Lia Bool Lra.
From Verif Require Import Base Buffer VH_Model RS_Spec RS_Dft RS_Table GS_Spec GS_Model GS_Proofs3 GS_Proofs8 LG_Spec LG_Model LG_Props SH_Spec ST_Spec ST_Model ST_Proofs1 ST_Proofs2 ST_Proofs3 ST_Proofs4 ST_Props SM_Model SM_Proofs.
From Verif Require SH_Model SH_Proofs SH_Proofs3 SH_Props.
Import ListNotations.
Local Open Scope nat_scope.

(** coefficients beyond N that vanish do not count *)
Lemma expansion_cut N N' M c t x : N <= N' -> M <= N' -> (forall m n, m <= n <= N' -> N < n -> c m n = (0, 0)%R) -> expansion N' M c t x = expansion N (Nat.min N M) c t x.
Proof.
  intros H HM Z. unfold expansion. f_equal.
  - apply sumR_cut; [lia|]. intros k H1 H2. rewrite (Z 0 k) by lia. cbn [fst]. ring.
  - f_equal. rewrite (sumR_cut M (Nat.min N M)).
    + apply sumR_ext. intros q Hq. cbv zeta. apply sumR_cut; [lia|]. intros k H1 H2. rewrite (Z (S q) (S q + k)) by lia. cbn [fst snd]. ring.
    + lia.
    + intros q H1 H2. cbv zeta. apply sumR_0. intros k Hk. rewrite (Z (S q) (S q + k)) by lia. cbn [fst snd]. ring.
Qed.
Lemma expansion_orders N M c c' t x : M <= N -> (forall m n, m <= M -> m <= n <= N -> c m n = c' m n) -> expansion N M c t x = expansion N M c' t x.
Proof.
  intros HM H. unfold expansion. f_equal; [apply sumR_ext; intros k Hk; rewrite H by lia; reflexivity|]. f_equal. apply sumR_ext. intros q Hq. cbv zeta. apply sumR_ext. intros r Hr. rewrite H by lia. reflexivity.
Qed.

(** ** C108: smoothing *)
(** Each value is the series of the projections, each times the factor of its degree;
    whatever the new arrays hold, also for grids where grdtospec itself is not
    determined by the field (C105). *)
Theorem C108_smooth : forall nlat nlon th s d row fab fs fg x smooth extra, 3 <= nlat -> 4 <= nlon -> symmetric_colatitudes nlat th -> prepared nlat nlon th s -> symmetric_weights nlat (s_wts s) -> length row = nlon ->
  (Z.of_nat (tri (nlat - 1)) < 2 ^ 31)%Z -> shape x = nlat :: nlon :: extra -> total extra <> 0 -> shape smooth = nlat :: nil -> length (elements smooth) = nlat ->
  (forall k, k < total extra -> length (fst (fab k)) = nlat * nlat /\ length (snd (fab k)) = nlat * nlat) -> (forall k, k < total extra -> length (fs k) = tri (nlat - 1)) -> (forall k, k < total extra -> length (fg k) = nlat * nlon) ->
  exists y, specsmooth nlat nlon s d row fab fs fg x smooth = Done y /\ shape y = nlat :: nlon :: extra /\
    forall k i j, k < total extra -> i < nlat -> j < nlon ->
      sample nlon (total extra) (elements y) k i j =
      expansion (nlat - 1) (lmax nlat nlon - 1)
        (fun m n => scale (nth n (elements smooth) 0%R) (projection nlat nlon (fun i => nth i (s_wts s) 0%R) (fun i => th (S i)) (sample nlon (total extra) (elements x) k) m n)) (th (i + 1)) (longitude nlon j).
Proof.
  intros nlat nlon th s d row fab fs fg x smooth extra H1 H2 HS HP SW LR HT ES NZ ESM LSM LA LS LG. pose proof (lm nlat nlon ltac:(lia) ltac:(lia)) as LM.
  unfold specsmooth, validate_grid_data. rewrite ES, !Nat.eqb_refl. cbn [negb orb after]. unfold factors_ok. rewrite ESM, Nat.eqb_refl. cbn [negb].
  assert (TR : truncation nlat (Some (Z.of_nat nlat - 1)%Z) (nlat - 1)) by (split; lia).
  destruct (C104_projection nlat nlon th s d row (nlat - 1) _ fab x extra H1 H2 HS HP SW LR TR ES NZ LA) as (z & EZ & SZ & _ & VZ). rewrite EZ. cbn [after].
  destruct (smooth_ok nlat (nlat - 1) (elements smooth) fs z extra ltac:(lia) HT SZ LS ltac:(lia)) as (w & EW & SWW & VW). rewrite EW. cbn [after].
  destruct (C103_series nlat nlon th s d row (nlat - 1) fg w extra H1 H2 HS HP LR ltac:(lia) HT SWW NZ LG) as (y & EY & SY & _ & VY). exists y. split; [exact EY|]. split; [exact SY|].
  intros k i j Hk Hi Hj. rewrite VY by auto. replace (Nat.min (nlat - 1) (lmax nlat nlon - 1)) with (lmax nlat nlon - 1) by lia. apply expansion_orders; [lia|]. intros m n Hm Hmn. rewrite VW, VZ by (auto; lia). reflexivity.
Qed.
(** With exact Gaussian points, smoothing a synthesised field gives the synthesis of
    the coefficients times the factors. *)
Theorem C108_filter : forall nlat nlon th s d row N fresh fab fs fg x smooth extra, 3 <= nlat -> 4 <= nlon -> symmetric_colatitudes nlat th -> prepared nlat nlon th s -> symmetric_weights nlat (s_wts s) -> gaussian nlat (s_wts s) th -> length row = nlon ->
  N < nlat -> (Z.of_nat (tri (nlat - 1)) < 2 ^ 31)%Z -> shape x = tri N :: extra -> total extra <> 0 -> shape smooth = nlat :: nil -> length (elements smooth) = nlat ->
  (forall k, k < total extra -> length (fresh k) = nlat * nlon) -> (forall k, k < total extra -> length (fst (fab k)) = nlat * nlat /\ length (snd (fab k)) = nlat * nlat) -> (forall k, k < total extra -> length (fs k) = tri (nlat - 1)) -> (forall k, k < total extra -> length (fg k) = nlat * nlon) ->
  exists y z, spectogrd nlat nlon s d row fresh x = Done y /\ specsmooth nlat nlon s d row fab fs fg y smooth = Done z /\ shape z = nlat :: nlon :: extra /\
    forall k i j, k < total extra -> i < nlat -> j < nlon ->
      sample nlon (total extra) (elements z) k i j =
      expansion N (Nat.min N (lmax nlat nlon - 1)) (fun m n => scale (nth n (elements smooth) 0%R) (visible nlon m (coefficient N (total extra) (elements x) k m n))) (th (i + 1)) (longitude nlon j).
Proof.
  intros nlat nlon th s d row N fresh fab fs fg x smooth extra H1 H2 HS HP SW HG LR HN HT ES NZ ESM LSM LF LA LS LG. pose proof (lm nlat nlon ltac:(lia) ltac:(lia)) as LM.
  assert (HTN : (Z.of_nat (tri N) < 2 ^ 31)%Z).
  { rewrite <- SH_Proofs3.nmdim_tri_Z in HT |- *. refine (Z.le_lt_trans _ _ _ _ HT). unfold SH_Model.nmdim_of. apply Z.div_le_mono; nia. }
  assert (TR : truncation nlat (Some (Z.of_nat (nlat - 1))) (nlat - 1)) by (split; [auto|lia]).
  destruct (C106_round_trip nlat nlon th s d row N (nlat - 1) _ fresh fab x extra H1 H2 HS HP SW HG LR HN HTN ES NZ TR LF LA) as (y & z & EY & EZ & _ & _ & V).
  destruct (C103_series nlat nlon th s d row N fresh x extra H1 H2 HS HP LR HN HTN ES NZ LF) as (y' & EY' & SY & _). assert (y' = y) as -> by congruence.
  destruct (C104_projection nlat nlon th s d row (nlat - 1) _ fab y extra H1 H2 HS HP SW LR TR SY NZ LA) as (z' & EZ' & _ & _ & V'). assert (z' = z) as -> by congruence.
  destruct (C108_smooth nlat nlon th s d row fab fs fg y smooth extra H1 H2 HS HP SW LR HT SY NZ ESM LSM LA LS LG) as (w & EW & SWW & VW).
  exists y, w. split; [exact EY|]. split; [exact EW|]. split; [exact SWW|]. intros k i j Hk Hi Hj. rewrite VW by auto.
  rewrite (expansion_orders _ _ _ (fun m n => scale (nth n (elements smooth) 0%R) (if n <=? N then visible nlon m (coefficient N (total extra) (elements x) k m n) else (0, 0)%R))) by (try lia; intros m n Hm Hmn; rewrite <- V, <- V' by (auto; lia); reflexivity).
  rewrite (expansion_cut N) by (try lia; intros m n Hmn Hn; replace (n <=? N) with false by (symmetry; apply Nat.leb_gt; auto); unfold scale; cbn [fst snd]; apply f_equal2; ring).
  apply expansion_orders; [lia|]. intros m n Hm Hmn. replace (n <=? N) with true by (symmetry; apply Nat.leb_le; lia). reflexivity.
Qed.
Theorem C108_rejected : forall nlat nlon s d row fab fs fg x smooth, bad_grid nlat nlon (shape x) \/ shape smooth <> nlat :: nil -> specsmooth nlat nlon s d row fab fs fg x smooth = Invalid.
Proof.
  intros nlat nlon s d row fab fs fg x smooth B. unfold specsmooth, validate_grid_data. destruct (shape x) as [|n1 [|n2 extra]]; auto. destruct (Nat.eqb_spec n1 nlat) as [->|]; [|reflexivity]. destruct (Nat.eqb_spec n2 nlon) as [->|]; [|reflexivity]. cbn [negb orb after].
  destruct B as [[B|B]|B]; try congruence. unfold factors_ok. destruct (shape smooth) as [|n [|]]; try reflexivity. destruct (Nat.eqb_spec n nlat); [congruence|reflexivity].
Qed.

(** ** C109: interpolation between two grids *)
Definition factor (smooth : option (array R)) (n : nat) : R := match smooth with Some f => nth n (elements f) 0%R | None => 1%R end.
Definition smooth_fits (nlat' : nat) (smooth : option (array R)) : Prop := match smooth with Some f => shape f = nlat' :: nil /\ length (elements f) = nlat' | None => True end.
(** Each value on the new grid is the series of the projections on the old grid, up to
    the truncation, when the old rows carry every order the new rows carry. *)
Theorem C109_values : forall nlat nlon th s d row nlat' nlon' th' s' d' row' T ntrunc fab fs fg x smooth extra,
  3 <= nlat -> 4 <= nlon -> symmetric_colatitudes nlat th -> prepared nlat nlon th s -> symmetric_weights nlat (s_wts s) -> length row = nlon ->
  3 <= nlat' -> 4 <= nlon' -> symmetric_colatitudes nlat' th' -> prepared nlat' nlon' th' s' -> length row' = nlon' ->
  match ntrunc with None => T = Nat.min (nlat' - 1) (nlat - 1) | Some t => t = Z.of_nat T end -> T < nlat -> T < nlat' -> Nat.min T (lmax nlat' nlon' - 1) < lmax nlat nlon -> (Z.of_nat (tri T) < 2 ^ 31)%Z ->
  shape x = nlat :: nlon :: extra -> total extra <> 0 -> smooth_fits nlat' smooth ->
  (forall k, k < total extra -> length (fst (fab k)) = nlat * nlat /\ length (snd (fab k)) = nlat * nlat) -> (forall k, k < total extra -> length (fs k) = tri T) -> (forall k, k < total extra -> length (fg k) = nlat' * nlon') ->
  exists y, regrid nlat nlon s d row nlat' nlon' s' d' row' fab fs fg x ntrunc smooth = Done y /\ shape y = nlat' :: nlon' :: extra /\
    forall k i j, k < total extra -> i < nlat' -> j < nlon' ->
      sample nlon' (total extra) (elements y) k i j =
      expansion T (Nat.min T (lmax nlat' nlon' - 1))
        (fun m n => scale (factor smooth n) (projection nlat nlon (fun i => nth i (s_wts s) 0%R) (fun i => th (S i)) (sample nlon (total extra) (elements x) k) m n)) (th' (i + 1)) (longitude nlon' j).
Proof.
  intros nlat nlon th s d row nlat' nlon' th' s' d' row' T ntrunc fab fs fg x smooth extra H1 H2 HS HP SW LR H1' H2' HS' HP' LR' ET HT1 HT2 HC HT ES NZ SF LA LS LG. pose proof (lm nlat' nlon' ltac:(lia) ltac:(lia)) as LM.
  unfold regrid. rewrite ES, !Nat.eqb_refl. cbn [negb orb].
  replace (match ntrunc with None => _ | Some n => n end) with (Z.of_nat T) by (destruct ntrunc; lia).
  assert (TR : truncation nlat (Some (Z.of_nat T)) T) by (split; auto).
  destruct (C104_projection nlat nlon th s d row T _ fab x extra H1 H2 HS HP SW LR TR ES NZ LA) as (z & EZ & SZ & _ & VZ). rewrite EZ. cbn [after].
  assert (M : exists w, match smooth with Some f => smooth_spectrum nlat (elements f) fs z | None => Done z end = Done w /\ shape w = tri T :: extra /\
    forall k m n, k < total extra -> m <= n <= T -> coefficient T (total extra) (elements w) k m n = scale (factor smooth n) (coefficient T (total extra) (elements z) k m n)).
  { destruct smooth as [f|]; cbn [factor].
    - destruct SF as [SF1 SF2]. apply smooth_ok; auto. lia.
    - exists z. split; [reflexivity|]. split; [exact SZ|]. intros k m n _ _. unfold scale. rewrite !Rmult_1_l. destruct (coefficient _ _ _ _ _ _); reflexivity. }
  destruct M as (w & EW & SWW & VW). replace (match smooth with Some f => negb (factors_ok nlat' f) | None => false end) with false by (destruct smooth as [f|]; [|reflexivity]; destruct SF as [SF1 _]; unfold factors_ok; rewrite SF1, Nat.eqb_refl; reflexivity).
  rewrite EW. cbn [after].
  destruct (C103_series nlat' nlon' th' s' d' row' T fg w extra H1' H2' HS' HP' LR' HT2 HT SWW NZ LG) as (y & EY & SY & _ & VY). exists y. split; [exact EY|]. split; [exact SY|].
  intros k i j Hk Hi Hj. rewrite VY by auto. apply expansion_orders; [lia|]. intros m n Hm Hmn. rewrite VW, VZ by (auto; lia). reflexivity.
Qed.
(** From an exact Gaussian grid, a field that is a series of a truncation the old rows
    carry is evaluated exactly: the result is what synthesis on the new grid gives. *)
Theorem C109_exact : forall nlat nlon th s d row nlat' nlon' s' d' row' N fresh fab fs fg x extra, 3 <= nlat -> 4 <= nlon -> symmetric_colatitudes nlat th -> prepared nlat nlon th s -> symmetric_weights nlat (s_wts s) -> gaussian nlat (s_wts s) th -> length row = nlon ->
  N < lmax nlat nlon -> (Z.of_nat (tri N) < 2 ^ 31)%Z -> shape x = tri N :: extra -> total extra <> 0 -> length (elements x) = tri N * total extra ->
  (forall k m n, k < total extra -> m <= n <= N -> visible nlon m (coefficient N (total extra) (elements x) k m n) = coefficient N (total extra) (elements x) k m n) ->
  (forall k, k < total extra -> length (fresh k) = nlat * nlon) -> (forall k, k < total extra -> length (fst (fab k)) = nlat * nlat /\ length (snd (fab k)) = nlat * nlat) ->
  exists y, spectogrd nlat nlon s d row fresh x = Done y /\
    regrid nlat nlon s d row nlat' nlon' s' d' row' fab fs fg y (Some (Z.of_nat N)) None = spectogrd nlat' nlon' s' d' row' fg x.
Proof.
  intros nlat nlon th s d row nlat' nlon' s' d' row' N fresh fab fs fg x extra H1 H2 HS HP SW HG LR HN HT ES NZ LX VX LF LA. pose proof (lm nlat nlon ltac:(lia) ltac:(lia)) as LM.
  destruct (C106_identity nlat nlon th s d row N fresh fab x extra H1 H2 HS HP SW HG LR HN HT ES NZ LX VX LF LA) as (y & EY & EX).
  destruct (C103_series nlat nlon th s d row N fresh x extra H1 H2 HS HP LR ltac:(lia) HT ES NZ LF) as (y' & EY' & SY & _). assert (y' = y) as -> by congruence.
  exists y. split; [exact EY|]. unfold regrid. rewrite SY, !Nat.eqb_refl. cbn [negb orb]. rewrite EX. reflexivity.
Qed.
Theorem C109_rejected : forall nlat nlon s d row nlat' nlon' s' d' row' fab fs fg x ntrunc smooth,
  bad_grid nlat nlon (shape x) \/ bad_truncation nlat ntrunc \/ (exists f, smooth = Some f /\ shape f <> nlat' :: nil) -> regrid nlat nlon s d row nlat' nlon' s' d' row' fab fs fg x ntrunc smooth = Invalid.
Proof.
  intros nlat nlon s d row nlat' nlon' s' d' row' fab fs fg x ntrunc smooth B. unfold regrid. destruct (shape x) as [|n1 [|n2 extra]] eqn:ES; auto. destruct (Nat.eqb_spec n1 nlat) as [->|]; [|reflexivity]. destruct (Nat.eqb_spec n2 nlon) as [->|]; [|reflexivity]. cbn [negb orb].
  destruct B as [[B|B]|[B|(f & -> & NF)]]; try congruence.
  - destruct (match smooth with Some f => negb (factors_ok nlat' f) | None => false end); [reflexivity|]. destruct ntrunc as [t|]; [|contradiction]. unfold grdtospec, validate_grid_data. rewrite ES, !Nat.eqb_refl. cbn [negb orb after].
    cbn in B. unfold SH_Model.validate_ntrunc. replace (((t <? 0) || (Z.of_nat nlat - 1 <? t))%Z%bool) with true; [reflexivity|]. symmetry. apply orb_true_iff. rewrite !Z.ltb_lt. exact B.
  - replace (negb (factors_ok nlat' f)) with true; [reflexivity|]. unfold factors_ok. destruct (shape f) as [|n [|]]; try reflexivity. destruct (Nat.eqb_spec n nlat'); [congruence|reflexivity].
Qed.

(** ** C110: not every accepted call is well defined *)
(** Factors of the new grid are too few for a truncation beyond it: multsmoothfact
    reads past their end before the truncation is found too large. *)
Theorem C110_factors_read_outside : forall nlat nlon th s d row nlat' nlon' s' d' row' T fab fs fg x f extra,
  3 <= nlat -> 4 <= nlon -> symmetric_colatitudes nlat th -> prepared nlat nlon th s -> symmetric_weights nlat (s_wts s) -> length row = nlon ->
  nlat' <= T < nlat -> (Z.of_nat (tri T) < 2 ^ 31)%Z -> shape x = nlat :: nlon :: extra -> total extra <> 0 -> shape f = nlat' :: nil -> length (elements f) = nlat' ->
  (forall k, k < total extra -> length (fst (fab k)) = nlat * nlat /\ length (snd (fab k)) = nlat * nlat) -> (forall k, k < total extra -> length (fs k) = tri T) ->
  regrid nlat nlon s d row nlat' nlon' s' d' row' fab fs fg x (Some (Z.of_nat T)) (Some f) = Outside.
Proof.
  intros nlat nlon th s d row nlat' nlon' s' d' row' T fab fs fg x f extra H1 H2 HS HP SW LR HT1 HT ES NZ SF LF LA LS. unfold regrid. rewrite ES, !Nat.eqb_refl. cbn [negb orb]. unfold factors_ok. rewrite SF, Nat.eqb_refl. cbn [negb].
  assert (TR : truncation nlat (Some (Z.of_nat T)) T) by (split; [auto|lia]).
  destruct (C104_projection nlat nlon th s d row T _ fab x extra H1 H2 HS HP SW LR TR ES NZ LA) as (z & EZ & SZ & _ & _). rewrite EZ. cbn [after].
  rewrite (smooth_outside nlat T (elements f) fs z extra) by (auto; lia). reflexivity.
Qed.
Theorem C110_safe_refuted : exists nlat nlon nlat' nlon' fuel dz rsphere m m' s s' row row' x ntrunc f,
  initialise fuel dz (Z.of_nat nlon) (Z.of_nat nlat) rsphere m = Done s /\ initialise fuel dz (Z.of_nat nlon') (Z.of_nat nlat') rsphere m' = Done s' /\
  shape f = nlat' :: nil /\ length (elements f) = nlat' /\ shape x = [nlat; nlon] /\ length (elements x) = nlat * nlon /\
  forall fab fs fg, (forall k, length (fst (fab k)) = nlat * nlat /\ length (snd (fab k)) = nlat * nlat) -> (forall k, length (fs k) = tri (Z.to_nat ntrunc)) ->
    regrid nlat nlon s 0%R row nlat' nlon' s' 0%R row' fab fs fg x (Some ntrunc) (Some f) = Outside.
Proof.
  destruct (C103_instance 5 8 21 1 1 (zeros 5 8)) as (s & th & E & _ & SC & SW & PR); try lra; try lia; [apply zeros_ok; lia|].
  destruct (C103_instance 3 4 21 1 1 (zeros 3 4)) as (s' & th' & E' & _); try lra; try lia; [apply zeros_ok; lia|].
  exists 5, 8, 3, 4, 21, 1%R, 1%R, (zeros 5 8), (zeros 3 4), s, s', (repeat 0%R 8), (repeat 0%R 4), (mk_array [5; 8] (repeat 1%R 40)), 4%Z, (mk_array [3] (repeat 1%R 3)).
  split; [exact E|]. split; [exact E'|]. split; [reflexivity|]. split; [reflexivity|]. split; [reflexivity|]. split; [reflexivity|]. intros fab fs fg LA LS.
  apply (C110_factors_read_outside 5 8 th s 0%R (repeat 0%R 8) 3 4 s' 0%R (repeat 0%R 4) 4 fab fs fg (mk_array [5; 8] (repeat 1%R 40)) (mk_array [3] (repeat 1%R 3)) []); auto; try lia; cbn; lia.
Qed.
(** And from rows that carry fewer orders than the new rows, the value depends on
    leftover memory. *)
Lemma sectoral_positive t : (0 < sin t)%R -> (0 < Pbar 4 4 t)%R.
Proof.
  intros H. unfold Pbar. replace (D 4 4 (cos t)) with 105%R by (cbn; ring). apply Rmult_lt_0_compat.
  - unfold pnorm. apply sqrt_lt_R0. apply Rmult_lt_0_compat; [apply Rmult_lt_0_compat; [pose proof (pos_INR 4); lra|lra]|]. apply Rdiv_lt_0_compat; apply INR_fact_lt_0.
  - apply Rmult_lt_0_compat; [apply pow_lt; exact H|lra].
Qed.
Theorem C110_determined_refuted : exists nlat nlon nlat' nlon' fuel dz rsphere m m' s s',
  initialise fuel dz (Z.of_nat nlon) (Z.of_nat nlat) rsphere m = Done s /\ initialise fuel dz (Z.of_nat nlon') (Z.of_nat nlat') rsphere m' = Done s' /\
  forall row row' fs fg x, length row = nlon -> length row' = nlon' -> shape x = [nlat; nlon] -> (forall k, length (fg k) = nlat' * nlon') ->
    exists fab fab' y y', (forall k, length (fst (fab k)) = nlat * nlat /\ length (snd (fab k)) = nlat * nlat) /\ (forall k, length (fst (fab' k)) = nlat * nlat /\ length (snd (fab' k)) = nlat * nlat) /\
      regrid nlat nlon s 0%R row nlat' nlon' s' 0%R row' fab fs fg x None None = Done y /\ regrid nlat nlon s 0%R row nlat' nlon' s' 0%R row' fab' fs fg x None None = Done y' /\ y <> y'.
Proof.
  destruct (C103_instance 5 4 21 1 1 (zeros 5 4)) as (s & th & E & _ & SC & SW & PR); try lra; try lia; [apply zeros_ok; lia|].
  destruct (C103_instance 5 8 21 1 1 (zeros 5 8)) as (s' & th' & E' & _ & SC' & _ & PR'); try lra; try lia; [apply zeros_ok; lia|].
  exists 5, 4, 5, 8, 21, 1%R, 1%R, (zeros 5 4), (zeros 5 8), s, s'. split; [exact E|]. split; [exact E'|]. intros row row' fs fg x LR LR' ES LG.
  set (fab := fun v : R => fun _ : nat => (repeat 0%R 24 ++ [(2 * v)%R], repeat 0%R 25)).
  assert (LA : forall v k, length (fst (fab v k)) = 5 * 5 /\ length (snd (fab v k)) = 5 * 5) by (intros; split; reflexivity).
  assert (TR : truncation 5 (Some 4%Z) 4) by (split; [reflexivity|lia]).
  assert (G : forall v, exists z y, regrid 5 4 s 0%R row 5 8 s' 0%R row' (fab v) fs fg x None None = Done y /\
     (forall m n, m <= n <= 4 -> m < 3 -> coefficient 4 1 (elements z) 0 m n = projection 5 4 (fun i => nth i (s_wts s) 0%R) (fun i => th (S i)) (sample 4 1 (elements x) 0) m n) /\
     (forall m n, m <= n <= 4 -> 3 <= m -> coefficient 4 1 (elements z) 0 m n = (1 / 2 * val2 5 (fst (fab v 0%nat)) (m + 1) (n + 1), 1 / 2 * val2 5 (snd (fab v 0%nat)) (m + 1) (n + 1))%R) /\
     sample 8 1 (elements y) 0 2 0 = expansion 4 4 (coefficient 4 1 (elements z) 0) (th' 3) (longitude 8 0)).
  { intros v. destruct (C104_projection 5 4 th s 0%R row 4 (Some 4%Z) (fab v) x [] ltac:(lia) ltac:(lia) SC PR SW LR TR ES ltac:(cbn; lia) (fun k _ => LA v k)) as (z & EZ & SZ & _ & VZ).
    destruct (C105_leftover 5 4 th s 0%R row 4 (Some 4%Z) (fab v) x [] ltac:(lia) ltac:(lia) SC PR SW LR TR ES ltac:(cbn; lia) (fun k _ => LA v k)) as (z' & EZ' & WZ). assert (z' = z) as -> by congruence.
    destruct (C103_series 5 8 th' s' 0%R row' 4 fg z [] ltac:(lia) ltac:(lia) SC' PR' LR' ltac:(lia) ltac:(cbn; lia) SZ ltac:(cbn; lia) (fun k _ => LG k)) as (y & EY & _ & _ & VY).
    exists z, y. split; [unfold regrid; rewrite ES; cbn [Nat.eqb negb orb]; change (Z.min (Z.of_nat 5 - 1) (Z.of_nat 5 - 1)) with 4%Z; rewrite EZ; cbn [after]; exact EY|].
    split; [intros m n Hmn Hm; apply (VZ 0 m n); [cbn; lia|auto|cbn; lia]|]. split; [intros m n Hmn Hm; apply (WZ 0 m n); [cbn; lia|auto|cbn; lia]|]. apply (VY 0 2 0); cbn; lia. }
  destruct (G 0%R) as (z0 & y0 & R0 & P0 & Q0 & S0). destruct (G 1%R) as (z1 & y1 & R1 & P1 & Q1 & S1).
  exists (fab 0%R), (fab 1%R), y0, y1. split; [apply LA|]. split; [apply LA|]. split; [exact R0|]. split; [exact R1|]. intros EQ. rewrite EQ, S1 in S0. clear R0 R1 S1 EQ G.
  set (c0 := coefficient 4 1 (elements z0) 0) in *. set (c1 := coefficient 4 1 (elements z1) 0) in *.
  assert (C : forall m n, m <= n <= 4 -> m < 4 -> c1 m n = c0 m n).
  { intros m n Hmn Hm. destruct (Nat.lt_ge_cases m 3) as [L|L]; [rewrite P0, P1 by auto; reflexivity|]. rewrite Q0, Q1 by auto. assert (m = 3) as -> by lia. assert (n = 3 \/ n = 4) as [-> | ->] by lia; cbn; reflexivity. }
  assert (C0 : c0 4 4 = (0, 0)%R) by (rewrite Q0 by lia; cbn; apply f_equal2; field). assert (C1 : c1 4 4 = (1, 0)%R) by (rewrite Q1 by lia; cbn; apply f_equal2; field).
  unfold expansion in S0. change (4 + 1) with 5 in S0. cbn [sumR Nat.sub Nat.add] in S0. rewrite C0, C1 in S0. rewrite !C in S0 by lia. cbn [fst snd] in S0.
  assert (PP : (0 < Pbar 4 4 (th' 3%nat))%R). { apply sectoral_positive. pose proof (SC' 3 ltac:(lia)) as S. change (5 + 1 - 3) with 3 in S. replace (th' 3%nat) with (PI / 2)%R by lra. rewrite sin_PI2. lra. }
  replace (longitude 8 0) with 0%R in S0 by (unfold longitude; cbn [INR]; field; apply not_0_INR; lia). rewrite !Rmult_0_r, cos_0, sin_0 in S0. lra.
Qed.

(** ** Examples *)
Example C108_example : exists s y z, s_wts s = weights3 /\ prepared 3 5 (colatitude theta3) s /\
  spectogrd 3 5 s 0%R (repeat 0%R 5) (fun _ => repeat 9%R 15) (mk_array [3] [(1, 0); (0, 0); (0, 0)]%R) = Done y /\
  specsmooth 3 5 s 0%R (repeat 0%R 5) (fun _ => (repeat 7%R 9, repeat 8%R 9)) (fun _ => repeat (1, 2)%R 6) (fun _ => repeat 9%R 15) y (mk_array [3] [5; 6; 7]%R) = Done z /\ shape z = [3; 5].
Proof.
  destruct workspace3 as (s & EW & PR). assert (SW : symmetric_weights 3 (s_wts s)) by (rewrite EW; apply weights3_symmetric). assert (G : gaussian 3 (s_wts s) (colatitude theta3)) by (rewrite EW; apply theta3_gaussian).
  destruct (C108_filter 3 5 (colatitude theta3) s 0%R (repeat 0%R 5) 1 (fun _ => repeat 9%R 15) (fun _ => (repeat 7%R 9, repeat 8%R 9)) (fun _ => repeat (1, 2)%R 6) (fun _ => repeat 9%R 15) (mk_array [3] [(1, 0); (0, 0); (0, 0)]%R) (mk_array [3] [5; 6; 7]%R) []
    ltac:(lia) ltac:(lia) theta3_symmetric PR SW G eq_refl ltac:(lia) eq_refl eq_refl ltac:(cbn; lia) eq_refl eq_refl (fun _ _ => eq_refl) (fun _ _ => conj eq_refl eq_refl) (fun _ _ => eq_refl) (fun _ _ => eq_refl)) as (y & z & E1 & E2 & SZ & _).
  exists s, y, z. repeat split; assumption || (destruct PR as (A & B & C); assumption).
Qed.
Example C109_example : exists s s' y z, let x := mk_array [6] [(1, 0); (2, 0); (3, 0); (4, 5); (6, 7); (8, 9)]%R in
  spectogrd 3 5 s 0%R (repeat 0%R 5) (fun _ => repeat 9%R 15) x = Done y /\
  regrid 3 5 s 0%R (repeat 0%R 5) 4 6 s' 0%R (repeat 0%R 6) (fun _ => (repeat 7%R 9, repeat 8%R 9)) (fun _ => []) (fun _ => repeat 3%R 24) y (Some 2%Z) None = Done z /\ shape z = [4; 6].
Proof.
  destruct workspace3 as (s & EW & PR). assert (SW : symmetric_weights 3 (s_wts s)) by (rewrite EW; apply weights3_symmetric). assert (G : gaussian 3 (s_wts s) (colatitude theta3)) by (rewrite EW; apply theta3_gaussian).
  destruct (C103_instance 4 6 17 1 1 (zeros 4 6)) as (s' & th' & E' & _ & SC' & _ & PR'); try lra; try lia; [apply zeros_ok; lia|].
  set (x := mk_array [6] [(1, 0); (2, 0); (3, 0); (4, 5); (6, 7); (8, 9)]%R).
  assert (VX : forall k m n, k < 1 -> m <= n <= 2 -> visible 5 m (coefficient 2 1 (elements x) k m n) = coefficient 2 1 (elements x) k m n).
  { intros k m n Hk Hmn. assert (k = 0) as -> by lia. assert (C : (m = 0 /\ (n = 0 \/ n = 1 \/ n = 2)) \/ (m = 1 /\ (n = 1 \/ n = 2)) \/ (m = 2 /\ n = 2)) by lia.
    destruct C as [[-> [->|[->| ->]]]|[[-> [->| ->]]|[-> ->]]]; reflexivity. }
  destruct (C109_exact 3 5 (colatitude theta3) s 0%R (repeat 0%R 5) 4 6 s' 0%R (repeat 0%R 6) 2 (fun _ => repeat 9%R 15) (fun _ => (repeat 7%R 9, repeat 8%R 9)) (fun _ => []) (fun _ => repeat 3%R 24) x []
    ltac:(lia) ltac:(lia) theta3_symmetric PR SW G eq_refl ltac:(cbn; lia) eq_refl eq_refl ltac:(cbn; lia) eq_refl VX (fun _ _ => eq_refl) (fun _ _ => conj eq_refl eq_refl)) as (y & EY & ER).
  destruct (C103_series 4 6 th' s' 0%R (repeat 0%R 6) 2 (fun _ => repeat 3%R 24) x [] ltac:(lia) ltac:(lia) SC' PR' eq_refl ltac:(lia) eq_refl eq_refl ltac:(cbn; lia) (fun _ _ => eq_refl)) as (z & EZ & SZ & _).
  exists s, s', y, z. cbv zeta. split; [exact EY|]. split; [exact (eq_trans ER EZ)|exact SZ].
Qed.

Print Assumptions C108_smooth.
Print Assumptions C108_filter.
Print Assumptions C108_rejected.
Print Assumptions C109_values.
Print Assumptions C109_exact.
Print Assumptions C109_rejected.
Print Assumptions C110_factors_read_outside.
Print Assumptions C110_safe_refuted.
Print Assumptions C110_determined_refuted.
