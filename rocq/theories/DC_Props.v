(** Downdraft CAPE (property C45).  See DC_Spec for the definitions.  The first
    group holds in every arithmetic (so of the rounded code), the second in any
    arithmetic whose comparisons obey [order_laws] (true of IEEE doubles, NaN
    included), the third in exact real arithmetic. *)
From Coq Require Import Reals Lra.
From Verif Require Import Base Buffer VH_Model VH_Proofs RG_Proofs2 TP_Model TP_Proofs3 DC_Model DC_Spec DC_Proofs DC_Proofs2 DC_Proofs3 DC_Proofs4 DC_Proofs5.
Local Close Scope Qc_scope.
Local Open Scope nat_scope.

(** * An arithmetic for the examples: 30 binary places, None is NaN *)
Definition unit_ : Z := (2 ^ 30)%Z.
Definition lift1 (f : Z -> option Z) (x : option Z) : option Z := match x with Some a => f a | None => None end.
Definition lift2 (f : Z -> Z -> option Z) (x y : option Z) : option Z := match x, y with Some a, Some b => f a b | _, _ => None end.
Definition zmul (a b : Z) : Z := Z.shiftr (a * b) 30.
Definition zexp (x : Z) : Z :=
  (let y := Z.shiftr x 8 in
   Nat.iter 8 (fun v => zmul v v) (unit_ + y + zmul y y / 2 + zmul (zmul y y) y / 6))%Z.
Definition zln (x : Z) : option Z :=
  if (x <=? 0)%Z then None
  else Some (Nat.iter 3 (fun y => let e := zexp y in y + 2 * (x - e) * unit_ / (x + e)) ((Z.log2 x - 29) * 744261118))%Z.
Definition FX : fl :=
  {| F := option Z;
     fc := fun n d => Some (n * unit_ / d)%Z;
     fadd := lift2 (fun a b => Some (a + b)%Z); fsub := lift2 (fun a b => Some (a - b)%Z);
     fmul := lift2 (fun a b => Some (zmul a b));
     fdiv := lift2 (fun a b => if (b =? 0)%Z then None else Some (a * unit_ / b)%Z);
     fln := lift1 zln; fexp := lift1 (fun a => Some (zexp a)); fabs := lift1 (fun a => Some (Z.abs a));
     fmax := lift2 (fun a b => Some (Z.max a b));
     fltb := fun x y => match x, y with Some a, Some b => (a <? b)%Z | _, _ => false end;
     feqb := fun x y => match x, y with Some a, Some b => (a =? b)%Z | _, _ => false end |}.
Definition fpw (x y : FX) : FX := fexp FX (fmul FX y (fln FX x)).
Definition ffin (x : FX) : bool := match x with Some _ => true | None => false end.
Definition ftrunc (x : FX) : nat := match x with Some a => Z.to_nat (a / unit_) | None => 0 end.
Definition fnan : FX := None.
Definition lev (p t td : Z) : level FX := (fc FX p 1, fc FX t 1, fc FX td 1).
Definition badlev : level FX := (fc FX 925 1, None, fc FX 12 1).
Definition sounding : list (level FX) :=
  lev 712 16 10 :: lev 708 14 9 :: lev 704 12 8 :: lev 700 5 4 :: lev 600 8 (-14) :: lev 500 0 (-21) :: nil.
Definition junk (n : nat) : list (level FX) := repeat (lev 7 7 7) n.
Definition dc (l : list (level FX)) : option FX :=
  dcape_profile FX fpw ffin fnan ftrunc l (junk (length l)) (repeat (fc FX 9 1) (length l)).
Definition whole (x : option FX) : option (option Z) := option_map (option_map (fun a => Z.shiftr a 30)) x.
(** 37 J/kg *)
Example sounding_value : whole (dc sounding) = Some (Some 37%Z).
Proof. vm_compute. reflexivity. Qed.

(** * Any arithmetic *)
Section Any.
Variable A : fl.
Variables (pw : A -> A -> A) (fin : A -> bool) (nan : A) (trunc : A -> nat).
Notation profile := (dcape_profile A pw fin nan trunc).

(** Every array access is in bounds, the uninitialised work arrays do not matter,
    and the result is the one described in DC_Spec, for any number of levels *)
Theorem dcape_profile_value inp work tk : length work = length inp -> length tk = length inp ->
  profile inp work tk = Some (downdraft A pw fin nan trunc (usable A fin inp)).
Proof. apply profile_ok. Qed.

Theorem dcape_nan_or_nonnegative inp work tk : length work = length inp -> length tk = length inp ->
  fin (fc A 0 1) = true -> fltb A (fc A 0 1) (fc A 0 1) = false ->
  exists v, profile inp work tk = Some v /\ (v = nan \/ fin v = true /\ fltb A v (fc A 0 1) = false).
Proof. intros Hw Ht H0 H1. rewrite profile_ok by auto. eexists. split; [reflexivity|]. apply downdraft_range; auto. Qed.

Theorem dcape_few_levels_nan inp work tk : length work = length inp -> length tk = length inp ->
  length (usable A fin inp) < 4 -> profile inp work tk = Some nan.
Proof. intros Hw Ht H. rewrite profile_ok by auto. unfold downdraft. destruct (Nat.ltb_spec (length (usable A fin inp)) 4); auto. lia. Qed.

Theorem dcape_ignores_unusable inp work tk work' tk' : length work = length inp -> length tk = length inp ->
  length work' = length (usable A fin inp) -> length tk' = length (usable A fin inp) ->
  profile (usable A fin inp) work' tk' = profile inp work tk.
Proof. intros. rewrite !profile_ok by auto. rewrite usable_idem. reflexivity. Qed.

(** A profile given upside down, when the pressures at its two ends differ *)
Theorem dcape_upside_down inp work tk work' tk' x l : length work = length inp -> length tk = length inp ->
  length work' = length inp -> length tk' = length inp ->
  (forall a b, fltb A a b = true -> fltb A b a = false) ->
  usable A fin inp = x :: l ->
  fltb A (lp A x) (lp A (last (x :: l) x)) = true \/ fltb A (lp A (last (x :: l) x)) (lp A x) = true ->
  profile (rev inp) work' tk' = profile inp work tk.
Proof.
  intros Hw Ht Hw' Ht' Has Hu Hd. rewrite !profile_ok by (rewrite ?rev_length; auto). rewrite usable_rev, Hu.
  rewrite (downdraft_rev A pw fin nan trunc x l _ Has eq_refl Hd). reflexivity.
Qed.

(** A grid is done column by column *)
Theorem dcape_grid_columns nlat nlon cols work tk :
  (forall j i, length (work j i) = length (cols j i)) -> (forall j i, length (tk j i) = length (cols j i)) ->
  exists g, dcape_grid A pw fin nan trunc nlat nlon cols work tk = Some g /\ length g = nlat /\
    forall j, 1 <= j <= nlat -> exists row, rd g j = Some row /\ length row = nlon /\
      forall i, 1 <= i <= nlon -> rd row i = Some (downdraft A pw fin nan trunc (usable A fin (cols j i))).
Proof.
  intros Hw Ht. unfold dcape_grid.
  destruct (mapM_okR _ _ (fun j => mapM (fun i => profile (cols j i) (work j i) (tk j i)) (seq 1 nlon))
    (fun j row => length row = nlon /\ forall i, 1 <= i <= nlon -> rd row i = Some (downdraft A pw fin nan trunc (usable A fin (cols j i)))) (seq 1 nlat)) as [g [E [L G]]].
  - intros j _. destruct (mapM_okR _ _ (fun i => profile (cols j i) (work j i) (tk j i)) (fun i v => v = downdraft A pw fin nan trunc (usable A fin (cols j i))) (seq 1 nlon)) as [row [E [L G]]].
    + intros i _. exists (downdraft A pw fin nan trunc (usable A fin (cols j i))). split; auto. apply profile_ok; auto.
    + exists row. split; auto. rewrite seq_length in L. split; auto. intros i Hi. destruct i; [lia|].
      destruct (G i (Datatypes.S i)) as [b [Eb ->]]; [|exact Eb]. rewrite nth_error_nth' with (d := 0) by (rewrite seq_length; lia). f_equal. rewrite seq_nth; lia.
  - exists g. rewrite seq_length in L. split; [auto|]. split; auto. intros j Hj. destruct j; [lia|].
    destruct (G j (Datatypes.S j)) as [b [Eb [Lb Gb]]]; [rewrite nth_error_nth' with (d := 0) by (rewrite seq_length; lia); f_equal; rewrite seq_nth; lia|].
    exists b. auto.
Qed.

(** Rank 1 gives the profile, rank 3 the grid, any other rank an exception *)
Theorem dcape_dispatch rank nlat nlon cols work tk :
  (forall j i, length (work j i) = length (cols j i)) -> (forall j i, length (tk j i) = length (cols j i)) ->
  match rank with
  | 1 => calculate_dcape A pw fin nan trunc rank nlat nlon cols work tk = Some (Some (Number A (downdraft A pw fin nan trunc (usable A fin (cols 1 1)))))
  | 3 => exists g, dcape_grid A pw fin nan trunc nlat nlon cols work tk = Some g /\ calculate_dcape A pw fin nan trunc rank nlat nlon cols work tk = Some (Some (Grid A g))
  | _ => calculate_dcape A pw fin nan trunc rank nlat nlon cols work tk = Some None
  end.
Proof.
  intros Hw Ht. destruct rank as [|[|[|[|rank]]]]; unfold calculate_dcape; cbn [Nat.eqb]; auto.
  - rewrite profile_ok by auto. reflexivity.
  - destruct (dcape_grid_columns nlat nlon cols work tk Hw Ht) as [g [E _]]. exists g. rewrite E. split; reflexivity.
Qed.
End Any.

Example in_range_case : ffin (fc FX 0 1) = true /\ fltb FX (fc FX 0 1) (fc FX 0 1) = false.
Proof. split; reflexivity. Qed.
Example few_levels_case : length (usable FX ffin (badlev :: firstn 3 sounding ++ badlev :: nil)) = 3 /\ dc (badlev :: firstn 3 sounding ++ badlev :: nil) = Some None.
Proof. split; reflexivity. Qed.
Example unusable_case : length (usable FX ffin (firstn 2 sounding ++ badlev :: skipn 2 sounding)) = 6 /\ length (firstn 2 sounding ++ badlev :: skipn 2 sounding) = 7.
Proof. split; reflexivity. Qed.
Example upside_down_case : usable FX ffin sounding = sounding /\ fltb FX (lp FX (last sounding badlev)) (lp FX (lev 712 16 10)) = true /\
  forall a b : FX, fltb FX a b = true -> fltb FX b a = false.
Proof. split; [reflexivity|]. split; [reflexivity|]. intros [a|] [b|]; cbn [FX fltb]; try discriminate. rewrite Z.ltb_lt, Z.ltb_ge. lia. Qed.
Example grid_case : exists g, dcape_grid FX fpw ffin fnan ftrunc 1 2 (fun _ i => if i =? 1 then firstn 2 sounding else sounding)
    (fun _ i => junk (if i =? 1 then 2 else 6)) (fun _ i => repeat (fc FX 9 1) (if i =? 1 then 2 else 6)) = Some g /\
  map (map (option_map (fun a => Z.shiftr a 30))) g = ((None :: Some 37%Z :: nil) :: nil).
Proof. eexists. split; [vm_compute; reflexivity|reflexivity]. Qed.

(** With the same pressure at both ends the orientation is not found, and the two
    ways round give different results *)
Definition same_ends : list (level FX) := lev 700 5 4 :: lev 704 12 8 :: lev 698 4 3 :: lev 700 3 2 :: nil.
Theorem dcape_upside_down_same_ends_refuted : exists l : list (level FX),
  lp FX (hd badlev l) = lp FX (last l badlev) /\ dc l <> dc (rev l).
Proof. exists same_ends. split; [reflexivity|]. vm_compute. discriminate. Qed.
(** The order of the levels does matter: levels swapped in the middle of the
    profile are not sorted *)
Definition swapped : list (level FX) :=
  lev 712 16 10 :: lev 704 12 8 :: lev 708 14 9 :: lev 700 5 4 :: lev 600 8 (-14) :: lev 500 0 (-21) :: nil.
Theorem dcape_order_matters_refuted : exists l l' : list (level FX), Permutation l l' /\ dc l <> dc l'.
Proof. exists sounding, swapped. split; [|vm_compute; discriminate]. apply perm_skip, perm_swap. Qed.

(** * Any arithmetic with lawful comparisons *)
(** The start has the lowest theta-e of the candidates, and lies between 500 and
    700 hPa *)
Theorem dcape_start_coldest (A : fl) pw (O : order_laws A) l x : origin A pw l = Some x ->
  In x (candidates A l) /\ (forall y, In y (candidates A l) -> fltb A (theta A pw y) (theta A pw x) = false) /\
  dle A (fc A 500 1) (lp A x) = true /\ dle A (lp A x) (fc A 700 1) = true.
Proof.
  intros H. pose proof (origin_ok A pw O l) as Ho. rewrite H in Ho. destruct Ho as [H1 [H2 H3]].
  split; auto. split; auto. apply candidate_p with (l := l); auto.
Qed.
Theorem dcape_start_missing (A : fl) pw (O : order_laws A) l : origin A pw l = None ->
  forall y, In y (candidates A l) -> fltb A (theta A pw y) (fc A (10 ^ 99) 1) = false.
Proof. intros H. pose proof (origin_ok A pw O l) as Ho. rewrite H in Ho. exact Ho. Qed.
(** On a profile of falling pressure the integral runs over all levels at or below
    the start *)
Theorem dcape_levels_below_start (A : fl) (O : order_laws A) l p : falling A l -> up_to A p l = filter (fun x => dle A p (lp A x)) l.
Proof. apply up_to_filter; auto. Qed.
(** With only one level at 500 hPa or below, the result is NaN, even where a
    start exists *)
Theorem dcape_one_level_nan (A : fl) pw fin nan trunc (O : order_laws A) inp work tk x y r : length work = length inp -> length tk = length inp ->
  upward A (usable A fin inp) = x :: y :: r -> fltb A (lp A y) (fc A 500 1) = true ->
  dcape_profile A pw fin nan trunc inp work tk = Some nan.
Proof. intros Hw Ht Hu Hy. rewrite profile_ok by auto. f_equal. eapply nan_one_below; eauto. Qed.

Lemma FX_order : order_laws FX.
Proof.
  constructor; try reflexivity.
  - intros [x|]; cbn [FX fltb]; auto. apply Z.ltb_irrefl.
  - intros [x|] [y|] [z|]; cbn [FX fltb]; try discriminate. rewrite !Z.ltb_lt. lia.
  - intros [x|] [y|] [z|]; unfold dle; cbn [FX fltb feqb orb]; try discriminate. rewrite !orb_true_iff, !Z.ltb_lt, !Z.eqb_eq. lia.
  - intros [x|] [y|]; unfold dle; cbn [FX fltb feqb]; try discriminate. rewrite orb_false_iff, Z.ltb_lt, Z.ltb_ge, Z.eqb_neq. lia.
Qed.
Example start_case : origin FX fpw sounding = Some (lev 700 5 4) /\ length (candidates FX sounding) = 5.
Proof. split; vm_compute; reflexivity. Qed.
Example start_missing_case : origin FX fpw (lev 450 1 1 :: lev 400 0 0 :: nil) = None.
Proof. vm_compute. reflexivity. Qed.
Example falling_case : falling FX sounding.
Proof. repeat split; reflexivity. Qed.
(** a sounding with levels at 1000, 450, 300, 200 hPa: theta-e at 700 hPa is found,
    the result is NaN *)
Definition sparse : list (level FX) := lev 1000 30 20 :: lev 450 (-12) (-30) :: lev 300 (-36) (-50) :: lev 200 (-50) (-60) :: nil.
Example one_level_case : (exists s, origin FX fpw (upward FX (usable FX ffin sparse)) = Some s) /\
  upward FX (usable FX ffin sparse) = sparse /\ fltb FX (lp FX (lev 450 (-12) (-30))) (fc FX 500 1) = true.
Proof. split; [eexists; vm_compute; reflexivity|]. split; reflexivity. Qed.

(** * Exact real arithmetic *)
Local Open Scope R_scope.
Notation real_dcape nan := (downdraft RF Rpower all nan rtrunc).
Notation buoy u s := (buoyancy RF u (descent RF rtrunc u (lp RF s) (wet_bulb RF Rpower rtrunc s))).

(** Positive part of Rd times the area between the virtual temperatures, against
    the logarithm of pressure *)
Theorem dcape_real_value nan l s : (4 <= length l)%nat -> origin RF Rpower (upward RF l) = Some s ->
  (2 <= length (up_to RF (lp RF s) (upward RF l)))%nat ->
  real_dcape nan l = Rmax 0 (28705 / 100 * area (buoy (up_to RF (lp RF s) (upward RF l)) s)).
Proof.
  intros H4 Ho H2. unfold downdraft. destruct (Nat.ltb_spec (length l) 4); [lia|]. rewrite Ho.
  destruct (Nat.leb_spec (length (up_to RF (lp RF s) (upward RF l))) 1); [lia|]. rewrite cut_real. f_equal. apply energy_area.
Qed.
(** A parcel nowhere colder than its surroundings has none; one nowhere warmer has
    the whole area *)
Theorem dcape_real_sign nan l s : (4 <= length l)%nat -> origin RF Rpower (upward RF l) = Some s ->
  (2 <= length (up_to RF (lp RF s) (upward RF l)))%nat -> falling RF (upward RF l) -> (forall x, In x l -> 0 < lp RF x) ->
  let b := buoy (up_to RF (lp RF s) (upward RF l)) s in
  ((forall q, In q b -> fst q <= 0) -> real_dcape nan l = 0) /\
  ((forall q, In q b -> 0 <= fst q) -> real_dcape nan l = 28705 / 100 * area b).
Proof.
  intros H4 Ho H2 Hf Hp b. rewrite (dcape_real_value nan l s) by auto. fold b.
  assert (Hin : forall x, In x (up_to RF (lp RF s) (upward RF l)) -> 0 < lp RF x).
  { intros x Hx. rewrite up_to_filter in Hx by (auto using RF_order). apply filter_In in Hx as [Hx _]. apply Hp.
    unfold upward in Hx. destruct l as [|z l]; auto. destruct (fltb _ _ _); auto. apply in_rev. exact Hx. }
  assert (Hfu : falling RF (up_to RF (lp RF s) (upward RF l))).
  { clear - Hf. induction (upward RF l) as [|x w IH]; [exact I|]. cbn [up_to]. destruct (dle RF (lp RF s) (lp RF x)); [|exact I].
    destruct w as [|y w]; [exact I|]. destruct Hf as [H1 H3]. specialize (IH H3). cbn [up_to] in *. destruct (dle RF (lp RF s) (lp RF y)); [|exact I]. split; auto. }
  destruct (area_sign b) as [Hpos Hneg].
  { apply buoyancy_falling; auto. apply descent_len. }
  split; intros Hq.
  - apply Rmax_left. specialize (Hneg Hq). lra.
  - apply Rmax_right. specialize (Hpos Hq). lra.
Qed.

(** The parcel warms on its way down, and is never colder than at its condensation
    level *)
Theorem dcape_parcel_warms (l : list (level RF)) (s : level RF) : 0 < lp RF s -> snd s <= snd (fst s) -> -100 <= snd (fst s) -> falling RF l ->
  let ts := descent RF rtrunc (up_to RF (lp RF s) l) (lp RF s) (wet_bulb RF Rpower rtrunc s) in
  warming_down ts /\ forall v, In v ts -> snd (lcl_bolton RF Rpower (fst (fst s)) (snd (fst s)) (snd s)) <= v.
Proof.
  intros Hp Ht H100 Hf ts. destruct (wet_bulb_ge rtrunc s Hp Ht H100) as [H1 H2].
  assert (Hle : forall x y : R, dle RF x y = true -> x <= y).
  { intros x y. unfold dle. cbn [RF fltb feqb]. rewrite orb_true_iff, Rltb_true, Reqb_true. intros [H|H]; [left; exact H|right; exact H]. }
  assert (Hin : forall x, In x (up_to RF (lp RF s) l) -> lp RF s <= lp RF x).
  { intros x Hx. rewrite up_to_filter in Hx by (auto using RF_order). apply filter_In in Hx as [_ Hx]. apply Hle; auto. }
  assert (Hfu : falling RF (up_to RF (lp RF s) l)).
  { clear - Hf. induction l as [|x w IH]; [exact I|]. cbn [up_to]. destruct (dle RF (lp RF s) (lp RF x)); [|exact I].
    destruct w as [|y w]; [exact I|]. destruct Hf as [H1 H3]. specialize (IH H3). cbn [up_to] in *. destruct (dle RF (lp RF s) (lp RF y)); [|exact I]. split; auto. }
  destruct (descent_warms rtrunc (up_to RF (lp RF s) l) (lp RF s) (wet_bulb RF Rpower rtrunc s)) as [G1 G2]; auto.
  { eapply Rlt_le_trans; [|exact H2]. eapply Rlt_trans; [|exact H1]. lra. }
  split; auto. intros v Hv. eapply Rle_trans; [exact H2|]. apply G2; auto.
Qed.
(** The condensation level is above the start, and no warmer *)
Theorem dcape_lcl (p tc tdc : R) : 0 < p -> tdc <= tc -> -100 <= tc ->
  let '(plcl, tlcl) := lcl_bolton RF Rpower p tc tdc in 0 < plcl <= p /\ 56 < tlcl <= tc + 27315 / 100.
Proof. apply lcl_above. Qed.
(** The saturated rate of warming is positive and below the dry one *)
Theorem dcape_moist_rate (p t : R) : 0 < p -> 0 < t <= 1500 -> 0 < dt_dp_moist RF p t < (28705 / 100 / 1004) * t / p.
Proof. intros Hp [Ht HT]. destruct (moist_rate p t Hp Ht) as [H1 H2]. auto. Qed.

(** The integrator: steps of less than 200 Pa that end at the target and integrate
    a cubic exactly; on dT/dp = lam T the Taylor polynomial of degree 4 per step *)
Theorem dcape_rk4_cubic (a b c d p0 t0 p1 : R) : 1 / 1000000000 <= Rabs (p1 - p0) ->
  rk4_integrate RF rtrunc (fun p _ => a + b * p + c * p ^ 2 + d * p ^ 3) p0 t0 p1
  = t0 + ((a * p1 + b / 2 * p1 ^ 2 + c / 3 * p1 ^ 3 + d / 4 * p1 ^ 4) - (a * p0 + b / 2 * p0 ^ 2 + c / 3 * p0 ^ 3 + d / 4 * p0 ^ 4)).
Proof. apply rk4_cubic. Qed.
Theorem dcape_rk4_linear (p0 p1 : R) : 1 / 1000000000 <= Rabs (p1 - p0) -> exists n : nat, Rabs ((p1 - p0) / INR n) < 200 /\ (1 <= n)%nat /\
  forall lam t0, let z := lam * ((p1 - p0) / INR n) in
    rk4_integrate RF rtrunc (fun _ t => lam * t) p0 t0 p1 = t0 * (1 + z + z ^ 2 / 2 + z ^ 3 / 6 + z ^ 4 / 24) ^ n.
Proof.
  intros H. exists (steps rtrunc p0 p1). split; [apply step_size, rtrunc_ok|]. split; [unfold steps; lia|]. intros lam t0. apply rk4_linear. auto.
Qed.

Example rk4_case : 1 / 1000000000 <= Rabs (100000 - 70000).
Proof. rewrite Rabs_right; lra. Qed.
Example moist_rate_case : 0 < 100000 /\ 0 < 300 <= 1500.
Proof. lra. Qed.
Example lcl_case : 0 < 700 /\ -4 <= 10 /\ -100 <= 10.
Proof. lra. Qed.
(** a sounding in real arithmetic (DC_Proofs5), which has no downdraft energy *)
Example real_case : (4 <= length rsound)%nat /\ origin RF Rpower (upward RF rsound) = Some top /\
  (2 <= length (up_to RF (lp RF top) (upward RF rsound)))%nat /\ falling RF (upward RF rsound) /\ (forall x, In x rsound -> 0 < lp RF x) /\
  (forall q, In q (buoy (up_to RF (lp RF top) (upward RF rsound)) top) -> fst q <= 0).
Proof.
  rewrite rsound_origin, rsound_upward, rsound_up_to. split; [cbn; lia|]. split; [auto|]. split; [cbn; lia|].
  split; [apply rsound_falling|]. split; [apply rsound_falling|]. apply rsound_warmer.
Qed.
Example real_zero nan : real_dcape nan rsound = 0.
Proof. destruct real_case as [H1 [H2 [H3 [H4 [H5 H6]]]]]. apply (dcape_real_sign nan rsound top H1 H2 H3 H4 H5). exact H6. Qed.
Example parcel_case : 0 < lp RF top /\ snd top <= snd (fst top) /\ -100 <= snd (fst top) /\ falling RF rsound.
Proof. unfold lp, top. cbn [fst snd]. repeat split; try lra; apply rsound_falling. Qed.

Print Assumptions dcape_profile_value.
Print Assumptions dcape_nan_or_nonnegative.
Print Assumptions dcape_few_levels_nan.
Print Assumptions dcape_ignores_unusable.
Print Assumptions dcape_upside_down.
Print Assumptions dcape_grid_columns.
Print Assumptions dcape_dispatch.
Print Assumptions dcape_upside_down_same_ends_refuted.
Print Assumptions dcape_order_matters_refuted.
Print Assumptions dcape_start_coldest.
Print Assumptions dcape_start_missing.
Print Assumptions dcape_levels_below_start.
Print Assumptions dcape_one_level_nan.
Print Assumptions dcape_real_value.
Print Assumptions dcape_real_sign.
Print Assumptions dcape_parcel_warms.
Print Assumptions dcape_lcl.
Print Assumptions dcape_moist_rate.
Print Assumptions dcape_rk4_cubic.
Print Assumptions dcape_rk4_linear.
