(** C39, C40, C61: the WMO tropopause. *)
From Coq Require Import Reals Lra.
From Verif Require Import Base Buffer VH_Model AX_Model AX_Spec NdArray TP_Model TP_Spec TP_Proofs TP_Proofs2 TP_Proofs3 TP_Proofs4 TP_Std.
Local Close Scope Qc_scope.
Local Open Scope nat_scope.

(** ** C39: the search *)
(** In every arithmetic: the search reads and writes inside its arrays, and
    reports the first tropopause from below, or nothing when there is none,
    whatever the work arrays contain on entry. *)
Theorem search_first_tropopause :
  forall (A : fl) (p t : list A) (tmsg crit : A) (lapse phalf : list A),
  length t = length p -> length p - 1 <= length lapse -> length p - 1 <= length phalf ->
  fltb A (fc A 1000000000 1) crit = false ->
  exists ptrop itrop work, dstattrop A p t tmsg crit lapse phalf = Some (ptrop, itrop, work) /\
    (forall k r h, layer A p t k r h -> nth_error work k = Some r) /\
    ((exists k q, first_tropopause A p t crit k q /\ ptrop = fmax A q (fc A 85 1) /\ itrop = Z.of_nat (k + 1)) \/
     ((forall k q, ~ tropopause A p t crit k q) /\ ptrop = tmsg /\ itrop = (-999)%Z)).
Proof. intros. apply dstattrop_ok; auto. Qed.
Print Assumptions search_first_tropopause.

(** at most one level and pressure is the first tropopause *)
Theorem first_tropopause_determined :
  forall (A : fl) (crit : A) (p t : list A) k q k' q',
  first_tropopause A p t crit k q -> first_tropopause A p t crit k' q' -> k = k' /\ q = q'.
Proof. exact first_fun. Qed.
Print Assumptions first_tropopause_determined.

(** A column with log and exp replaced by the identity: rates from the top are
    0, 0, 34.2, 34.2 and the level with the crossing is rejected; work arrays
    filled with junk. *)
Definition idq : Qc -> Qc := fun x => x.
Definition demo_p : list Qc := map qz [100; 200; 300; 400; 500]%Z.
Definition demo_t : list Qc := map qz [200; 200; 200; 300; 400]%Z.
Example search_demo :
  option_map (fun r => (this (fst (fst r)), snd (fst r), map this (snd r)))
    (dstattrop (QF idq idq) demo_p demo_t (qz (-999)) (qz 2) (map qz [7; 7; 7; 7; 7; 7]%Z) (map qz [5; 5; 5; 5; 5; 5]%Z)) =
  Some (this (qz 150), 1%Z,
        map this [0; 0; (dec 1000 1 * dec 980665 100000 / dec 28704 100); (dec 1000 1 * dec 980665 100000 / dec 28704 100); qz 7; qz 7]%Qc).
Proof. vm_compute. reflexivity. Qed.
Example search_hypotheses : length demo_t = length demo_p /\ fltb (QF idq idq) (fc (QF idq idq) 1000000000 1) (qz 2) = false.
Proof. split; reflexivity. Qed.
(** and one without a tropopause *)
Example search_none_demo :
  option_map (fun r => (this (fst (fst r)), snd (fst r)))
    (dstattrop (QF idq idq) demo_p (map qz [200; 300; 400; 500; 600]%Z) (qz (-999)) (qz 2) demo_p demo_p) =
  Some (this (qz (-999)), (-999)%Z).
Proof. vm_compute. reflexivity. Qed.

(** ** C39, C40: the drivers, pressures in hPa *)
(** In every arithmetic in which the result is told apart from the marker: a
    column with a missing value, or without a tropopause, has all outputs
    missing and success 0; any other column has success 1 and the outputs of its
    first tropopause (the lapse rate being left missing at level 0). *)
Theorem column_hpa :
  forall (A : fl) (hgt : A -> A) (p t : list A) (tmsg crit : A) (lapse phalf : list A),
  length t = length p -> length p - 1 <= length lapse -> length p - 1 <= length phalf ->
  fltb A (fc A 1000000000 1) crit = false ->
  (forall q, fltb A (fc A 1 10000000000) (fabs A (fsub A (fmax A q (fc A 85 1)) tmsg)) = true) ->
  fltb A (fc A 1 10000000000) (fabs A (fsub A tmsg tmsg)) = false ->
  exists res, grid_column A hgt p t tmsg crit 0 lapse phalf = Some res /\
    ((exists k q, (forall x, In x p \/ In x t -> is_missing A tmsg x = false) /\ first_tropopause A p t crit k q /\
        r_pressure A res = fmax A q (fc A 85 1) /\ r_height A res = dstdatmp A hgt (fmax A q (fc A 85 1)) /\
        r_index A res = Z.of_nat k /\ (k = 0 -> r_lapse A res = tmsg) /\
        (forall r h, 0 < k -> layer A p t k r h -> r_lapse A res = r) /\ r_success A res = 1%Z) \/
     (((exists x, (In x p \/ In x t) /\ is_missing A tmsg x = true) \/ forall k q, ~ tropopause A p t crit k q) /\
      res = missing_result A tmsg)).
Proof.
  intros A hgt p t tmsg crit lapse phalf LT L1 L2 CR H1 H2. unfold grid_column.
  assert (BAD : forall l, all_present A tmsg l = false -> exists x, In x l /\ is_missing A tmsg x = true).
  { induction l as [|a l IH]; cbn [all_present]; [discriminate|]. destruct (is_missing A tmsg a) eqn:E; [exists a; cbn; auto|].
    intros X. destruct (IH X) as (x & I & M). exists x. cbn. auto. }
  destruct (all_present A tmsg t) eqn:AT.
  2: { eexists. split; [reflexivity|]. right. split; [|reflexivity]. left. destruct (BAD t AT) as (x & I & M). exists x. auto. }
  destruct (all_present A tmsg p) eqn:AP.
  2: { eexists. split; [reflexivity|]. right. split; [|reflexivity]. left. destruct (BAD p AP) as (x & I & M). exists x. auto. }
  destruct (solve_hpa A hgt tmsg crit CR p t lapse phalf LT L1 L2 H1 H2) as (res & -> & D).
  exists res. split; [reflexivity|]. destruct D as [(k & q & D)|(N & ->)]; [|right; auto].
  left. exists k, q. split; [|exact D]. pose proof (proj1 (all_present_ok A hgt tmsg t) AT) as XT. pose proof (proj1 (all_present_ok A hgt tmsg p) AP) as XP.
  intros x [I|I]; auto.
Qed.
Print Assumptions column_hpa.

(** In exact arithmetic, with a criterion below 1e9 and a marker below 85:
    success is 1 exactly when the column is complete and has a tropopause, the
    pressure is then at least 85 hPa and otherwise it is the marker. *)
Theorem success_hpa :
  forall (hgt : R -> R) (p t : list R) (tmsg crit : R) (lapse phalf : list R),
  length t = length p -> length p - 1 <= length lapse -> length p - 1 <= length phalf ->
  (crit <= 1000000000)%R -> (tmsg < 85 - 1 / 10000000000)%R ->
  exists res, grid_column RF hgt p t tmsg crit 0 lapse phalf = Some res /\
    (r_success RF res = 1%Z <->
       (forall x, In x p \/ In x t -> is_missing RF tmsg x = false) /\ exists k q, tropopause RF p t crit k q) /\
    (r_success RF res = 1%Z -> (85 <= r_pressure RF res)%R) /\
    (r_success RF res <> 1%Z -> res = missing_result RF tmsg).
Proof.
  intros hgt p t tmsg crit lapse phalf LT L1 L2 CR TM.
  destruct (column_hpa RF hgt p t tmsg crit lapse phalf LT L1 L2 (crit_small crit CR) (fun q => found_seen tmsg q TM) (missing_seen tmsg)) as (res & E & D).
  exists res. split; [exact E|]. destruct D as [(k & q & PR & T & P & _ & _ & _ & _ & S)|(N & ->)].
  - split; [|split].
    + split; [|auto]. intros _. split; [exact PR|]. exists k, q. apply T.
    + intros _. rewrite P. cbn. unfold Rmax. destruct (Rle_dec q (85 / 1)); lra.
    + intros X. contradiction.
  - split; [|split].
    + cbn. split; [discriminate|]. intros [PR (k & q & T)]. exfalso. destruct N as [(x & I & M)|N]; [pose proof (eq_trans (eq_sym M) (PR x I)); discriminate|apply (N k q T)].
    + cbn. discriminate.
    + reflexivity.
Qed.
Print Assumptions success_hpa.
Example success_hpa_hypotheses : length iso_t = length iso_p /\ (2 <= 1000000000)%R /\ (-999 < 85 - 1 / 10000000000)%R /\ tropopause RF iso_p iso_t 2%R 2 600%R.
Proof. split; [reflexivity|]. split; [lra|]. split; [lra|]. apply iso_ok. Qed.
Example column_demo :
  option_map (fun r => (this (r_pressure (QF idq idq) r), this (r_height (QF idq idq) r), r_index (QF idq idq) r, this (r_lapse (QF idq idq) r), r_success (QF idq idq) r))
    (grid_column (QF idq idq) (fun x => (qz 2 * x)%Qc) demo_p (map qz [200; 200; 200; 200; 200]%Z) (qz (-999)) (qz 2) 0 demo_p demo_p) =
  Some (this (qz 350), this (qz 700), 2%Z, this 0%Qc, 1%Z).
Proof. vm_compute. reflexivity. Qed.

(** the outputs do not depend on what the work arrays hold, and the profile
    routine agrees with the gridded ones *)
Theorem column_work_independent :
  forall (A : fl) (hgt : A -> A) (tmsg crit : A), fltb A (fc A 1000000000 1) crit = false ->
  forall (p t : list A) (punit : Z) (lapse phalf lapse' phalf' : list A),
  length t = length p -> length p - 1 <= length lapse -> length p - 1 <= length phalf ->
  length p - 1 <= length lapse' -> length p - 1 <= length phalf' ->
  grid_column A hgt p t tmsg crit punit lapse phalf = grid_column A hgt p t tmsg crit punit lapse' phalf'.
Proof. exact column_indep. Qed.
Print Assumptions column_work_independent.
Theorem profile_is_column :
  forall (A : fl) (hgt : A -> A) (tmsg crit : A) (p t : list A) (punit : Z) (lapse phalf : list A),
  length t = length p ->
  profile_1d A hgt p t tmsg crit punit lapse phalf = grid_column A hgt p t tmsg crit punit lapse phalf.
Proof. exact profile_agrees. Qed.
Print Assumptions profile_is_column.
Example profile_demo :
  option_map (fun r => (this (r_pressure (QF idq idq) r), r_success (QF idq idq) r))
    (profile_1d (QF idq idq) idq demo_p (map qz [200; 200; 200; 200; -999]%Z) (qz (-999)) (qz 2) 0 demo_p demo_p) = Some (this (qz (-999)), 0%Z).
Proof. vm_compute. reflexivity. Qed.

(** the gridded routines give every point the result of its column, in either
    unit *)
Theorem grids_are_columns :
  forall (A : fl) (hgt : A -> A) (tmsg crit : A) (p : list A) (punit : Z) (nlat nlon ntime : nat)
         (t : nat -> nat -> nat -> list A) (lapse phalf : nat -> nat -> nat -> list A),
  fltb A (fc A 1000000000 1) crit = false ->
  (forall u i j, 1 <= u <= ntime -> 1 <= i <= nlat -> 1 <= j <= nlon ->
     length (t u i j) = length p /\ length p - 1 <= length (lapse u i j) /\ length p - 1 <= length (phalf u i j)) ->
  (exists out, tropopause_grid_4d A hgt nlat nlon ntime p t tmsg crit punit lapse phalf = Some out /\
     forall u i j, 1 <= u <= ntime -> 1 <= i <= nlat -> 1 <= j <= nlon ->
       grid_column A hgt p (t u i j) tmsg crit punit (lapse u i j) (phalf u i j) = Some (out u i j)) /\
  (forall u, 1 <= u <= ntime ->
   exists out, tropopause_grid_3d A hgt nlat nlon p (t u) tmsg crit punit (lapse u) (phalf u) = Some out /\
     forall i j, 1 <= i <= nlat -> 1 <= j <= nlon ->
       grid_column A hgt p (t u i j) tmsg crit punit (lapse u i j) (phalf u i j) = Some (out i j)) /\
  (forall u i, 1 <= u <= ntime -> 1 <= i <= nlat ->
   exists out, tropopause_grid_2d A hgt nlon p (t u i) tmsg crit punit (lapse u i) (phalf u i) = Some out /\
     forall j, 1 <= j <= nlon ->
       grid_column A hgt p (t u i j) tmsg crit punit (lapse u i j) (phalf u i j) = Some (out j)).
Proof.
  intros A hgt tmsg crit p punit nlat nlon ntime t lapse phalf CR SH.
  assert (TOT : forall u i j, 1 <= u <= ntime -> 1 <= i <= nlat -> 1 <= j <= nlon ->
    exists r, grid_column A hgt p (t u i j) tmsg crit punit (lapse u i j) (phalf u i j) = Some r).
  { intros u i j Hu Hi Hj. destruct (SH u i j Hu Hi Hj) as (S1 & S2 & S3). apply column_total; auto. }
  split; [|split].
  - apply grid4_ok; auto.
  - intros u Hu. apply grid3_ok; auto.
  - intros u i Hu Hi. apply grid2_ok; auto.
Qed.
Print Assumptions grids_are_columns.
Example grids_demo :
  option_map (fun g => map (fun ij => this (r_pressure (QF idq idq) (g (fst ij) (snd ij)))) [(1, 1); (1, 2)])
    (tropopause_grid_3d (QF idq idq) idq 1 2 demo_p
       (fun i j => if j =? 1 then map qz [200; 200; 200; 200; 200]%Z else map qz [200; 300; 400; 500; 600]%Z)
       (qz (-999)) (qz 2) 0 (fun _ _ => demo_p) (fun _ _ => demo_p)) = Some [this (qz 350); this (qz (-999))].
Proof. vm_compute. reflexivity. Qed.

(** trop_wmo as a whole (any axis order, levels in any order): the axis
    bookkeeping of AX_Model around these columns; see trop_wmo_columns. *)

(** ** Where the reported pressure lies *)
(** When the lapse rate does cross the criterion between the two layers, the
    crossing is between their middles. *)
Theorem crossing_in_between :
  forall (p t : list R) (crit : R) k q r h r' h', (forall x, In x p -> (0 < x)%R) ->
  layer RF p t k r h -> layer RF p t (k + 1) r' h' -> crossing RF p t crit k q ->
  (r < crit <= r')%R -> (h < h')%R -> (h < q <= h')%R.
Proof. exact crossing_between. Qed.
Print Assumptions crossing_in_between.
Example crossing_in_between_hypotheses :
  (forall x, In x thin_p -> (0 < x)%R) /\ layer RF thin_p thin_t 2 1%R (2541 / 10)%R /\ layer RF thin_p thin_t (2 + 1) 5%R (27951 / 100)%R /\
  crossing RF thin_p thin_t 2%R 2 thin_q /\ (1 < 2 <= 5)%R /\ (2541 / 10 < 27951 / 100)%R.
Proof.
  split; [|split; [exact thin_layer2|split; [exact thin_layer3|split; [exact thin_crossing|lra]]]].
  intros x H. cbn in H. repeat (destruct H as [<-|H]; [lra|]). destruct H.
Qed.

Definition top_down (p : list R) : Prop :=
  forall i j x y, i < j -> nth_error p i = Some x -> nth_error p j = Some y -> (x < y)%R.
Lemma top_down_5 a b c d e : (a < b < c)%R -> (c < d < e)%R -> top_down [a; b; c; d; e].
Proof.
  intros H H' i j x y L X Y. destruct i as [|[|[|[|[|i]]]]], j as [|[|[|[|[|j]]]]]; try lia; cbn in X, Y; try discriminate;
    try (injection X as <-; injection Y as <-; lra); rewrite ?nth_error_nil in *; destruct j; discriminate.
Qed.
Lemma top_down_4 a b c d : (a < b < c)%R -> (c < d)%R -> top_down [a; b; c; d].
Proof.
  intros H H' i j x y L X Y. destruct i as [|[|[|[|i]]]], j as [|[|[|[|j]]]]; try lia; cbn in X, Y; try discriminate;
    try (injection X as <-; injection Y as <-; lra); destruct j; discriminate.
Qed.

(** The header promises "the lowest level above 450 hPa"; an isothermal column
    is given a tropopause at 600 hPa. *)
Theorem above_450_refuted :
  exists (p t : list R) k q, top_down p /\ length t = length p /\ first_tropopause RF p t 2%R k q /\ (450 < Rmax q 85)%R.
Proof.
  exists iso_p, iso_t, 2, 600%R. split; [apply top_down_5; lra|]. split; [reflexivity|]. split; [exact iso_ok|].
  unfold Rmax. destruct (Rle_dec 600 85); lra.
Qed.
Print Assumptions above_450_refuted.

(** When the layer below also cools slowly (it was rejected for another reason),
    the crossing is extrapolated: here level 1 (200 hPa) of a column with top at
    100 hPa is reported with pressure 85 hPa, above the whole column. *)
Theorem pressure_inside_column_refuted :
  exists (p t : list R) k q, top_down p /\ length t = length p /\ first_tropopause RF p t 2%R k q /\
    forall x, In x p -> (Rmax q 85 < x)%R.
Proof.
  exists out_p, out_t, 1, (75 / 2)%R. split; [apply top_down_4; lra|]. split; [reflexivity|]. split; [exact out_ok|].
  intros x H. unfold Rmax. destruct (Rle_dec (75 / 2) 85); [|lra]. cbn in H. repeat (destruct H as [<-|H]; [lra|]). destruct H.
Qed.
Print Assumptions pressure_inside_column_refuted.

(** The WMO definition asks that the mean rate between the level and all higher
    levels within 2 km does not exceed the criterion; the code only tests the
    mean over the whole 2 km. *)
Definition wmo_holds (p t : list R) (crit : R) (k : nat) (q : R) : Prop :=
  forall z m, two_km_above RF t k q z -> reaches RF p t z m k ->
  forall j rs, m <= j <= k -> rates RF p t j k rs -> (mean RF rs <= crit)%R.
Theorem wmo_definition_refuted :
  exists (p t : list R) k q, top_down p /\ length t = length p /\ first_tropopause RF p t 2%R k q /\ ~ wmo_holds p t 2%R k q.
Proof.
  exists thin_p, thin_t, 2, thin_q. split; [apply top_down_5; lra|]. split; [reflexivity|]. split; [exact thin_ok|].
  intros W. destruct thin_reaches as (z & Z1 & Z2).
  assert (H : (mean RF (1%R :: 9%R :: nil) <= 2)%R).
  { apply (W z 0 Z1 Z2 1); [lia|]. constructor; [eexists; exact thin_layer2|]. constructor; [eexists; exact thin_layer1|constructor]. }
  unfold mean in H. cbn in H. lra.
Qed.
Print Assumptions wmo_definition_refuted.

(** ** C40: pressures in Pa *)
(** With a unit flag other than 0 the missing marker is multiplied by 100 before
    it is tested, so every complete column has success 1; one without a
    tropopause then reports the marker as its pressure, and level -1000. *)
Theorem success_pa :
  forall (hgt : R -> R) (tmsg crit : R) (p t : list R) (punit : Z) (lapse phalf : list R),
  (punit =? 0)%Z = false -> (crit <= 1000000000)%R ->
  length t = length p -> length p - 1 <= length lapse -> length p - 1 <= length phalf ->
  (tmsg < 85)%R -> (1 / 10000000000 < 99 * Rabs tmsg)%R ->
  exists res, solve_column RF hgt p t tmsg crit punit lapse phalf = Some res /\ r_success RF res = 1%Z /\
    let pm := map (fun x => (x / 100)%R) p in
    ((exists k q, first_tropopause RF pm t crit k q /\ r_pressure RF res = Rmax q 85 /\ r_index RF res = Z.of_nat k) \/
     ((forall k q, ~ tropopause RF pm t crit k q) /\ r_pressure RF res = tmsg /\ r_index RF res = (-1000)%Z /\ r_lapse RF res = tmsg)).
Proof. exact pa_ok. Qed.
Print Assumptions success_pa.
Example success_pa_hypotheses : (1 =? 0)%Z = false /\ (-999 < 85)%R /\ (1 / 10000000000 < 99 * Rabs (-999))%R.
Proof. split; [reflexivity|]. split; [lra|]. rewrite Rabs_left; lra. Qed.

(** the flag does not agree with the outputs in Pa *)
Theorem success_flag_pa_refuted :
  exists (p t : list Qc) res, let A := QF idq idq in
    grid_column A idq p t (qz (-999)) (qz 2) 1 p p = Some res /\ length t = length p /\
    r_success A res = 1%Z /\ r_pressure A res = qz (-999) /\ r_height A res = qz (-999) /\
    r_lapse A res = qz (-999) /\ r_index A res = (-1000)%Z /\
    exists res', grid_column A idq (map (fun x => (x / qz 100)%Qc) p) t (qz (-999)) (qz 2) 0 p p = Some res' /\ r_success A res' = 0%Z.
Proof.
  exists (map (fun x => (x * qz 100)%Qc) demo_p), (map qz [200; 300; 400; 500; 600]%Z). eexists. cbv zeta.
  split; [vm_compute; reflexivity|]. split; [reflexivity|]. cbn [r_success r_pressure r_height r_lapse r_index].
  split; [reflexivity|]. do 3 (split; [apply Qc_is_canon; vm_compute; reflexivity|]). split; [reflexivity|].
  eexists. split; [vm_compute; reflexivity|]. reflexivity.
Qed.
Print Assumptions success_flag_pa_refuted.

(** a tropopause at the top level leaves the lapse rate missing *)
Theorem lapse_at_top_refuted :
  exists (p t : list Qc) res, let A := QF idq idq in
    grid_column A idq p t (qz (-999)) (qz 2) 0 p p = Some res /\ length t = length p /\
    r_success A res = 1%Z /\ r_index A res = 0%Z /\ r_lapse A res = qz (-999).
Proof.
  exists (map qz [100; 200; 300]%Z), (map qz [200; 200; 200]%Z). eexists. cbv zeta.
  split; [vm_compute; reflexivity|]. split; [reflexivity|]. cbn [r_success r_pressure r_height r_lapse r_index].
  split; [reflexivity|]. split; [reflexivity|]. apply Qc_is_canon. vm_compute. reflexivity.
Qed.
Print Assumptions lapse_at_top_refuted.

(** the profile routine does not sort its levels: the same column stored
    surface first gives another answer *)
Theorem profile_order_refuted :
  exists (p t : list Qc) r r', let A := QF idq idq in
    profile_1d A idq p t (qz (-999)) (qz 2) 0 p p = Some r /\
    profile_1d A idq (rev p) (rev t) (qz (-999)) (qz 2) 0 p p = Some r' /\
    length t = length p /\ r_success A r = 1%Z /\ r_success A r' = 1%Z /\ r_pressure A r <> r_pressure A r'.
Proof.
  exists demo_p, (map qz [200; 200; 200; 200; 200]%Z). do 2 eexists. cbv zeta.
  split; [vm_compute; reflexivity|]. split; [vm_compute; reflexivity|]. split; [reflexivity|]. cbn [r_success r_pressure].
  split; [reflexivity|]. split; [reflexivity|]. intros E. apply (f_equal this) in E. vm_compute in E. discriminate.
Qed.
Print Assumptions profile_order_refuted.

(** ** C61: height of a pressure in the standard atmosphere *)
(** Every pressure in the range is assigned a layer that contains it. *)
Theorem std_layer :
  forall p, (0 < p <= 101325 / 100)%R ->
  exists i b b', std_index p = Some i /\ 1 <= i <= 8 /\ pb_at i b /\ pb_at (i + 1) b' /\ (b' <= p <= b)%R /\ (i <> 1 -> (p < b)%R).
Proof. exact std_index_ok. Qed.
Print Assumptions std_layer.
(** The height falls as the pressure rises, except between the isothermal layer
    47-51 km and the layers above it, where it can rise by less than 0.22 mm
    because the tabulated base pressures are rounded. *)
Theorem std_height :
  forall p q, (0 < p < q)%R -> (q <= 101325 / 100)%R ->
  exists hp hq, stdp2z p = Some hp /\ stdp2z q = Some hq /\ (hq < hp + 22 / 100000)%R /\
    ((q < 66938874 / 100000000 \/ 66938874 / 100000000 <= p \/ 11090631 / 10000000 <= q)%R -> (hq < hp)%R).
Proof. exact heights. Qed.
Print Assumptions std_height.
(** At the base pressure of a layer the height is the tabulated base height. *)
Theorem std_height_base :
  forall i h g a b, 1 <= i <= 8 -> rd std_table i = Some (h, g, a, b) -> std_formula (h, g, a, b) b = h.
Proof. exact std_base. Qed.
Print Assumptions std_height_base.
(** So the claim itself is false: a lower pressure can have a lower height. *)
Theorem std_height_refuted :
  exists p q hp hq, (373 / 100000 <= p < q)%R /\ (q <= 101325 / 100)%R /\ stdp2z p = Some hp /\ stdp2z q = Some hq /\ (hp + 1 / 10000 < hq)%R.
Proof. exact drop. Qed.
Print Assumptions std_height_refuted.
Example std_height_hypotheses : std_index 500 = Some 1 /\ std_index 850 = Some 1 /\ std_index 100 = Some 2.
Proof.
  unfold std_index. cbn [rd nth_error std_table bind].
  assert (T : forall x y, (x < y)%R -> Rltb x y = true) by (intros; apply Rltb_true; auto).
  assert (N : forall x y, (y <= x)%R -> Rltb x y = false) by (intros; apply Rltb_false; auto).
  rewrite !(N (101325 / 100)%R) by lra. cbn [std_search rd std_table nth_error bind Nat.add].
  rewrite (N 500%R), (N 850%R), (T 100%R) by lra. rewrite (N 100%R) by lra. auto.
Qed.
