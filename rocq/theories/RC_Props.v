(** Theorems about the curvilinear remapping kernels: claims C62-C68 *)
From Verif Require Import Base Buffer Loops VH_Model VH_Proofs LM_Model LM_Spec TG_Model RC_Model RC_Spec RC_Proofs RC_Proofs2 RC_Proofs3 RC_Proofs4 RC_Proofs5 RC_Proofs6 RC_Proofs7 RC_Proofs8 RC_Grids.
Local Open Scope nat_scope.

(** * C62: every read is inside its array and the outputs have the requested shape *)
Theorem rcm2rgrid_safe : forall nxi nyi ngrd xi yi fi dist huge xmsg ncrit yo xo,
  exists r, drcm2rgrid nxi nyi ngrd xi yi fi dist huge xmsg ncrit yo xo = Some r /\
    (r = None <-> nxi <= 1 \/ nyi <= 1 \/ length xo <= 1 \/ length yo <= 1) /\
    (forall out, r = Some out -> length out = ngrd /\
       forall g plane, rd out g = Some plane -> length plane = length yo /\ forall j row, rd plane j = Some row -> length row = length xo).
Proof.
  intros. destruct (le_lt_dec nxi 1); [|destruct (le_lt_dec nyi 1); [|destruct (le_lt_dec (length xo) 1); [|destruct (le_lt_dec (length yo) 1)]]];
  try (rewrite drcm2rgrid_none by lia; exists None; split; [auto|split; [split; auto|discriminate]]; fail).
  destruct (drcm2rgrid_ok nxi nyi ngrd xi yi fi dist huge xmsg ncrit yo xo) as (out & E & _); auto. rewrite E. exists (Some out). split; auto. split. { split; [discriminate|lia]. }
  intros o O. inversion O; subst o. eapply drcm2rgrid_shape. eauto.
Qed.
Example rcm2rgrid_safe_case : shown (drcm2rgrid 4 4 2 evenx eveny holed taxi big miss 1 [qz 4; qz 5] [qz 1; qz 3; qz 4; qz 7; qz 9])
  = Some (Some [[[-999; 366 # 17; 22; 399 # 17; -999]; [-999; 782 # 29; 454 # 17; 843 # 29; -999]]; [[-999; 366 # 17; 22; 399 # 17; -999]; [-999; 782 # 29; 454 # 17; 843 # 29; -999]]])%Q.
Proof. vm_compute. reflexivity. Qed.
Theorem rgrid2rcm_safe : forall xi yi ngrd fi dist huge xmsg ncrit nyo nxo yo xo,
  exists r, drgrid2rcm xi yi ngrd fi dist huge xmsg ncrit nyo nxo yo xo = Some r /\
    (r = None <-> length xi <= 1 \/ length yi <= 1 \/ nxo <= 1 \/ nyo <= 1) /\
    (forall out, r = Some out -> length out = nyo /\
       forall j row, rd out j = Some row -> length row = nxo /\ forall i p, rd row i = Some p -> length p = ngrd).
Proof.
  intros. destruct (le_lt_dec (length xi) 1); [|destruct (le_lt_dec (length yi) 1); [|destruct (le_lt_dec nxo 1); [|destruct (le_lt_dec nyo 1)]]];
  try (rewrite drgrid2rcm_none by lia; exists None; split; [auto|split; [split; auto|discriminate]]; fail).
  destruct (drgrid2rcm_ok xi yi ngrd fi dist huge xmsg ncrit nyo nxo yo xo) as (out & E & L & R); auto. rewrite E. exists (Some out). split; auto. split. { split; [discriminate|lia]. }
  intros o O. inversion O; subst o. split; auto. intros j row J. destruct (R _ _ J) as [R1 R2]. split; auto. intros i p I. destruct (R2 _ _ I). auto.
Qed.
Example rgrid2rcm_safe_case : shown (drgrid2rcm ax3 ax3 2 holed taxi big miss 1 2 2 (fun _ _ => Q2Qc (1 # 2)) (fun i _ => if i =? 1 then qz 1 else Q2Qc (3 # 2)))
  = Some (Some [[[17; 144 # 11]; [35 # 2; 16]]; [[17; 144 # 11]; [35 # 2; 16]]])%Q.
Proof. vm_compute. reflexivity. Qed.
Theorem rcm2points_safe : forall nxi nyi ngrd xi yi fi dist xmsg dkm opt ncrit kval yo xo, length yo = length xo ->
  exists r, drcm2points nxi nyi ngrd xi yi fi dist xmsg dkm opt ncrit kval yo xo = Some r /\
    (r = None <-> nxi <= 1 \/ nyi <= 1 \/ length xo = 0) /\
    (forall out, r = Some out -> length out = length xo /\ forall n p, rd out n = Some p -> length p = ngrd).
Proof.
  intros * HL. destruct (le_lt_dec nxi 1) as [H|H1]; [|destruct (le_lt_dec nyi 1) as [H|H2]; [|destruct (le_lt_dec (length xo) 0) as [H|H3]]];
  try (unfold drcm2points; rewrite ?(proj2 (Nat.leb_le _ _) H), ?orb_true_r; exists None; split; [auto|split; [split; [intros _; lia|auto]|discriminate]]; fail).
  destruct (drcm2points_ok nxi nyi ngrd xi yi fi dist xmsg dkm opt ncrit kval yo xo) as (out & E & L & R); auto. rewrite E. exists (Some out). split; auto. split. { split; [discriminate|lia]. }
  intros o O. inversion O; subst o. split; auto. intros n p P. pose proof (rd_Some_bounds _ _ P). destruct (rd_Some xo (i := n)) as [x X]; [lia|]. destruct (rd_Some yo (i := n)) as [y Y]; [lia|].
  destruct (R _ _ _ _ X Y P) as (c & _ & ->). rewrite map_length, seq_length. auto.
Qed.
Example rcm2points_safe_case : shownp (drcm2points 4 4 2 evenx eveny holed taxi miss (qz 556) 1 1 1 [qz 4; qz 5] [qz 4; qz 3]) = Some (Some [[Some 22; Some (143 # 9)]; [Some (53 # 2); Some 28]])%Q.
Proof. vm_compute. reflexivity. Qed.

(** * C63, C64: the value at every target, whichever path is taken *)
Theorem rcm2rgrid_value : forall nxi nyi ngrd xi yi fi dist huge xmsg ncrit yo xo out,
  on_axes nxi nyi xi yi \/ ~ lines_ascending nxi nyi xi yi xo yo ->
  drcm2rgrid nxi nyi ngrd xi yi fi dist huge xmsg ncrit yo xo = Some (Some out) ->
  forall g j y plane row, rd out g = Some plane -> rd plane j = Some row -> rd yo j = Some y ->
  exists pre, length pre = length xo /\
    (forall i x v, rd xo i = Some x -> rd pre i = Some v ->
       curv_target nxi nyi xi yi (fun a b => fi a b g) dist xmsg tol_curv (Z.max 1 (Z.min 4 ncrit)) x y v) /\
    all_filled false 2 pre xmsg row.
Proof.
  intros * W H * G R Y. destruct (drcm2rgrid_sizes _ _ _ _ _ _ _ _ _ _ _ _ _ H) as (H1 & H2 & _). destruct (drcm2rgrid_row _ _ _ _ _ _ _ _ _ _ _ _ _ _ _ _ _ _ H G Y R) as (pre & (L & P) & F).
  exists pre. split; auto. split; auto. intros i x v X V. destruct (P _ _ X) as (e & c & S & E). rewrite V in E. inversion E. rewrite <- tol_curv_eq.
  destruct (whole_searches nxi nyi xi yi fi dist xmsg xo yo x y e c H1 H2 (whole_search_iff _ _ _ _ _ _ W) S) as [-> ->]. apply res_target; auto.
Qed.
Example rcm2rgrid_value_case :
  (on_axes 4 4 evenx eveny /\ shown (drcm2rgrid 4 4 2 evenx eveny holed taxi big miss 1 [qz 4; qz 5] [qz 1; qz 3; qz 4; qz 7; qz 9]) = Some (Some [[[-999; 366 # 17; 22; 399 # 17; -999]; [-999; 782 # 29; 454 # 17; 843 # 29; -999]]; [[-999; 366 # 17; 22; 399 # 17; -999]; [-999; 782 # 29; 454 # 17; 843 # 29; -999]]])%Q) /\
  (~ lines_ascending 6 6 shearx sheary [qz 6; qz 7] [qz 7; qz 6] /\ shown (drcm2rgrid 6 6 1 shearx sheary peak taxi big miss 1 [qz 7; qz 6] [qz 6; qz 7]) = Some (Some ([[0; 0]; [100; 0]] :: nil))%Q).
Proof.
  split; (split; [|vm_compute; reflexivity]). { apply even_axes. }
  { intros (_ & _ & _ & A). specialize (A 1 2 (qz 7) (qz 6) ltac:(lia) eq_refl eq_refl). vm_compute in A. discriminate. }
Qed.
(** an exact hit, any grid *)
Theorem rcm2rgrid_exact : forall nxi nyi ngrd xi yi fi dist huge xmsg ncrit yo xo out,
  on_axes nxi nyi xi yi \/ ~ lines_ascending nxi nyi xi yi xo yo ->
  drcm2rgrid nxi nyi ngrd xi yi fi dist huge xmsg ncrit yo xo = Some (Some out) ->
  forall g i j x y ix iy v, rd xo i = Some x -> rd yo j = Some y -> 1 <= ix <= nxi -> 1 <= iy <= nyi ->
  within tol_curv x (xi ix iy) -> within tol_curv y (yi ix iy) ->
  (forall jx jy, 1 <= jx <= nxi -> 1 <= jy <= nyi -> within tol_curv x (xi jx jy) -> within tol_curv y (yi jx jy) -> (jx, jy) = (ix, iy)) ->
  fi ix iy g <> xmsg -> entry out g j i = Some v -> v = fi ix iy g.
Proof.
  intros * W H * X Y IX IY WX WY U N E. destruct (drcm2rgrid_sizes _ _ _ _ _ _ _ _ _ _ _ _ _ H) as (H1 & H2 & _).
  destruct (entry_filled _ _ _ _ _ _ _ _ _ _ _ _ _ _ _ _ _ _ _ H X Y E) as (pre & (L & P) & F). destruct (P _ _ X) as (e & c & S & V).
  rewrite (exact_search nxi nyi xi yi fi dist xmsg xo yo x y e c ix iy H1 H2 W S IX IY WX WY U) in V.
  apply (filled_kept pre xmsg (i - 1)); auto. apply rd_nth in V as [_ V]. rewrite V. f_equal. unfold res. cbn [node_of]. destruct (Qceqb_spec (fi ix iy g) xmsg); [tauto|auto].
Qed.
Example rcm2rgrid_exact_case :
  ~ lines_ascending 6 6 shearx sheary [qz 6; qz 7] [qz 7; qz 6] /\
  option_map (option_map (fun o => option_map this (entry o 1 2 1))) (drcm2rgrid 6 6 1 shearx sheary peak taxi big miss 1 [qz 7; qz 6] [qz 6; qz 7]) = Some (Some (Some 100%Q)) /\
  within tol_curv (qz 6) (shearx 6 6) /\ within tol_curv (qz 6) (sheary 6 6) /\ peak 6 6 1 <> miss /\
  forall jx jy, 1 <= jx <= 6 -> 1 <= jy <= 6 -> within tol_curv (qz 6) (shearx jx jy) -> within tol_curv (qz 6) (sheary jx jy) -> (jx, jy) = (6, 6).
Proof.
  split.
  { intros (_ & _ & _ & A). specialize (A 1 2 (qz 7) (qz 6) ltac:(lia) eq_refl eq_refl). vm_compute in A. discriminate. }
  split; [vm_compute; reflexivity|]. split; [split; vm_compute; discriminate|]. split; [split; vm_compute; discriminate|].
  split. { intros C. apply (f_equal this) in C. vm_compute in C. discriminate. }
  intros jx jy J1 J2 [X1 X2] [Y1 Y2]. unfold shearx, sheary, iq, zn in *.
  assert (T1 : (tol_curv < qz 1)%Qc) by reflexivity.
  assert (A : forall u v, (qz u - tol_curv <= qz v)%Qc -> (u <= v)%Z).
  { intros u v H. destruct (Z.le_gt_cases u v); auto. exfalso. assert (L : (qz (v + 1) <= qz u)%Qc) by (apply qz_le; lia). rewrite qz_add in L. qclra. }
  assert (B : forall u v, (qz v <= qz u + tol_curv)%Qc -> (v <= u)%Z).
  { intros u v H. destruct (Z.le_gt_cases v u); auto. exfalso. assert (L : (qz (u + 1) <= qz v)%Qc) by (apply qz_le; lia). rewrite qz_add in L. qclra. }
  apply A in X1, Y1. apply B in X2, Y2. f_equal; lia.
Qed.
(** on two spaced axes every node is reproduced *)
Theorem rcm2rgrid_nodes : forall nxi nyi ngrd xi yi fi dist huge xmsg ncrit yo xo out,
  on_axes nxi nyi xi yi -> drcm2rgrid nxi nyi ngrd xi yi fi dist huge xmsg ncrit yo xo = Some (Some out) ->
  forall g i j ix iy v, 1 <= ix <= nxi -> 1 <= iy <= nyi -> rd xo i = Some (xi ix iy) -> rd yo j = Some (yi ix iy) ->
  fi ix iy g <> xmsg -> entry out g j i = Some v -> v = fi ix iy g.
Proof.
  intros * W H * IX IY X Y N E. assert (T0 : (0 <= tol_curv)%Qc) by (vm_compute; discriminate).
  eapply rcm2rgrid_exact; eauto; try (split; qclra).
  intros jx jy J1 J2 W1 W2. destruct W as (x & y & (_ & _ & SEP) & SX & SY).
  destruct (SEP ix iy IX IY) as [A1 A2]. destruct (SEP jx jy J1 J2) as [B1 B2].
  assert (jx = ix). { symmetry. apply (spaced_near_unique tol_curv x (xi ix iy) ix jx (xi ix iy) (xi jx jy)); auto. }
  assert (jy = iy). { symmetry. apply (spaced_near_unique tol_curv y (yi ix iy) iy jy (yi ix iy) (yi jx jy)); auto. } congruence.
Qed.
Example rcm2rgrid_nodes_case : on_axes 4 4 evenx eveny /\ qz 4 = evenx 2 2 /\ qz 4 = eveny 2 2 /\
  option_map (option_map (fun o => option_map this (entry o 1 1 3))) (drcm2rgrid 4 4 2 evenx eveny holed taxi big miss 1 [qz 4; qz 5] [qz 1; qz 3; qz 4; qz 7; qz 9]) = Some (Some (Some (this (holed 2 2 1)))).
Proof. split; [apply even_axes|]. repeat split; try (apply Qc_is_canon; reflexivity). Qed.
(** the two paths give the same point, and the batch walk gives the anchors of the single search *)
Theorem rcm2rgrid_paths : forall nxi nyi ngrd xi yi fi dist huge xmsg ncrit x y gx gy xo yo,
  2 <= nxi -> 2 <= nyi -> on_axes nxi nyi xi yi ->
  earliest_stride_candidate (map (fun ix => xi ix 1) (seq 1 nxi)) xo 2 = Some gx ->
  earliest_stride_candidate (map (fun iy => yi 1 iy) (seq 1 nyi)) yo 2 = Some gy ->
  rcm2rgrid_point nxi nyi ngrd xi yi fi dist huge xmsg true ncrit gx gy xo yo =
  rcm2rgrid_point nxi nyi ngrd xi yi fi dist huge xmsg false ncrit x y xo yo.
Proof.
  intros * HX HY (ax & ay & SEP & SX & SY) G1 G2. rewrite !point_ok by auto. do 2 f_equal. rewrite <- tol_curv_eq in *.
  destruct (sep_refs nxi nyi xi yi _ _ HX HY SEP) as [-> ->]. assert (E0 : (0 <= eps_curv)%Qc) by (vm_compute; discriminate).
  pose proof (spaced_ascending _ _ E0 SX) as AX. pose proof (spaced_ascending _ _ E0 SY) as AY. fold (xr nxi xi) in G1. fold (yr nyi yi) in G2.
  assert (AN : forall l v g, ascending l -> 2 <= length l -> earliest_stride_candidate l v 2 = Some g -> anchored l 2 v g).
  { intros l v g A L E. destruct (le_lt_dec (length l) 2) as [C|C].
    - left. split; auto. unfold earliest_stride_candidate in E. rewrite (proj2 (Nat.leb_le _ _) C) in E. congruence.
    - right. destruct (earliest_ok l v 2) as (b & B1 & B2); auto. exists b. split; auto. congruence. }
  apply AN in G1; auto; [|rewrite xr_length; auto]. apply AN in G2; auto; [|rewrite yr_length; auto].
  assert (E : e_loc nxi nyi xi yi gx gy xo yo = e_full nxi nyi xi yi xo yo) by (eapply local_exact_full; eauto).
  assert (C : c_loc nxi nyi xi yi 2 gx gy xo yo = c_full nxi nyi xi yi 2 xo yo) by (eapply local_cell_full; eauto).
  rewrite E, C. unfold pick_e, pick_c. destruct (e_full nxi nyi xi yi xo yo), (c_full nxi nyi xi yi 2 xo yo); auto.
Qed.
Example rcm2rgrid_paths_case : on_axes 4 4 evenx eveny /\
  earliest_stride_candidate (map (fun ix => evenx ix 1) (seq 1 4)) (qz 7) 2 = Some 2 /\
  option_map (map this) (rcm2rgrid_point 4 4 2 evenx eveny holed taxi big miss true 1 2 2 (qz 7) (qz 7)) =
  option_map (map this) (rcm2rgrid_point 4 4 2 evenx eveny holed taxi big miss false 1 9 9 (qz 7) (qz 7)).
Proof. split; [apply even_axes|]. split; vm_compute; reflexivity. Qed.
Theorem batch_anchors : forall x values k, k = 2 -> ascending x -> 2 <= length x -> ascending values ->
  exists r, build_stride_candidates_increasing x values k = Some r /\ length r = length values /\
    forall i v, rd values i = Some v -> rd r i = earliest_stride_candidate x v k.
Proof.
  intros x values k -> A L AV. destruct (build_ok x values A L AV) as (r & E & LR & R). exists r. split; auto. split; auto. intros i v V. pose proof (rd_Some_bounds _ _ V).
  destruct (rd_Some r (i := i)) as [g G]; [lia|]. rewrite G. symmetry. destruct (R _ _ _ V G) as [[C ->]|(b & B & ->)].
  - unfold earliest_stride_candidate. rewrite (proj2 (Nat.leb_le _ _) C). auto.
  - destruct (le_lt_dec (length x) 2) as [C|C].
    + unfold earliest_stride_candidate. rewrite (proj2 (Nat.leb_le _ _) C). f_equal. unfold stride_index. destruct B as [B _]. lia.
    + destruct (earliest_ok x v 2) as (b' & E1 & E2); auto. rewrite E1. do 2 f_equal. apply (bracket_unique x v); auto.
Qed.
Example batch_anchors_case : ascending (even 6) /\ ascending [qz 1; qz 5; qz 7; qz 9; qz 30] /\
  build_stride_candidates_increasing (even 6) [qz 1; qz 5; qz 7; qz 9; qz 30] 2 = Some [1; 1; 2; 3; 4].
Proof. split; [apply increasing_ascending; reflexivity|]. split; [apply increasing_ascending; reflexivity|vm_compute; reflexivity]. Qed.
(** * C65: range, any grid and any targets *)
Theorem rcm2rgrid_range : forall nxi nyi ngrd xi yi fi dist huge xmsg ncrit yo xo out,
  drcm2rgrid nxi nyi ngrd xi yi fi dist huge xmsg ncrit yo xo = Some (Some out) ->
  forall g lo hi, (forall ix iy, 1 <= ix <= nxi -> 1 <= iy <= nyi -> fi ix iy g <> xmsg -> (lo <= fi ix iy g /\ fi ix iy g <= hi)%Qc) ->
  forall i j v, entry out g j i = Some v -> missing_or_between xmsg lo hi v.
Proof.
  intros * H * F * E. destruct (drcm2rgrid_sizes _ _ _ _ _ _ _ _ _ _ _ _ _ H) as (H1 & H2 & _).
  destruct (drcm2rgrid_shape _ _ _ _ _ _ _ _ _ _ _ _ _ H) as (_ & SH). pose proof E as E'. apply entry_some in E' as (plane & row & G & R & V). destruct (SH _ _ G) as [LP LR]. specialize (LR _ _ R).
  pose proof (rd_Some_bounds _ _ V). pose proof (rd_Some_bounds _ _ R). destruct (rd_Some xo (i := i)) as [x X]; [lia|]. destruct (rd_Some yo (i := j)) as [y Y]; [lia|].
  destruct (entry_filled _ _ _ _ _ _ _ _ _ _ _ _ _ _ _ _ _ _ _ H X Y E) as (pre & (L & P) & FL). apply (filled_range pre xmsg (i - 1)); auto.
  intros q u Q. assert (Q' : rd pre (S q) = Some u) by exact Q. pose proof (rd_Some_bounds _ _ Q'). destruct (rd_Some xo (i := S q)) as [xq XQ]; [lia|]. destruct (P _ _ XQ) as (e & c & S & U).
  rewrite Q' in U. inversion U. destruct (searches_bounds nxi nyi xi yi _ _ _ _ _ _ H1 H2 S) as [B1 B2]. apply (res_range nxi nyi); auto.
Qed.
(** the case of [rcm2rgrid_safe_case]: 11 <= field 1 <= 44 and all results are -999 or in between *)
Example rcm2rgrid_range_case : forall ix iy, 1 <= ix <= 4 -> 1 <= iy <= 4 -> holed ix iy 2 <> miss -> (qz 11 <= holed ix iy 2 /\ holed ix iy 2 <= qz 44)%Qc.
Proof. intros ix iy I1 I2 N. unfold holed in *. destruct ((2 =? 2) && (ix =? 2) && (iy =? 2)); [tauto|]. unfold zn. split; apply qz_le; lia. Qed.
Theorem rgrid2rcm_range : forall xi yi ngrd fi dist huge xmsg ncrit nyo nxo yo xo out, (0 < huge)%Qc ->
  drgrid2rcm xi yi ngrd fi dist huge xmsg ncrit nyo nxo yo xo = Some (Some out) ->
  forall g lo hi, (forall ix iy, 1 <= ix <= length xi -> 1 <= iy <= length yi -> fi ix iy g <> xmsg -> (lo <= fi ix iy g /\ fi ix iy g <= hi)%Qc) ->
  forall i j v, entry out j i g = Some v -> missing_or_between xmsg lo hi v.
Proof.
  intros * HH H * F * E. destruct (drgrid2rcm_sizes _ _ _ _ _ _ _ _ _ _ _ _ _ H) as (H1 & H2 & _). destruct (drgrid2rcm_entry _ _ _ _ _ _ _ _ _ _ _ _ _ _ _ _ _ H E) as (p & P & V & _).
  apply (rpoint_range xi yi ngrd fi dist huge xmsg (rfast xi yi) ncrit (xo i j) (yo i j) p g v lo hi); auto.
Qed.
Example rgrid2rcm_range_case : (0 < big)%Qc /\ forall ix iy, 1 <= ix <= length ax3 -> 1 <= iy <= length ax3 -> holed ix iy 2 <> miss -> (qz 11 <= holed ix iy 2 /\ holed ix iy 2 <= qz 33)%Qc.
Proof.
  split; [reflexivity|]. intros ix iy I1 I2 N. cbn [length ax3] in *. unfold holed in *. destruct ((2 =? 2) && (ix =? 2) && (iy =? 2)); [tauto|]. unfold zn. split; apply qz_le; lia.
Qed.
Theorem rcm2points_range : forall nxi nyi ngrd xi yi fi dist xmsg dkm opt ncrit kval yo xo out, length yo = length xo ->
  drcm2points nxi nyi ngrd xi yi fi dist xmsg dkm opt ncrit kval yo xo = Some (Some out) -> distinct_nodes nxi nyi xi yi ->
  forall g lo hi, 1 <= g <= ngrd -> (forall ix iy, 1 <= ix <= nxi -> 1 <= iy <= nyi -> fi ix iy g <> xmsg -> (lo <= fi ix iy g /\ fi ix iy g <= hi)%Qc) ->
  forall n x y p, rd xo n = Some x -> rd yo n = Some y -> rd out n = Some p -> separates nxi nyi xi yi dist x y ->
  exists v, rd p g = Some (Some v) /\ missing_or_between xmsg lo hi v.
Proof.
  intros * HL H DN * G F * X Y P SP. pose proof (rd_Some_bounds _ _ X).
  destruct (rcm2points_safe nxi nyi ngrd xi yi fi dist xmsg dkm opt ncrit kval yo xo HL) as (r & R & RN & _). rewrite H in R. inversion R; subst r.
  assert (HS : 2 <= nxi /\ 2 <= nyi). { assert (~ (nxi <= 1 \/ nyi <= 1 \/ length xo = 0)) by (intro; assert (Some out = None) by tauto; discriminate). lia. } destruct HS as [H1 H2].
  destruct (drcm2points_ok nxi nyi ngrd xi yi fi dist xmsg dkm opt ncrit kval yo xo) as (o & E & L & RR); auto; try lia. rewrite H in E. inversion E; subst o.
  destruct (RR _ _ _ _ X Y P) as (c & C & ->). rewrite rd_map_seq by auto.
  destruct (final_range nxi nyi xi yi fi dist xmsg (pfast nxi nyi xi yi (kof kval)) dkm opt ncrit (kof kval) x y c g lo hi) as (v & V & M); auto. exists v. split; auto. rewrite <- V. reflexivity.
Qed.
Example rcm2points_range_case : distinct_nodes 4 4 evenx eveny /\ (forall x y, separates 4 4 evenx eveny taxi x y) /\
  shownp (drcm2points 4 4 2 evenx eveny holed taxi miss (qz 556) 1 1 1 [qz 4; qz 5] [qz 4; qz 3]) = Some (Some [[Some 22; Some (143 # 9)]; [Some (53 # 2); Some 28]])%Q.
Proof. split; [apply even_distinct|]. split; [|vm_compute; reflexivity]. intros x y ix iy _ _ Z. apply taxi_zero in Z. auto. Qed.
(** * C63, C64 for the other two kernels *)
Theorem rgrid2rcm_value : forall xi yi ngrd fi dist huge xmsg ncrit nyo nxo yo xo out,
  spaced tol_regular xi -> spaced tol_regular yi -> (0 < huge)%Qc -> (1 <= ncrit)%Z ->
  drgrid2rcm xi yi ngrd fi dist huge xmsg ncrit nyo nxo yo xo = Some (Some out) ->
  forall i j g v, (forall ix iy a b, rd xi ix = Some a -> rd yi iy = Some b -> dist (yo i j) (xo i j) b a = 0%Qc -> yo i j = b /\ xo i j = a) ->
  entry out j i g = Some v -> regular_target xi yi (fun a b => fi a b g) dist xmsg tol_regular (xo i j) (yo i j) v.
Proof.
  intros * SX SY HH NC H * HD E. rewrite (drgrid2rcm_spaced _ _ _ _ _ _ _ _ _ _ _ _ _ _ _ _ _ SX SY H E). rewrite <- tol_regular_eq in *. apply rres_target; auto.
Qed.
Example rgrid2rcm_value_case : spaced tol_regular ax3 /\ (0 < big)%Qc /\ shown (drgrid2rcm ax3 ax3 2 holed taxi big miss 1 2 2 (fun _ _ => Q2Qc (1 # 2)) (fun i _ => if i =? 1 then qz 1 else Q2Qc (3 # 2))) = Some (Some [[[17; 144 # 11]; [35 # 2; 16]]; [[17; 144 # 11]; [35 # 2; 16]]])%Q.
Proof. split; [apply spacedb_spaced; vm_compute; reflexivity|]. split; [reflexivity|vm_compute; reflexivity]. Qed.
Theorem rgrid2rcm_paths : forall xi yi ngrd fi dist huge xmsg ncrit xo yo, 2 <= length xi -> 2 <= length yi ->
  spaced tol_regular xi -> spaced tol_regular yi ->
  rgrid2rcm_point xi yi ngrd fi dist huge xmsg true ncrit xo yo = rgrid2rcm_point xi yi ngrd fi dist huge xmsg false ncrit xo yo.
Proof. intros * HX HY SX SY. rewrite <- tol_regular_eq in *. rewrite !rpoint_spaced by auto. reflexivity. Qed.
Example rgrid2rcm_paths_case : spaced tol_regular ax3 /\
  option_map (map this) (rgrid2rcm_point ax3 ax3 2 holed taxi big miss true 1 1 (Q2Qc (1 # 2))) = Some [17; 144 # 11]%Q.
Proof. split; [apply spacedb_spaced; vm_compute; reflexivity|vm_compute; reflexivity]. Qed.
Theorem rgrid2rcm_nodes : forall xi yi ngrd fi dist huge xmsg ncrit nyo nxo yo xo out,
  spaced tol_regular xi -> spaced tol_regular yi ->
  drgrid2rcm xi yi ngrd fi dist huge xmsg ncrit nyo nxo yo xo = Some (Some out) ->
  forall i j g v ix iy, rd xi ix = Some (xo i j) -> rd yi iy = Some (yo i j) -> fi ix iy g <> xmsg -> entry out j i g = Some v -> v = fi ix iy g.
Proof.
  intros * SX SY H * X Y N E. rewrite (drgrid2rcm_spaced _ _ _ _ _ _ _ _ _ _ _ _ _ _ _ _ _ SX SY H E). rewrite <- tol_regular_eq in *.
  pose proof (rd_Some_bounds _ _ X). pose proof (rd_Some_bounds _ _ Y). rewrite (coincident_node xi yi 0 fi dist 0%Qc (xo i j) (yo i j) ix iy); auto; try (symmetry; apply get_rd; auto).
  unfold rres. cbn [node_of]. destruct (Qceqb_spec (fi ix iy g) xmsg); tauto.
Qed.
Example rgrid2rcm_nodes_case : spaced tol_regular ax3 /\ rd ax3 2 = Some 1%Qc /\ holed 2 3 1 <> miss /\
  shown (drgrid2rcm ax3 ax3 1 holed taxi big miss 1 2 2 (fun _ _ => qz 2) (fun _ _ => 1%Qc)) = Some (Some [[32 :: nil; 32 :: nil]; [32 :: nil; 32 :: nil]])%Q.
Proof.
  split; [apply spacedb_spaced; vm_compute; reflexivity|]. split; [reflexivity|]. split; [|vm_compute; reflexivity]. intros C. apply (f_equal this) in C. vm_compute in C. discriminate.
Qed.
Theorem rcm2points_value : forall nxi nyi ngrd xi yi fi dist xmsg dkm opt ncrit kval yo xo out, length yo = length xo ->
  drcm2points nxi nyi ngrd xi yi fi dist xmsg dkm opt ncrit kval yo xo = Some (Some out) -> distinct_nodes nxi nyi xi yi ->
  (exists ax ay, separable nxi nyi xi yi ax ay) ->
  forall g n x y p, 1 <= g <= ngrd -> rd xo n = Some x -> rd yo n = Some y -> rd out n = Some p -> separates nxi nyi xi yi dist x y ->
  exists v, rd p g = Some (Some v) /\
    points_target nxi nyi xi yi (fun a b => fi a b g) dist xmsg dkm opt ncrit (Z.to_nat (Z.max 1 kval)) x y v.
Proof.
  intros * HL H DN (ax & ay & SEP) * G X Y P SP. pose proof (rd_Some_bounds _ _ X).
  destruct (rcm2points_safe nxi nyi ngrd xi yi fi dist xmsg dkm opt ncrit kval yo xo HL) as (r & R & RN & _). rewrite H in R. inversion R; subst r.
  assert (HS : 2 <= nxi /\ 2 <= nyi). { assert (~ (nxi <= 1 \/ nyi <= 1 \/ length xo = 0)) by (intro; assert (Some out = None) by tauto; discriminate). lia. } destruct HS as [H1 H2].
  destruct (drcm2points_ok nxi nyi ngrd xi yi fi dist xmsg dkm opt ncrit kval yo xo) as (o & E & L & RR); auto; try lia. rewrite H in E. inversion E; subst o.
  destruct (RR _ _ _ _ X Y P) as (c & C & ->). rewrite rd_map_seq by auto.
  assert (KO : kof kval = Z.to_nat (Z.max 1 kval)). { unfold kof. destruct (Z.leb_spec kval 0); [rewrite Z.max_l by lia; reflexivity|f_equal; lia]. }
  assert (K1 : 1 <= kof kval) by (rewrite KO; lia).
  rewrite (points_cell_whole nxi nyi xi yi fi dist (kof kval) x y c ax ay H1 H2 SEP K1 C).
  destruct (final_target nxi nyi xi yi fi dist xmsg dkm opt ncrit (kof kval) x y g SP DN) as (v & V & T). exists v. split; [rewrite <- V; reflexivity|]. rewrite <- KO. exact T.
Qed.
Example rcm2points_value_case : distinct_nodes 4 4 evenx eveny /\ (exists ax ay, separable 4 4 evenx eveny ax ay) /\
  (forall x y, separates 4 4 evenx eveny taxi x y) /\
  shownp (drcm2points 4 4 2 evenx eveny holed taxi miss (qz 556) 2 1 1 [qz 4; qz 5] [qz 4; qz 3]) = Some (Some [[Some 22; Some (20724 # 865)]; [Some (53 # 2); Some 28]])%Q.
Proof.
  split; [apply even_distinct|]. split; [exists (even 4), (even 4); apply even_separable|]. split; [|vm_compute; reflexivity]. intros x y ix iy _ _ Z. apply taxi_zero in Z. auto.
Qed.
Theorem rcm2points_exact : forall nxi nyi ngrd xi yi fi dist xmsg dkm opt ncrit kval yo xo out, length yo = length xo ->
  drcm2points nxi nyi ngrd xi yi fi dist xmsg dkm opt ncrit kval yo xo = Some (Some out) ->
  forall g n p ix iy, 1 <= g <= ngrd -> 1 <= ix <= nxi -> 1 <= iy <= nyi -> rd xo n = Some (xi ix iy) -> rd yo n = Some (yi ix iy) ->
  (forall jx jy, 1 <= jx <= nxi -> 1 <= jy <= nyi -> xi jx jy = xi ix iy -> yi jx jy = yi ix iy -> (jx, jy) = (ix, iy)) ->
  fi ix iy g <> xmsg -> rd out n = Some p -> rd p g = Some (Some (fi ix iy g)).
Proof.
  intros * HL H * G IX IY X Y U N P. pose proof (rd_Some_bounds _ _ X).
  destruct (rcm2points_safe nxi nyi ngrd xi yi fi dist xmsg dkm opt ncrit kval yo xo HL) as (r & R & RN & _). rewrite H in R. inversion R; subst r.
  assert (HS : 2 <= nxi /\ 2 <= nyi). { assert (~ (nxi <= 1 \/ nyi <= 1 \/ length xo = 0)) by (intro; assert (Some out = None) by tauto; discriminate). lia. } destruct HS as [H1 H2].
  destruct (drcm2points_ok nxi nyi ngrd xi yi fi dist xmsg dkm opt ncrit kval yo xo) as (o & E & L & RR); auto; try lia. rewrite H in E. inversion E; subst o.
  destruct (RR _ _ _ _ X Y P) as (c & C & ->). rewrite rd_map_seq by auto. f_equal. eapply final_exact; eauto.
Qed.
Example rcm2points_exact_case : distinct_nodes 6 6 shearx sheary /\
  shownp (drcm2points 6 6 1 shearx sheary peak taxi miss (qz 556) 1 1 1 (qz 6 :: nil) (qz 6 :: nil)) = Some (Some ((Some 100 :: nil) :: nil))%Q.
Proof.
  split; [|vm_compute; reflexivity]. intros a b c d _ _ _ _ X Y. unfold shearx, sheary, iq, zn in *. apply qz_inj in X, Y. lia.
Qed.

Print Assumptions rcm2rgrid_safe.
Print Assumptions rgrid2rcm_safe.
Print Assumptions rcm2points_safe.
Print Assumptions rcm2rgrid_value.
Print Assumptions rcm2rgrid_exact.
Print Assumptions rcm2rgrid_nodes.
Print Assumptions rcm2rgrid_paths.
Print Assumptions batch_anchors.
Print Assumptions rcm2rgrid_range.
Print Assumptions rgrid2rcm_range.
Print Assumptions rcm2points_range.
Print Assumptions rgrid2rcm_value.
Print Assumptions rgrid2rcm_paths.
Print Assumptions rgrid2rcm_nodes.
Print Assumptions rcm2points_value.
Print Assumptions rcm2points_exact.
