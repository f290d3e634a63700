From Verif Require Import Base Buffer Loops VH_Model VH_Proofs LM_Model LM_Spec LM_Proofs LM_Proofs3 TG_Model RC_Model RC_Spec RC_Proofs RC_Proofs2.
Local Open Scope nat_scope.

(** * one axis: the windows around a bracket contain the first success *)
Section Axis.
Variables (x : list Qc) (v : Qc) (i : nat).
Hypothesis A : ascending x.
Hypothesis B : bracket x v i.
Lemma spaced_lt e j l a b : spaced e x -> (0 <= e)%Qc -> j < l -> rd x j = Some a -> rd x l = Some b -> (a + e < b)%Qc.
Proof.
  intros S E L Ha Hb. pose proof (rd_Some_bounds _ _ Ha). pose proof (rd_Some_bounds _ _ Hb). destruct (rd_Some x (i := j + 1)) as [c Ec]; [lia|].
  pose proof (S j a c Ha Ec). assert ((c <= b)%Qc) by (apply (asc_le x (j + 1) l); auto; lia). qclra.
Qed.
Lemma near_bracket e j a : spaced e x -> (0 <= e)%Qc -> rd x j = Some a -> near e v a = true -> i <= j <= i + 1.
Proof.
  intros S E Ha N. apply near_within in N as [N1 N2]. destruct B as (I & B1 & B2). pose proof (rd_Some_bounds _ _ Ha).
  destruct (Nat.lt_ge_cases j i) as [C|C].
  - exfalso. destruct (rd_Some x (i := i)) as [c Ec]; [lia|]. assert ((c <= v)%Qc) by (apply (B1 i c); auto; lia).
    assert ((a + e < c)%Qc) by (apply (spaced_lt e j i); auto). qclra.
  - destruct (Nat.le_gt_cases j (i + 1)) as [D|D]; [lia|]. exfalso. destruct (rd_Some x (i := i + 1)) as [c Ec]; [lia|].
    assert ((v < c)%Qc) by (apply (B2 (i + 1) c); auto; lia). assert ((c + e < a)%Qc) by (apply (spaced_lt e (i + 1) j); auto). qclra.
Qed.
Lemma cell_bracket k ix a b : 1 <= k -> ix + k <= length x -> rd x ix = Some a -> rd x (ix + k) = Some b -> (a <= v)%Qc -> (v <= b)%Qc ->
  exists j c d, Nat.max 1 (stride_index (length x) k i - 1) <= j <= Nat.min (length x - k) (stride_index (length x) k i + 2) /\ j <= ix /\
    rd x j = Some c /\ rd x (j + k) = Some d /\ (c <= v)%Qc /\ (v <= d)%Qc.
Proof.
  intros K L Ha Hb Va Vb. destruct B as (I & B1 & B2). pose proof (rd_Some_bounds _ _ Ha).
  assert (L1 : ix <= i). { destruct (Nat.le_gt_cases ix i); auto. exfalso. assert ((v < a)%Qc) by (apply (B2 ix a); auto; lia). qclra. }
  assert (L2 : i <= ix + k). { destruct (Nat.le_gt_cases i (ix + k)); auto. exfalso. destruct (rd_Some x (i := i)) as [c Ec]; [lia|].
    assert ((c <= v)%Qc) by (apply (B1 i c); auto; lia). assert ((b < c)%Qc) by (apply (A (ix + k) i); auto). qclra. }
  assert (G : stride_index (length x) k i = Nat.max 1 (i + 1 - k)) by (unfold stride_index; lia). rewrite G.
  destruct (Nat.le_gt_cases ix (Nat.max 1 (i + 1 - k) + 2)) as [C|C].
  - exists ix, a, b. repeat split; auto; lia.
  - set (g := Nat.max 1 (i + 1 - k)) in *. destruct (rd_Some x (i := g)) as [c Ec]; [lia|]. destruct (rd_Some x (i := g + k)) as [d Ed]; [lia|].
    exists g, c, d. repeat split; auto; try lia.
    + assert ((c <= a)%Qc) by (apply (asc_le x g ix); auto; lia). qclra.
    + assert ((v < d)%Qc) by (apply (B2 (g + k) d); auto; lia). qclra.
Qed.
End Axis.

(** the anchor of a target: 1 on a short axis, otherwise the stride index of its bracket *)
Definition anchored (x : list Qc) (k : nat) (v : Qc) (g : nat) : Prop :=
  length x <= k /\ g = 1 \/ exists b, bracket x v b /\ g = stride_index (length x) k b.
Lemma build_ok x values : ascending x -> 2 <= length x -> ascending values ->
  exists r, build_stride_candidates_increasing x values 2 = Some r /\ length r = length values /\
    forall i v g, rd values i = Some v -> rd r i = Some g -> anchored x 2 v g.
Proof.
  intros A L AV. unfold build_stride_candidates_increasing. destruct (Nat.leb_spec (length x) 2) as [C|C].
  - eexists. split; [reflexivity|]. split; [apply map_length|]. intros i v g Hv Hg. rewrite rd_map, Hv in Hg. inversion Hg. left. auto.
  - destruct (stride_walk_ok x 2 A L values 1 AV) as (r & E & Lr & R); try lia; try (intros; lia).
    exists r. repeat split; auto. intros i v g Hv Hg. right. eapply R; eauto.
Qed.

Section Separable.
Variables (nxi nyi ngrd : nat) (xi yi : nat -> nat -> Qc) (fi : nat -> nat -> nat -> Qc).
Variables (dist : Qc -> Qc -> Qc -> Qc -> Qc) (huge xmsg : Qc) (x y : list Qc).
Hypothesis SEP : separable nxi nyi xi yi x y.
Hypothesis AX : ascending x.
Hypothesis AY : ascending y.
Hypothesis NX : 2 <= nxi.
Hypothesis NY : 2 <= nyi.

Lemma sep_x ix iy : 1 <= ix <= nxi -> 1 <= iy <= nyi -> rd x ix = Some (xi ix iy) /\ xi ix iy = xi ix 1.
Proof. intros H1 H2. destruct SEP as (_ & _ & S). destruct (S ix iy H1 H2) as [E _]. destruct (S ix 1 H1 ltac:(lia)) as [E' _]. split; congruence. Qed.
Lemma sep_y ix iy : 1 <= ix <= nxi -> 1 <= iy <= nyi -> rd y iy = Some (yi ix iy) /\ yi ix iy = yi 1 iy.
Proof. intros H1 H2. destruct SEP as (_ & _ & S). destruct (S ix iy H1 H2) as [_ E]. destruct (S 1 iy ltac:(lia) H2) as [_ E']. split; congruence. Qed.

Lemma window_exact xo yo gx gy : spaced eps_curv x -> spaced eps_curv y -> anchored x 2 xo gx -> anchored y 2 yo gy ->
  first_pair (fun ix iy => pe xi yi eps_curv xo yo ix iy = true) nxi nyi (e_loc nxi nyi xi yi gx gy xo yo).
Proof.
  intros SX SY GX GY. assert (E0 : (0 <= eps_curv)%Qc) by (vm_compute; discriminate). destruct SEP as (LX & LY & _).
  unfold e_loc. apply find2_window with (px := fun ix => near eps_curv xo (xi ix 1)) (py := fun iy => near eps_curv yo (yi 1 iy)); try lia.
  - intros ix iy H1 H2. unfold pe. rewrite (proj2 (sep_x ix iy H1 H2)), (proj2 (sep_y ix iy H1 H2)). auto.
  - intros ix H1 H2. exists ix. split; [|auto]. destruct GX as [[G ->]|(b & Bb & ->)]; [lia|].
    assert (b <= ix <= b + 1) by (eapply (near_bracket x xo b AX Bb); eauto; apply (sep_x ix 1); lia).
    destruct Bb as (Ib & _). unfold stride_index. lia.
  - intros iy H1 H2. exists iy. split; [|auto]. destruct GY as [[G ->]|(b & Bb & ->)]; [lia|].
    assert (b <= iy <= b + 1) by (eapply (near_bracket y yo b AY Bb); eauto; apply (sep_y 1 iy); lia).
    destruct Bb as (Ib & _). unfold stride_index. lia.
Qed.
Lemma window_cell k xo yo gx gy : 1 <= k -> anchored x k xo gx -> anchored y k yo gy ->
  first_pair (fun ix iy => pc xi yi k xo yo ix iy = true) (nxi - k) (nyi - k) (c_loc nxi nyi xi yi k gx gy xo yo).
Proof.
  intros K GX GY. destruct SEP as (LX & LY & _).
  unfold c_loc. apply find2_window with (px := fun ix => Qcleb (xi ix 1) xo && Qcleb xo (xi (ix + k) 1)) (py := fun iy => Qcleb (yi 1 iy) yo && Qcleb yo (yi 1 (iy + k))); try lia.
  - intros ix iy H1 H2. unfold pc. rewrite (proj2 (sep_x ix iy ltac:(lia) ltac:(lia))), (proj2 (sep_x (ix + k) iy ltac:(lia) ltac:(lia))).
    rewrite (proj2 (sep_y ix iy ltac:(lia) ltac:(lia))), (proj2 (sep_y ix (iy + k) ltac:(lia) ltac:(lia))). auto.
  - intros ix H1 H2. destruct GX as [[G _]|(b & Bb & ->)]; [lia|].
    destruct (Qcleb_spec (xi ix 1) xo) as [C1|]; [|discriminate]. destruct (Qcleb_spec xo (xi (ix + k) 1)) as [C2|]; [|discriminate].
    destruct (cell_bracket x xo b AX Bb k ix (xi ix 1) (xi (ix + k) 1)) as (j & c & d & J1 & J2 & J3 & J4 & J5 & J6); auto; try lia.
    { apply (sep_x ix 1); lia. } { apply (sep_x (ix + k) 1); lia. }
    rewrite LX in *. exists j.
    split; [lia|]. split; auto. rewrite (proj1 (sep_x j 1 ltac:(lia) ltac:(lia))) in J3. rewrite (proj1 (sep_x (j + k) 1 ltac:(lia) ltac:(lia))) in J4.
    inversion J3; inversion J4; subst c d. destruct (Qcleb_spec (xi j 1) xo); [|exfalso; auto]. destruct (Qcleb_spec xo (xi (j + k) 1)); [|exfalso; auto]. auto.
  - intros iy H1 H2. destruct GY as [[G _]|(b & Bb & ->)]; [lia|].
    destruct (Qcleb_spec (yi 1 iy) yo) as [C1|]; [|discriminate]. destruct (Qcleb_spec yo (yi 1 (iy + k))) as [C2|]; [|discriminate].
    destruct (cell_bracket y yo b AY Bb k iy (yi 1 iy) (yi 1 (iy + k))) as (j & c & d & J1 & J2 & J3 & J4 & J5 & J6); auto; try lia.
    { apply (sep_y 1 iy); lia. } { apply (sep_y 1 (iy + k)); lia. }
    rewrite LY in *. exists j. split; [lia|]. split; auto. rewrite (proj1 (sep_y 1 j ltac:(lia) ltac:(lia))) in J3. rewrite (proj1 (sep_y 1 (j + k) ltac:(lia) ltac:(lia))) in J4.
    inversion J3; inversion J4; subst c d. destruct (Qcleb_spec (yi 1 j) yo); [|exfalso; auto]. destruct (Qcleb_spec yo (yi 1 (j + k))); [|exfalso; auto]. auto.
Qed.
Lemma local_exact_full xo yo gx gy : spaced eps_curv x -> spaced eps_curv y -> anchored x 2 xo gx -> anchored y 2 yo gy ->
  e_loc nxi nyi xi yi gx gy xo yo = e_full nxi nyi xi yi xo yo.
Proof. intros. eapply first_pair_unique; [apply window_exact; auto|]. apply find2_full. intros. tauto. Qed.
Lemma local_cell_full k xo yo gx gy : 1 <= k -> anchored x k xo gx -> anchored y k yo gy ->
  c_loc nxi nyi xi yi k gx gy xo yo = c_full nxi nyi xi yi k xo yo.
Proof. intros. eapply first_pair_unique; [apply window_cell; auto|]. apply find2_full. intros. tauto. Qed.
End Separable.

(** * the whole of drcm2rgrid *)
Section Whole.
Variables (nxi nyi ngrd : nat) (xi yi : nat -> nat -> Qc) (fi : nat -> nat -> nat -> Qc).
Variables (dist : Qc -> Qc -> Qc -> Qc -> Qc) (huge xmsg : Qc).
Definition xr := map (fun ix => xi ix 1) (seq 1 nxi).
Definition yr := map (fun iy => yi 1 iy) (seq 1 nyi).
Lemma x_ref_ok : 1 <= nyi -> x_ref nxi nyi xi = Some xr.
Proof. intros. apply mapM_seq_map. intros. apply at2_in; lia. Qed.
Lemma y_ref_ok : 1 <= nxi -> y_ref nxi nyi yi = Some yr.
Proof. intros. apply mapM_seq_map. intros. apply at2_in; lia. Qed.
Lemma xr_length : length xr = nxi. Proof. unfold xr. rewrite map_length, seq_length. auto. Qed.
Lemma yr_length : length yr = nyi. Proof. unfold yr. rewrite map_length, seq_length. auto. Qed.

Definition fast_of (xo yo : list Qc) : bool :=
  is_strictly_increasing xr && is_strictly_increasing yr && is_strictly_increasing xo && is_strictly_increasing yo.
(** the searches used at a target *)
Definition searches (xo yo : list Qc) (x y : Qc) (e c : hit) : Prop :=
  if fast_of xo yo
  then exists gx gy, anchored xr 2 x gx /\ anchored yr 2 y gy /\
         e = pick_e (e_loc nxi nyi xi yi gx gy x y) (c_loc nxi nyi xi yi 2 gx gy x y) (e_full nxi nyi xi yi x y) /\
         c = pick_c (c_loc nxi nyi xi yi 2 gx gy x y) (c_full nxi nyi xi yi 2 x y)
  else e = e_full nxi nyi xi yi x y /\ c = c_full nxi nyi xi yi 2 x y.
Definition row_pre (ncrit : Z) (xo yo : list Qc) (ng : nat) (y : Qc) (pre : list Qc) : Prop :=
  length pre = length xo /\ forall nx x, rd xo nx = Some x -> exists e c, searches xo yo x y e c /\
    rd pre nx = Some (res xi yi fi dist huge xmsg (Z.max 1 (Z.min 4 ncrit)) 2 x y e c ng).

Lemma drcm2rgrid_ok ncrit yo xo : 2 <= nxi -> 2 <= nyi -> 2 <= length xo -> 2 <= length yo ->
  exists out, drcm2rgrid nxi nyi ngrd xi yi fi dist huge xmsg ncrit yo xo = Some (Some out) /\ length out = ngrd /\
    forall ng plane, rd out ng = Some plane -> length plane = length yo /\
      forall ny y row, rd yo ny = Some y -> rd plane ny = Some row -> exists pre, row_pre ncrit xo yo ng y pre /\ all_filled false 2 pre xmsg row.
Proof.
  intros H1 H2 H3 H4. unfold drcm2rgrid.
  destruct (Nat.leb_spec nxi 1); [lia|]. destruct (Nat.leb_spec nyi 1); [lia|]. destruct (Nat.leb_spec (length xo) 1); [lia|]. destruct (Nat.leb_spec (length yo) 1); [lia|]. cbn [orb].
  rewrite x_ref_ok, y_ref_ok by lia. cbn [bind]. fold (fast_of xo yo).
  set (nc := Z.max 1 (Z.min 4 ncrit)).
  assert (AN : exists xa ya, (if fast_of xo yo then build_stride_candidates_increasing xr xo 2 else Some (map (fun _ => 1) xo)) = Some xa /\
      (if fast_of xo yo then build_stride_candidates_increasing yr yo 2 else Some (map (fun _ => 1) yo)) = Some ya /\ length xa = length xo /\ length ya = length yo /\
      (fast_of xo yo = true -> (forall i v g, rd xo i = Some v -> rd xa i = Some g -> anchored xr 2 v g) /\ (forall i v g, rd yo i = Some v -> rd ya i = Some g -> anchored yr 2 v g))).
  { destruct (fast_of xo yo) eqn:F.
    - unfold fast_of in F. apply andb_prop in F as [F F4]. apply andb_prop in F as [F F3]. apply andb_prop in F as [F1 F2].
      rewrite increasing_ascending in F1, F2, F3, F4.
      destruct (build_ok xr xo) as (xa & E1 & L1 & R1); auto. { rewrite xr_length. auto. }
      destruct (build_ok yr yo) as (ya & E2 & L2 & R2); auto. { rewrite yr_length. auto. }
      exists xa, ya. repeat split; auto.
    - exists (map (fun _ => 1) xo), (map (fun _ => 1) yo). rewrite !map_length. repeat split; auto; discriminate. }
  destruct AN as (xa & ya & E1 & E2 & L1 & L2 & AN). rewrite E1, E2. cbn [bind].
  assert (PT : forall x y gx gy nx ny, rd xo nx = Some x -> rd xa nx = Some gx -> rd yo ny = Some y -> rd ya ny = Some gy ->
     exists e c, searches xo yo x y e c /\ rcm2rgrid_point nxi nyi ngrd xi yi fi dist huge xmsg (fast_of xo yo) nc gx gy x y = Some (map (res xi yi fi dist huge xmsg nc 2 x y e c) (seq 1 ngrd))).
  { intros x y gx gy nx ny X1 X2 Y1 Y2. rewrite point_ok by auto. unfold searches. destruct (fast_of xo yo) eqn:F.
    - destruct (AN eq_refl) as [A1 A2]. eexists _, _. split; [|reflexivity]. exists gx, gy. repeat split; eauto.
    - eexists _, _. split; [|reflexivity]. split; reflexivity. }
  destruct (mapM_seq_total _ (fun ny => let* y := rd yo ny in let* a := rd ya ny in mapM (fun nx => let* x := rd xo nx in let* b := rd xa nx in
                     rcm2rgrid_point nxi nyi ngrd xi yi fi dist huge xmsg (fast_of xo yo) nc b a x y) (seq 1 (length xo))) (length yo)
     (fun ny row => exists y, rd yo ny = Some y /\ length row = length xo /\ forall nx v, rd row nx = Some v -> exists x e c, rd xo nx = Some x /\ searches xo yo x y e c /\ v = map (res xi yi fi dist huge xmsg nc 2 x y e c) (seq 1 ngrd)))
    as (rows & ER & LR & RR).
  { intros ny I. destruct (rd_Some yo (i := ny)) as [y Ey]; [lia|]. destruct (rd_Some ya (i := ny)) as [gy Egy]; [lia|]. rewrite Ey, Egy. cbn [bind].
    destruct (mapM_seq_total _ (fun nx => let* x := rd xo nx in let* b := rd xa nx in rcm2rgrid_point nxi nyi ngrd xi yi fi dist huge xmsg (fast_of xo yo) nc b gy x y) (length xo)
       (fun nx v => exists x e c, rd xo nx = Some x /\ searches xo yo x y e c /\ v = map (res xi yi fi dist huge xmsg nc 2 x y e c) (seq 1 ngrd))) as (row & E & L & R).
    { intros nx J. destruct (rd_Some xo (i := nx)) as [x Ex]; [lia|]. destruct (rd_Some xa (i := nx)) as [gx Egx]; [lia|]. rewrite Ex, Egx. cbn [bind].
      destruct (PT x y gx gy nx ny) as (e & c & S & P); auto. rewrite P. eexists. split; [reflexivity|]. exists x, e, c. auto. }
    exists row. split; auto. exists y. auto. }
  rewrite ER. cbn [bind].
  destruct (mapM_seq_total _ (fun ng => let* plane := mapM (fun row => mapM (fun v => rd v ng) row) rows in fill_missing_rows xmsg plane) ngrd
     (fun ng plane => length plane = length yo /\ forall ny y row, rd yo ny = Some y -> rd plane ny = Some row -> exists pre, row_pre ncrit xo yo ng y pre /\ all_filled false 2 pre xmsg row))
    as (out & EO & LO & RO).
  { intros ng I.
    destruct (mapM_some _ _ (fun row => mapM (fun v => rd v ng) row) rows) as [plane EP].
    { intros row IR. apply In_nth_error in IR as [q Q]. assert (Q' : rd rows (S q) = Some row) by exact Q. destruct (RR _ _ Q') as (y & _ & _ & R).
      apply mapM_some. intros v IV. apply In_nth_error in IV as [w W]. assert (W' : rd row (S w) = Some v) by exact W. destruct (R _ _ W') as (x & e & c & _ & _ & ->).
      rewrite rd_map_seq by lia. eauto. }
    rewrite EP. cbn [bind].
    destruct (mapM_some _ _ (fun row => dlinmsg_interior_short_gaps row xmsg) plane) as [plane' EF]. { intros row _. destruct (short_ok row xmsg) as (o & O & _). eauto. }
    unfold fill_missing_rows. rewrite EF. exists plane'. split; auto.
    pose proof (mapM_length _ _ _ _ _ EP) as LP. pose proof (mapM_length _ _ _ _ _ EF) as LF. split; [lia|].
    intros ny y row Hy Hr. destruct (mapM_rd _ _ _ _ _ _ _ EF Hr) as (pre & P1 & P2). destruct (short_ok pre xmsg) as (o & O & AF). rewrite P2 in O. inversion O; subst o.
    exists pre. split; auto. destruct (mapM_rd _ _ _ _ _ _ _ EP P1) as (vrow & V1 & V2). destruct (RR _ _ V1) as (y' & Y' & LV & RV). rewrite Hy in Y'. inversion Y'; subst y'.
    pose proof (mapM_length _ _ _ _ _ V2) as LQ. split; [lia|]. intros nx x Hx. pose proof (rd_Some_bounds _ _ Hx).
    destruct (rd_Some pre (i := nx)) as [q Q]; [lia|]. destruct (mapM_rd _ _ _ _ _ _ _ V2 Q) as (v & W1 & W2). destruct (RV _ _ W1) as (x' & e & c & X' & S & ->).
    rewrite Hx in X'. inversion X'; subst x'. exists e, c. split; auto. rewrite rd_map_seq in W2 by auto. rewrite Q, <- W2. reflexivity. }
  rewrite EO. exists out. auto.
Qed.
End Whole.
