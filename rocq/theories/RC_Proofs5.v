From Verif Require Import Base Buffer Loops VH_Model VH_Proofs LM_Model TG_Model RC_Model RC_Spec RC_Proofs RC_Proofs2 RC_Proofs3 RC_Proofs4.
Local Open Scope nat_scope.

Lemma find2_single p q nx ny a b : 1 <= a <= nx -> 1 <= b <= ny ->
  (forall ix iy, 1 <= ix <= nx -> 1 <= iy <= ny -> q ix iy = true -> ix = a /\ iy = b) -> p = q a b ->
  (if p then Some (a, b) else None) = find2 q (rng 1 nx) (rng 1 ny).
Proof.
  intros Ha Hb U ->. apply first_pair_unique with (P := fun ix iy => q ix iy = true) (nx := nx) (ny := ny).
  - destruct (q a b) eqn:E; cbn.
    + repeat split; auto; try lia. intros jx jy J1 J2 J. destruct (U jx jy J1 J2 J). subst. lia.
    + intros jx jy J1 J2 J. destruct (U jx jy J1 J2 J). subst. congruence.
  - apply find2_full. intros. tauto.
Qed.

Lemma spaced_ascending e x : (0 <= e)%Qc -> spaced e x -> ascending x.
Proof.
  intros E S i j a b L Ha Hb. revert j b L Hb. induction j as [|j IH]; intros b L Hb; [lia|]. pose proof (rd_Some_bounds _ _ Ha). pose proof (rd_Some_bounds _ _ Hb).
  destruct (Nat.eq_dec i j) as [->|N].
  - pose proof (S j a b Ha). replace (j + 1) with (Datatypes.S j) in H1 by lia. specialize (H1 Hb). qclra.
  - destruct (rd_Some x (i := j)) as [c Ec]; [lia|]. specialize (IH c ltac:(lia) Ec). pose proof (S j c b Ec). replace (j + 1) with (Datatypes.S j) in H1 by lia. specialize (H1 Hb). qclra.
Qed.
Lemma spaced_near_unique e x v i j a b : spaced e x -> (0 <= e)%Qc -> rd x i = Some a -> rd x j = Some b -> v = a -> within e v b -> i = j.
Proof.
  intros S E Ha Hb -> [W1 W2]. assert (L : forall i j a b, i < j -> rd x i = Some a -> rd x j = Some b -> (a + e < b)%Qc).
  { clear - S E. intros i j a b L Ha Hb. revert b L Hb. induction j as [|j IH]; intros b L Hb; [lia|]. pose proof (rd_Some_bounds _ _ Ha). pose proof (rd_Some_bounds _ _ Hb).
    destruct (Nat.eq_dec i j) as [->|N].
    - pose proof (S j a b Ha) as Q. replace (j + 1) with (Datatypes.S j) in Q by lia. auto.
    - destruct (rd_Some x (i := j)) as [c Ec]; [lia|]. specialize (IH c ltac:(lia) Ec). pose proof (S j c b Ec) as Q. replace (j + 1) with (Datatypes.S j) in Q by lia. specialize (Q Hb). qclra. }
  destruct (Nat.lt_trichotomy i j) as [C|[C|C]]; auto; exfalso.
  - pose proof (L _ _ _ _ C Ha Hb). qclra.
  - pose proof (L _ _ _ _ C Hb Ha). qclra.
Qed.

Section Regular.
Variables (xi yi : list Qc) (ngrd : nat) (fi : nat -> nat -> nat -> Qc).
Variables (dist : Qc -> Qc -> Qc -> Qc -> Qc) (huge xmsg : Qc).
Let nx := length xi.
Let ny := length yi.
Definition XI (ix iy : nat) : Qc := get xi ix.
Definition YI (ix iy : nat) : Qc := get yi iy.
Lemma reg_separable : separable nx ny XI YI xi yi.
Proof. split; auto. split; auto. intros. split; apply rd_get; auto. Qed.
Definition pr (xo yo : Qc) (ix iy : nat) : bool :=
  Qcleb (get xi ix) xo && Qcltb xo (get xi (ix + 1)) && (Qcleb (get yi iy) yo && Qcltb yo (get yi (iy + 1))).
Lemma pr_in xo yo ix iy : 1 <= ix <= nx - 1 -> 1 <= iy <= ny - 1 -> pr xo yo ix iy = true <-> in_half_open xi yi xo yo ix iy.
Proof.
  intros H1 H2. unfold pr, in_half_open. split.
  - destruct (Qcleb_spec (get xi ix) xo), (Qcltb_spec xo (get xi (ix + 1))), (Qcleb_spec (get yi iy) yo), (Qcltb_spec yo (get yi (iy + 1))); try discriminate. intros _.
    exists (get xi ix), (get xi (ix + 1)), (get yi iy), (get yi (iy + 1)). rewrite !rd_get by (unfold nx, ny in *; lia). auto 10.
  - intros (x0 & x1 & y0 & y1 & E1 & E2 & E3 & E4 & C1 & C2 & C3 & C4).
    rewrite !rd_get in E1, E2, E3, E4 by (unfold nx, ny in *; lia). inversion E1; inversion E2; inversion E3; inversion E4; subst.
    destruct (Qcleb_spec (get xi ix) xo), (Qcltb_spec xo (get xi (ix + 1))), (Qcleb_spec (get yi iy) yo), (Qcltb_spec yo (get yi (iy + 1))); tauto.
Qed.
Lemma near_node_pe e xo yo ix iy : 1 <= ix <= nx -> 1 <= iy <= ny -> pe XI YI e xo yo ix iy = true <-> near_node e xi yi xo yo ix iy.
Proof.
  intros H1 H2. unfold near_node. rewrite pe_within. unfold XI, YI. split.
  - intros [W1 W2]. exists (get xi ix), (get yi iy). rewrite !rd_get by auto. auto.
  - intros (a & b & E1 & E2 & W1 & W2). rewrite !rd_get in E1, E2 by auto. inversion E1; inversion E2; subst. auto.
Qed.
Definition corner_list (xo yo : Qc) (ix iy ng : nat) : list (Qc * Qc) :=
  [(fi ix iy ng, dist yo xo (get yi iy) (get xi ix)); (fi (ix + 1) iy ng, dist yo xo (get yi iy) (get xi (ix + 1)));
   (fi ix (iy + 1) ng, dist yo xo (get yi (iy + 1)) (get xi ix)); (fi (ix + 1) (iy + 1) ng, dist yo xo (get yi (iy + 1)) (get xi (ix + 1)))].
Definition reg_val (ncrit : Z) (xo yo : Qc) (ix iy ng : nat) : Qc :=
  if all_present xmsg [fi ix iy ng; fi (ix + 1) iy ng; fi ix (iy + 1) ng; fi (ix + 1) (iy + 1) ng]
  then bilinear ((xo - get xi ix) / (get xi (ix + 1) - get xi ix))%Qc ((yo - get yi iy) / (get yi (iy + 1) - get yi iy))%Qc
         (fi ix iy ng) (fi (ix + 1) iy ng) (fi ix (iy + 1) ng) (fi (ix + 1) (iy + 1) ng)
  else regular_idw huge xmsg ncrit (corner_list xo yo ix iy ng) xmsg.
Lemma interp_reg_ok ncrit xo yo ix iy g : 1 <= ix <= nx - 1 -> 1 <= iy <= ny - 1 ->
  interpolate_regular_cell xi yi ngrd fi dist huge xmsg ncrit xo yo ix iy (map g (seq 1 ngrd)) =
  Some (map (fun ng => if Qceqb (g ng) xmsg then reg_val ncrit xo yo ix iy ng else g ng) (seq 1 ngrd)).
Proof.
  intros H1 H2. unfold interpolate_regular_cell. fold nx ny. apply mapM_seq_map. intros ng Hng. rewrite rd_map_seq by auto. cbn [bind].
  destruct (Qceqb_spec (g ng) xmsg) as [E|E]; cbn [negb]; auto. rewrite !at3_in by lia. cbn [bind]. rewrite !rd_get by (unfold nx, ny in *; lia). cbn [bind].
  unfold reg_val. destruct (all_present _ _); auto. rewrite E. reflexivity.
Qed.
Definition rres (ncrit : Z) (xo yo : Qc) (e c : hit) (ng : nat) : Qc :=
  if Qceqb (node_of fi xmsg e ng) xmsg then match c with Some (ix, iy) => reg_val ncrit xo yo ix iy ng | None => xmsg end else node_of fi xmsg e ng.
Lemma rres_done ncrit xo yo e c : all_present xmsg (map (node_of fi xmsg e) (seq 1 ngrd)) = true -> map (rres ncrit xo yo e c) (seq 1 ngrd) = map (node_of fi xmsg e) (seq 1 ngrd).
Proof.
  intros H. apply map_seq_ext. intros i I. unfold rres. pose proof (all_present_seq _ _ _ H i I). destruct (Qceqb_spec (node_of fi xmsg e i) xmsg); congruence.
Qed.
Lemma rres_none ncrit xo yo e : map (rres ncrit xo yo e None) (seq 1 ngrd) = map (node_of fi xmsg e) (seq 1 ngrd).
Proof. apply map_seq_ext. intros i I. unfold rres. destruct (Qceqb_spec (node_of fi xmsg e i) xmsg); congruence. Qed.
Definition re_full xo yo := find2 (pe XI YI eps_regular xo yo) (rng 1 nx) (rng 1 ny).
Definition rc_full xo yo := find2 (pr xo yo) (rng 1 (nx - 1)) (rng 1 (ny - 1)).
Definition re_loc xa ya xo yo := find2 (pe XI YI eps_regular xo yo) (rng (Nat.max 1 xa) (Nat.min nx (xa + 1))) (rng (Nat.max 1 ya) (Nat.min ny (ya + 1))).
Definition rc_loc xa ya xo yo : hit := if pr xo yo xa ya then Some (xa, ya) else None.

Lemma find_exact_reg e xo yo lx hx ly hy : 1 <= lx -> hx <= nx -> 1 <= ly -> hy <= ny ->
  first_in2 (exact_regular_test xi yi e xo yo) (rng lx hx) (rng ly hy) = Some (find2 (pe XI YI e xo yo) (rng lx hx) (rng ly hy)).
Proof.
  intros. apply first_in2_find. intros ix iy X Y. apply in_rng in X, Y. unfold exact_regular_test. rewrite !rd_get by (unfold nx, ny in *; lia). reflexivity.
Qed.
Lemma cell_reg xo yo ix iy : 1 <= ix <= nx - 1 -> 1 <= iy <= ny - 1 -> regular_cell_test xi yi xo yo ix iy = Some (pr xo yo ix iy).
Proof. intros. unfold regular_cell_test. rewrite !rd_get by (unfold nx, ny in *; lia). reflexivity. Qed.
Lemma copy_reg_ok ix iy : 1 <= ix <= nx -> 1 <= iy <= ny -> copy_regular xi yi ngrd fi ix iy = Some (map (fi ix iy) (seq 1 ngrd)).
Proof. intros. apply mapM_seq_map. intros. apply at3_in; auto. Qed.

Definition anchors_of (fast : bool) (xo yo : Qc) (xa ya : nat) : Prop :=
  1 <= xa <= nx - 1 /\ 1 <= ya <= ny - 1 /\ (fast = true -> lower_bracket_increasing xi xo = Some xa /\ lower_bracket_increasing yi yo = Some ya).
Lemma rpoint_ok fast ncrit xo yo : 2 <= nx -> 2 <= ny -> exists xa ya, anchors_of fast xo yo xa ya /\
  rgrid2rcm_point xi yi ngrd fi dist huge xmsg fast ncrit xo yo =
  Some (map (rres ncrit xo yo (pick_e (if fast then re_loc xa ya xo yo else None) (if fast then rc_loc xa ya xo yo else None) (re_full xo yo))
                              (pick_c (if fast then rc_loc xa ya xo yo else None) (rc_full xo yo))) (seq 1 ngrd)).
Proof.
  intros HX HY. unfold rgrid2rcm_point. fold nx ny. rewrite repeat_map.
  assert (REST : forall e c, (forall p, e = Some p -> 1 <= fst p <= nx /\ 1 <= snd p <= ny) -> (forall p, c = Some p -> 1 <= fst p <= nx - 1 /\ 1 <= snd p <= ny - 1) ->
    match c with
    | Some p => interpolate_regular_cell xi yi ngrd fi dist huge xmsg ncrit xo yo (fst p) (snd p) (map (node_of fi xmsg e) (seq 1 ngrd))
    | None =>
        let* df :=
          match e with
          | Some _ => Some (false, map (node_of fi xmsg e) (seq 1 ngrd))
          | None =>
              let* e2 := find_exact_regular_full xi yi eps_regular xo yo in
              match e2 with
              | None => Some (false, map (node_of fi xmsg e) (seq 1 ngrd))
              | Some p => let* v := copy_regular xi yi ngrd fi (fst p) (snd p) in Some (all_present xmsg v, v)
              end
          end in
        if fst df : bool then Some (snd df)
        else
          let* c2 := find_regular_cell_full xi yi xo yo in
          match c2 with
          | None => Some (snd df)
          | Some p => interpolate_regular_cell xi yi ngrd fi dist huge xmsg ncrit xo yo (fst p) (snd p) (snd df)
          end
    end = Some (map (rres ncrit xo yo (pick_e e c (re_full xo yo)) (pick_c c (rc_full xo yo))) (seq 1 ngrd))).
  { intros e c He Hc. destruct c as [[cx cy]|].
    - specialize (Hc _ eq_refl). cbn [fst snd] in *. rewrite interp_reg_ok by lia. reflexivity.
    - assert (FIN : forall e', (let* c2 := find_regular_cell_full xi yi xo yo in
              match c2 with None => Some (map (node_of fi xmsg e') (seq 1 ngrd))
              | Some p => interpolate_regular_cell xi yi ngrd fi dist huge xmsg ncrit xo yo (fst p) (snd p) (map (node_of fi xmsg e') (seq 1 ngrd)) end)
            = Some (map (rres ncrit xo yo e' (rc_full xo yo)) (seq 1 ngrd))).
      { intros e'. unfold find_regular_cell_full. fold nx ny. rewrite (first_in2_find _ (pr xo yo)) by (intros ix iy X Y; apply in_rng in X, Y; apply cell_reg; lia).
        cbn [bind]. fold (rc_full xo yo). destruct (rc_full xo yo) as [[cx cy]|] eqn:E.
        - apply find2_some in E. cbn [fst snd] in *. rewrite interp_reg_ok by lia. reflexivity.
        - rewrite rres_none. auto. }
      destruct e as [p|]; cbn [bind fst snd pick_e pick_c].
      + apply FIN.
      + unfold find_exact_regular_full. fold nx ny. rewrite find_exact_reg by lia. cbn [bind]. fold (re_full xo yo).
        destruct (re_full xo yo) as [[ex ey]|] eqn:E; cbn [bind fst snd].
        * apply find2_some in E. cbn [fst snd] in *. rewrite copy_reg_ok by lia. cbn [bind fst snd].
          change (map (fi ex ey) (seq 1 ngrd)) with (map (node_of fi xmsg (Some (ex, ey))) (seq 1 ngrd)).
          destruct (all_present xmsg (map (node_of fi xmsg (Some (ex, ey))) (seq 1 ngrd))) eqn:AP; [|apply FIN].
          rewrite rres_done by auto. auto.
        * apply (FIN None). }
  destruct fast.
  - destruct (lower_bracket_range xi xo HX) as (xa & E1 & I1). destruct (lower_bracket_range yi yo HY) as (ya & E2 & I2).
    fold nx in I1. fold ny in I2. exists xa, ya. split. { repeat split; auto; lia. }
    rewrite E1, E2. cbn [bind fst snd]. unfold find_exact_regular_local. fold nx ny. rewrite find_exact_reg by lia. cbn [bind]. fold (re_loc xa ya xo yo).
    assert (HE : forall p, re_loc xa ya xo yo = Some p -> 1 <= fst p <= nx /\ 1 <= snd p <= ny) by (intros p P; apply find2_some in P; lia).
    assert (X : match re_loc xa ya xo yo with Some p => copy_regular xi yi ngrd fi (fst p) (snd p) | None => Some (map (fun _ => xmsg) (seq 1 ngrd)) end = Some (map (node_of fi xmsg (re_loc xa ya xo yo)) (seq 1 ngrd))).
    { destruct (re_loc xa ya xo yo) as [[ex ey]|]; auto. specialize (HE _ eq_refl). cbn [fst snd] in *. apply copy_reg_ok; lia. }
    rewrite X. cbn [bind]. rewrite cell_reg by lia. cbn [bind]. fold (rc_loc xa ya xo yo).
    destruct (found (re_loc xa ya xo yo) && all_present xmsg (map (node_of fi xmsg (re_loc xa ya xo yo)) (seq 1 ngrd))) eqn:D.
    + apply andb_prop in D as [D1 D2]. assert (P : pick_e (re_loc xa ya xo yo) (rc_loc xa ya xo yo) (re_full xo yo) = re_loc xa ya xo yo).
      { unfold pick_e. destruct (re_loc xa ya xo yo); [|discriminate]. destruct (rc_loc xa ya xo yo); auto. }
      rewrite P. rewrite rres_done; auto.
    + apply REST; auto. intros p P. unfold rc_loc in P. destruct (pr xo yo xa ya); inversion P; subst. cbn. lia.
  - exists 1, 1. split. { repeat split; try lia; discriminate. } cbn [bind found andb]. refine (REST None None _ _); intros; discriminate.
Qed.

(** on spaced axes the two paths use the same searches *)
Lemma eps_regular_nonneg : (0 <= eps_regular)%Qc. Proof. vm_compute. discriminate. Qed.
Lemma half_open_bracket x v i : ascending x -> 1 <= i <= length x - 1 -> (get x i <= v)%Qc -> (v < get x (i + 1))%Qc -> bracket x v i.
Proof. intros A I V1 V2. apply (bracket_of x v i (get x i) (get x (i + 1))); auto; apply rd_get; lia. Qed.
Lemma rlocal_cell xa ya xo yo : ascending xi -> ascending yi -> 2 <= nx -> 2 <= ny -> bracket xi xo xa -> bracket yi yo ya -> rc_loc xa ya xo yo = rc_full xo yo.
Proof.
  intros AX AY HX HY BX BY. unfold rc_loc, rc_full. destruct BX as (IX & BX), BY as (IY & BY). apply find2_single; auto; try (unfold nx, ny; lia).
  intros ix iy H1 H2 P. unfold pr in P. destruct (Qcleb_spec (get xi ix) xo), (Qcltb_spec xo (get xi (ix + 1))), (Qcleb_spec (get yi iy) yo), (Qcltb_spec yo (get yi (iy + 1))); try discriminate.
  split; [apply (bracket_unique xi xo)|apply (bracket_unique yi yo)]; auto; first [apply half_open_bracket; auto; fail | split; auto].
Qed.
Lemma rlocal_exact xa ya xo yo : spaced eps_regular xi -> spaced eps_regular yi -> 2 <= nx -> 2 <= ny -> bracket xi xo xa -> bracket yi yo ya -> re_loc xa ya xo yo = re_full xo yo.
Proof.
  intros SX SY HX HY BX BY. pose proof eps_regular_nonneg as E0. pose proof (spaced_ascending _ _ E0 SX) as AX. pose proof (spaced_ascending _ _ E0 SY) as AY.
  apply first_pair_unique with (P := fun ix iy => pe XI YI eps_regular xo yo ix iy = true) (nx := nx) (ny := ny);
    [|apply find2_full; intros; tauto].
  unfold re_loc. apply find2_window with (px := fun ix => near eps_regular xo (get xi ix)) (py := fun iy => near eps_regular yo (get yi iy)); try lia.
  - intros. reflexivity.
  - intros ix H1 H2. exists ix. split; [|auto]. assert (xa <= ix <= xa + 1) by (eapply (near_bracket xi xo xa AX BX); eauto; apply rd_get; auto). lia.
  - intros iy H1 H2. exists iy. split; [|auto]. assert (ya <= iy <= ya + 1) by (eapply (near_bracket yi yo ya AY BY); eauto; apply rd_get; auto). lia.
Qed.
Lemma rpoint_spaced fast ncrit xo yo : 2 <= nx -> 2 <= ny -> spaced eps_regular xi -> spaced eps_regular yi ->
  rgrid2rcm_point xi yi ngrd fi dist huge xmsg fast ncrit xo yo = Some (map (rres ncrit xo yo (re_full xo yo) (rc_full xo yo)) (seq 1 ngrd)).
Proof.
  intros HX HY SX SY. pose proof eps_regular_nonneg as E0. pose proof (spaced_ascending _ _ E0 SX) as AX. pose proof (spaced_ascending _ _ E0 SY) as AY.
  destruct (rpoint_ok fast ncrit xo yo HX HY) as (xa & ya & (I1 & I2 & B) & E). rewrite E. destruct fast; auto. destruct (B eq_refl) as [B1 B2].
  destruct (lower_bracket_ok xi xo AX HX) as (xb & X1 & X2). destruct (lower_bracket_ok yi yo AY HY) as (yb & Y1 & Y2).
  rewrite B1 in X1. rewrite B2 in Y1. inversion X1; inversion Y1; subst xb yb.
  rewrite rlocal_exact, rlocal_cell by auto. unfold pick_e, pick_c. destruct (re_full xo yo), (rc_full xo yo); auto.
Qed.

(** ranges *)
Lemma bilinear_between sx sy f11 f21 f12 f22 lo hi : (0 <= sx)%Qc -> (sx <= 1)%Qc -> (0 <= sy)%Qc -> (sy <= 1)%Qc ->
  (lo <= f11 /\ f11 <= hi)%Qc -> (lo <= f21 /\ f21 <= hi)%Qc -> (lo <= f12 /\ f12 <= hi)%Qc -> (lo <= f22 /\ f22 <= hi)%Qc ->
  (lo <= bilinear sx sy f11 f21 f12 f22 /\ bilinear sx sy f11 f21 f12 f22 <= hi)%Qc.
Proof.
  intros S1 S2 S3 S4 [A1 A2] [B1 B2] [C1 C2] [D1 D2]. unfold bilinear.
  assert (P : (lo <= f11 + sx * (f21 - f11) /\ f11 + sx * (f21 - f11) <= hi)%Qc) by (split; qcnra).
  assert (Q : (lo <= f12 + sx * (f22 - f12) /\ f12 + sx * (f22 - f12) <= hi)%Qc) by (split; qcnra).
  generalize dependent (f11 + sx * (f21 - f11))%Qc. generalize dependent (f12 + sx * (f22 - f12))%Qc. intros q [Q1 Q2] p [P1 P2]. clear - S3 S4 Q1 Q2 P1 P2. split; qcnra.
Qed.
Lemma fraction_between v a b : (a <= v)%Qc -> (v < b)%Qc -> (0 <= (v - a) / (b - a) /\ (v - a) / (b - a) <= 1)%Qc.
Proof. intros. apply div_between; qclra. Qed.
Lemma all_present_forall l : all_present xmsg l = true <-> Forall (fun u => u <> xmsg) l.
Proof.
  unfold all_present. rewrite forallb_forall, Forall_forall. split; intros H x I; specialize (H x I); destruct (Qceqb_spec x xmsg); auto; try discriminate; tauto.
Qed.
Lemma regular_idw_eq ncrit l : regular_idw huge xmsg ncrit l xmsg =
  if (1 <=? ncrit)%Z && Qcltb 0%Qc (qsum (map snd (map (fun p => (fst p, idw huge (snd p))) (present xmsg l)))) then wmean (map (fun p => (fst p, idw huge (snd p))) (present xmsg l)) else xmsg.
Proof. unfold regular_idw. rewrite wsum_eq. cbn [fst snd]. rewrite (present_map xmsg (idw huge)). reflexivity. Qed.
Lemma idw_pos d : (0 < huge)%Qc -> (0 < idw huge d)%Qc.
Proof.
  intros H. unfold idw. destruct (Qceqb_spec d 0%Qc) as [|D]; auto.
  assert (P : forall q, q <> 0%Qc -> (0 < q * q)%Qc). { intros q Q. destruct (Qclt_le_dec 0 q) as [C|C]. { qcnra. } assert ((q < 0)%Qc). { destruct (Qcle_lt_or_eq _ _ C); auto. congruence. } qcnra. }
  apply P. intro Z. assert (((1 / d) * d = 1)%Qc) by (field; auto). rewrite Z in H0. ring_simplify in H0. discriminate.
Qed.
Lemma reg_val_range ncrit xo yo ix iy ng lo hi : (0 < huge)%Qc -> 1 <= ix <= nx - 1 -> 1 <= iy <= ny - 1 -> pr xo yo ix iy = true ->
  (forall a b, 1 <= a <= nx -> 1 <= b <= ny -> fi a b ng <> xmsg -> (lo <= fi a b ng /\ fi a b ng <= hi)%Qc) ->
  missing_or_between xmsg lo hi (reg_val ncrit xo yo ix iy ng).
Proof.
  intros HH H1 H2 P F. unfold pr in P. destruct (Qcleb_spec (get xi ix) xo) as [C1|], (Qcltb_spec xo (get xi (ix + 1))) as [C2|], (Qcleb_spec (get yi iy) yo) as [C3|], (Qcltb_spec yo (get yi (iy + 1))) as [C4|]; try discriminate.
  clear P. unfold reg_val. destruct (all_present _ _) eqn:AP.
  - right. apply all_present_forall in AP. inversion AP as [|? ? A1 AP1]; subst. inversion AP1 as [|? ? A2 AP2]; subst. inversion AP2 as [|? ? A3 AP3]; subst. inversion AP3 as [|? ? A4 AP4]; subst.
    destruct (fraction_between xo _ _ C1 C2). destruct (fraction_between yo _ _ C3 C4). apply bilinear_between; auto; apply F; auto; lia.
  - rewrite regular_idw_eq. destruct (_ && _) eqn:D; [|left; auto]. apply andb_prop in D as [_ D]. right. apply wmean_between.
    + destruct (present xmsg (corner_list xo yo ix iy ng)); [|discriminate]. cbn in D. destruct (Qcltb_spec 0%Qc 0%Qc); [qclra|discriminate].
    + intros p I. apply in_map_iff in I as (q & <- & I). apply idw_pos. auto.
    + intros p I. apply in_map_iff in I as (q & <- & I). apply in_present in I as [I N]. cbn [fst]. unfold corner_list in I.
      repeat (destruct I as [<-|I]; [cbn [fst] in *; apply F; auto; lia|]). destruct I.
Qed.

(** the value at one target on spaced axes *)
Lemma coincident_node xo yo ix iy : spaced eps_regular xi -> spaced eps_regular yi -> 1 <= ix <= nx -> 1 <= iy <= ny ->
  xo = get xi ix -> yo = get yi iy -> re_full xo yo = Some (ix, iy).
Proof.
  intros SX SY H1 H2 EX EY. pose proof eps_regular_nonneg as E0.
  apply first_pair_unique with (P := fun ix iy => pe XI YI eps_regular xo yo ix iy = true) (nx := nx) (ny := ny); [apply find2_full; intros; tauto|].
  cbn. split; auto. split; auto. split.
  - apply pe_within. unfold XI, YI, within. subst. split; split; qclra.
  - intros jx jy J1 J2 J. apply pe_within in J as [W1 W2]. unfold XI, YI in *.
    assert (ix = jx) by (eapply (spaced_near_unique eps_regular xi xo); eauto; apply rd_get; auto).
    assert (iy = jy) by (eapply (spaced_near_unique eps_regular yi yo); eauto; apply rd_get; auto). lia.
Qed.
Lemma bilinear_eq v w x0 x1 y0 y1 a b c d : (x0 < x1)%Qc -> (y0 < y1)%Qc ->
  bilinear ((v - x0) / (x1 - x0))%Qc ((w - y0) / (y1 - y0))%Qc a b c d = bilinear_at x0 x1 y0 y1 a b c d v w.
Proof.
  intros X Y. unfold bilinear, bilinear_at. field. repeat split; intro Z.
  - assert (y1 = y0) by (transitivity (y1 - y0 + y0)%Qc; [ring|rewrite Z; ring]). subst. qclra.
  - assert (x1 = x0) by (transitivity (x1 - x0 + x0)%Qc; [ring|rewrite Z; ring]). subst. qclra.
Qed.
Lemma rres_target ncrit xo yo ng : spaced eps_regular xi -> spaced eps_regular yi -> (0 < huge)%Qc -> (1 <= ncrit)%Z ->
  (forall ix iy a b, rd xi ix = Some a -> rd yi iy = Some b -> dist yo xo b a = 0%Qc -> yo = b /\ xo = a) ->
  regular_target xi yi (fun ix iy => fi ix iy ng) dist xmsg eps_regular xo yo (rres ncrit xo yo (re_full xo yo) (rc_full xo yo) ng).
Proof.
  intros SX SY HH NC HD. pose proof eps_regular_nonneg as E0. exists (re_full xo yo), (rc_full xo yo). fold nx ny.
  split. { apply find2_full. intros. apply near_node_pe; auto. } split. { apply find2_full. intros. apply pr_in; auto. }
  cbn zeta. change (match re_full xo yo with Some (ix, iy) => fi ix iy ng | None => xmsg end) with (node_of fi xmsg (re_full xo yo) ng).
  unfold rres. destruct (Qceqb_spec (node_of fi xmsg (re_full xo yo) ng) xmsg) as [E|E]; [right|left; auto]. split; auto.
  destruct (rc_full xo yo) as [[ix iy]|] eqn:C; auto. intros x0 x1 y0 y1 R1 R2 R3 R4.
  apply find2_some in C as (C1 & C2 & C). cbn [fst snd] in *. pose proof (rd_Some_bounds _ _ R2). pose proof (rd_Some_bounds _ _ R4).
  rewrite rd_get in R1, R2, R3, R4 by (unfold nx, ny in *; lia). inversion R1; inversion R2; inversion R3; inversion R4; subst x0 x1 y0 y1. clear R1 R2 R3 R4.
  pose proof C as P. unfold pr in P. destruct (Qcleb_spec (get xi ix) xo) as [P1|], (Qcltb_spec xo (get xi (ix + 1))) as [P2|], (Qcleb_spec (get yi iy) yo) as [P3|], (Qcltb_spec yo (get yi (iy + 1))) as [P4|]; try discriminate. clear P.
  unfold reg_val. change (combine _ _) with (corner_list xo yo ix iy ng). destruct (all_present _ _) eqn:AP.
  { left. split. { apply all_present_forall; auto. } apply bilinear_eq; qclra. }
  right. assert (NA : ~ Forall (fun u => u <> xmsg) [fi ix iy ng; fi (ix + 1) iy ng; fi ix (iy + 1) ng; fi (ix + 1) (iy + 1) ng]) by (rewrite <- all_present_forall, AP; discriminate).
  rewrite regular_idw_eq, (proj2 (Z.leb_le 1 ncrit)) by lia. cbn [andb].
  assert (NZ : forall p, In p (present xmsg (corner_list xo yo ix iy ng)) -> snd p <> 0%Qc).
  { intros p I Z. apply in_present in I as [I N].
    assert (K : exists a b, 1 <= a <= nx /\ 1 <= b <= ny /\ p = (fi a b ng, dist yo xo (get yi b) (get xi a))).
    { unfold corner_list in I. repeat (destruct I as [<-|I]; [eexists; eexists; split; [|split; [|reflexivity]]; lia|]). destruct I. }
    destruct K as (a & b & A & B & ->). cbn [fst snd] in *. apply (HD a b (get xi a) (get yi b)) in Z as [Z1 Z2]; try (apply rd_get; auto).
    rewrite (coincident_node xo yo a b) in E by auto. cbn in E. auto. }
  assert (W : map (fun p => (fst p, idw huge (snd p))) (present xmsg (corner_list xo yo ix iy ng)) = inverse_square (present xmsg (corner_list xo yo ix iy ng))).
  { unfold inverse_square. apply map_ext_in. intros p I. f_equal. unfold idw. specialize (NZ p I). destruct (Qceqb_spec (snd p) 0%Qc); [tauto|]. field; auto. }
  destruct (present xmsg (corner_list xo yo ix iy ng)) as [|p l] eqn:PR.
  { right. split; auto. }
  left. split; auto. split. { discriminate. }
  rewrite W. destruct (Qcltb_spec 0%Qc (qsum (map snd (inverse_square (p :: l))))) as [|L]; auto. exfalso. apply L. rewrite <- W.
  apply qsum_pos. { discriminate. } intros w I. apply in_map_iff in I as (q & <- & I). apply in_map_iff in I as (r & <- & I). apply idw_pos; auto.
Qed.
End Regular.
