From Verif Require Import Base Buffer Loops VH_Model VH_Proofs LM_Model LM_Spec TG_Model RC_Model RC_Spec RC_Proofs RC_Proofs2 RC_Proofs3 RC_Proofs4 RC_Proofs5 RC_Proofs6 RC_Proofs7.
Local Open Scope nat_scope.

Lemma tol_curv_eq : eps_curv = tol_curv. Proof. apply Qc_is_canon. reflexivity. Qed.
Lemma tol_regular_eq : eps_regular = tol_regular. Proof. apply Qc_is_canon. reflexivity. Qed.
Lemma entry_some (A : Type) (out : list (list (list A))) g j i v : entry out g j i = Some v -> exists plane row, rd out g = Some plane /\ rd plane j = Some row /\ rd row i = Some v.
Proof. unfold entry. destruct (rd out g) as [p|] eqn:E; [|discriminate]. destruct (rd p j) as [r|] eqn:F; [|discriminate]. eauto. Qed.
Lemma rd_nth (A : Type) (l : list A) i v : rd l i = Some v <-> 1 <= i /\ nth_error l (i - 1) = Some v.
Proof. unfold rd. destruct i; cbn; split. - discriminate. - intros [H _]. lia. - intros H. rewrite Nat.sub_0_r. split; auto; lia. - intros [_ H]. rewrite Nat.sub_0_r in H. auto. Qed.

Section Curv.
Variables (nxi nyi ngrd : nat) (xi yi : nat -> nat -> Qc) (fi : nat -> nat -> nat -> Qc).
Variables (dist : Qc -> Qc -> Qc -> Qc -> Qc) (huge xmsg : Qc).
Let K ncrit yo xo := drcm2rgrid nxi nyi ngrd xi yi fi dist huge xmsg ncrit yo xo.
Lemma drcm2rgrid_none ncrit yo xo : nxi <= 1 \/ nyi <= 1 \/ length xo <= 1 \/ length yo <= 1 -> K ncrit yo xo = Some None.
Proof.
  intros H. unfold K, drcm2rgrid. destruct (Nat.leb_spec nxi 1); auto. destruct (Nat.leb_spec nyi 1); auto. destruct (Nat.leb_spec (length xo) 1); auto. destruct (Nat.leb_spec (length yo) 1); auto. lia.
Qed.
Lemma drcm2rgrid_sizes ncrit yo xo out : K ncrit yo xo = Some (Some out) -> 2 <= nxi /\ 2 <= nyi /\ 2 <= length xo /\ 2 <= length yo.
Proof.
  intros H. destruct (le_lt_dec nxi 1); [rewrite drcm2rgrid_none in H by lia; discriminate|]. destruct (le_lt_dec nyi 1); [rewrite drcm2rgrid_none in H by lia; discriminate|].
  destruct (le_lt_dec (length xo) 1); [rewrite drcm2rgrid_none in H by lia; discriminate|]. destruct (le_lt_dec (length yo) 1); [rewrite drcm2rgrid_none in H by lia; discriminate|]. lia.
Qed.
Lemma drcm2rgrid_row ncrit yo xo out g j y row plane : K ncrit yo xo = Some (Some out) -> rd out g = Some plane -> rd yo j = Some y -> rd plane j = Some row ->
  exists pre, row_pre nxi nyi xi yi fi dist huge xmsg ncrit xo yo g y pre /\ all_filled false 2 pre xmsg row.
Proof.
  intros H. destruct (drcm2rgrid_sizes _ _ _ _ H) as (H1 & H2 & H3 & H4). destruct (drcm2rgrid_ok nxi nyi ngrd xi yi fi dist huge xmsg ncrit yo xo H1 H2 H3 H4) as (o & E & _ & R).
  unfold K in H. rewrite H in E. inversion E; subst o. intros G Y RW. destruct (R _ _ G) as [_ R']. eapply R'; eauto.
Qed.
Lemma drcm2rgrid_shape ncrit yo xo out : K ncrit yo xo = Some (Some out) -> length out = ngrd /\ (forall g plane, rd out g = Some plane -> length plane = length yo /\ forall j row, rd plane j = Some row -> length row = length xo).
Proof.
  intros H. destruct (drcm2rgrid_sizes _ _ _ _ H) as (H1 & H2 & H3 & H4). destruct (drcm2rgrid_ok nxi nyi ngrd xi yi fi dist huge xmsg ncrit yo xo H1 H2 H3 H4) as (o & E & L & R).
  unfold K in H. rewrite H in E. inversion E; subst o. split; auto. intros g plane G. destruct (R _ _ G) as [LP R']. split; auto. intros j row RW.
  pose proof (rd_Some_bounds _ _ RW). destruct (rd_Some yo (i := j)) as [y Y]; [lia|]. destruct (R' _ _ _ Y RW) as (pre & (LQ & _) & (LF & _)). lia.
Qed.
Lemma entry_filled ncrit yo xo out g j i x y v : K ncrit yo xo = Some (Some out) -> rd xo i = Some x -> rd yo j = Some y -> entry out g j i = Some v ->
  exists pre, row_pre nxi nyi xi yi fi dist huge xmsg ncrit xo yo g y pre /\ filled false 2 pre xmsg (i - 1) v.
Proof.
  intros H X Y E. apply entry_some in E as (plane & row & G & R & V). destruct (drcm2rgrid_row _ _ _ _ _ _ _ _ _ H G Y R) as (pre & P & _ & F). exists pre. split; auto. apply F. apply rd_nth in V. tauto.
Qed.
Lemma whole_search_iff xo yo : on_axes nxi nyi xi yi \/ ~ lines_ascending nxi nyi xi yi xo yo -> whole_search nxi nyi xi yi xo yo.
Proof. unfold whole_search, on_axes, lines_ascending. rewrite tol_curv_eq. tauto. Qed.
Lemma exact_search xo yo x y e c ix iy : 2 <= nxi -> 2 <= nyi -> on_axes nxi nyi xi yi \/ ~ lines_ascending nxi nyi xi yi xo yo -> searches nxi nyi xi yi xo yo x y e c ->
  1 <= ix <= nxi -> 1 <= iy <= nyi -> within tol_curv x (xi ix iy) -> within tol_curv y (yi ix iy) ->
  (forall jx jy, 1 <= jx <= nxi -> 1 <= jy <= nyi -> within tol_curv x (xi jx jy) -> within tol_curv y (yi jx jy) -> (jx, jy) = (ix, iy)) -> e = Some (ix, iy).
Proof.
  intros HX HY W S X Y WX WY U. apply whole_search_iff in W. destruct (whole_searches nxi nyi xi yi fi dist xmsg xo yo x y e c HX HY W S) as [-> _].
  apply first_pair_unique with (P := fun a b => within tol_curv x (xi a b) /\ within tol_curv y (yi a b)) (nx := nxi) (ny := nyi).
  - apply find2_full. intros a b _ _. rewrite <- tol_curv_eq. exact (pe_within xi yi eps_curv x y a b).
  - cbn. split; auto. split; auto. split; auto. intros jx jy J1 J2 [J3 J4]. specialize (U jx jy J1 J2 J3 J4). inversion U. lia.
Qed.
End Curv.

Lemma spaced_tol e x v i j a b : (0 <= e)%Qc -> spaced e x -> rd x i = Some a -> rd x j = Some b -> within 0%Qc v a -> within e v b -> i = j.
Proof.
  intros E S Ha Hb [W1 W2] W. apply (spaced_near_unique e x v i j a b); auto. apply Qcle_antisym; qclra.
Qed.

Section Reg2.
Variables (xi yi : list Qc) (ngrd : nat) (fi : nat -> nat -> nat -> Qc).
Variables (dist : Qc -> Qc -> Qc -> Qc -> Qc) (huge xmsg : Qc).
Let K ncrit nyo nxo yo xo := drgrid2rcm xi yi ngrd fi dist huge xmsg ncrit nyo nxo yo xo.
Lemma drgrid2rcm_none ncrit nyo nxo yo xo : length xi <= 1 \/ length yi <= 1 \/ nxo <= 1 \/ nyo <= 1 -> K ncrit nyo nxo yo xo = Some None.
Proof.
  intros H. unfold K, drgrid2rcm. destruct (Nat.leb_spec (length xi) 1); auto. destruct (Nat.leb_spec (length yi) 1); auto. destruct (Nat.leb_spec nxo 1); auto. destruct (Nat.leb_spec nyo 1); auto. lia.
Qed.
Lemma drgrid2rcm_sizes ncrit nyo nxo yo xo out : K ncrit nyo nxo yo xo = Some (Some out) -> 2 <= length xi /\ 2 <= length yi /\ 2 <= nxo /\ 2 <= nyo.
Proof.
  intros H. destruct (le_lt_dec (length xi) 1); [rewrite drgrid2rcm_none in H by lia; discriminate|]. destruct (le_lt_dec (length yi) 1); [rewrite drgrid2rcm_none in H by lia; discriminate|].
  destruct (le_lt_dec nxo 1); [rewrite drgrid2rcm_none in H by lia; discriminate|]. destruct (le_lt_dec nyo 1); [rewrite drgrid2rcm_none in H by lia; discriminate|]. lia.
Qed.
Definition rfast := is_strictly_increasing xi && is_strictly_increasing yi.
(** every entry is a point result *)
Lemma drgrid2rcm_ok ncrit nyo nxo yo xo : 2 <= length xi -> 2 <= length yi -> 2 <= nxo -> 2 <= nyo ->
  exists out, K ncrit nyo nxo yo xo = Some (Some out) /\ length out = nyo /\ forall j row, rd out j = Some row -> length row = nxo /\ forall i p, rd row i = Some p ->
    length p = ngrd /\ rgrid2rcm_point xi yi ngrd fi dist huge xmsg rfast ncrit (xo i j) (yo i j) = Some p.
Proof.
  intros H1 H2 H3 H4. unfold K, drgrid2rcm. rewrite !(proj2 (Nat.leb_gt _ _)) by lia. cbn [orb]. fold rfast.
  assert (PT : forall x y, exists p, rgrid2rcm_point xi yi ngrd fi dist huge xmsg rfast ncrit x y = Some p /\ length p = ngrd).
  { intros x y. destruct (rpoint_ok xi yi ngrd fi dist huge xmsg rfast ncrit x y H1 H2) as (xa & ya & _ & E). rewrite E. eexists. split; [reflexivity|]. rewrite map_length, seq_length. auto. }
  match goal with |- context [mapM ?F (seq 1 nyo)] => destruct (mapM_seq_total _ F nyo (fun j row => length row = nxo /\ forall i p, rd row i = Some p -> length p = ngrd /\ rgrid2rcm_point xi yi ngrd fi dist huge xmsg rfast ncrit (xo i j) (yo i j) = Some p)) as (out & E & L & R) end.
  { intros j J. match goal with |- context [mapM ?F (seq 1 nxo)] => destruct (mapM_seq_total _ F nxo (fun i p => length p = ngrd /\ rgrid2rcm_point xi yi ngrd fi dist huge xmsg rfast ncrit (xo i j) (yo i j) = Some p)) as (row & E & L & R) end.
    { intros i I. rewrite !at2_in by lia. cbn [bind]. destruct (PT (xo i j) (yo i j)) as (p & P1 & P2). rewrite P1. eauto. }
    exists row. auto. }
  rewrite E. cbn [bind]. exists out. auto.
Qed.
Lemma drgrid2rcm_entry ncrit nyo nxo yo xo out j i g v : K ncrit nyo nxo yo xo = Some (Some out) -> entry out j i g = Some v ->
  exists p, rgrid2rcm_point xi yi ngrd fi dist huge xmsg rfast ncrit (xo i j) (yo i j) = Some p /\ rd p g = Some v /\ 1 <= g <= ngrd.
Proof.
  intros H E. apply entry_some in E as (row & p & R & P & V). destruct (drgrid2rcm_sizes _ _ _ _ _ _ H) as (H1 & H2 & H3 & H4).
  destruct (drgrid2rcm_ok ncrit nyo nxo yo xo H1 H2 H3 H4) as (o & E & _ & RR). rewrite H in E. inversion E; subst o. destruct (RR _ _ R) as [_ RR']. destruct (RR' _ _ P) as [L Q].
  exists p. split; auto. split; auto. pose proof (rd_Some_bounds _ _ V). lia.
Qed.
Lemma drgrid2rcm_spaced ncrit nyo nxo yo xo out j i g v : spaced tol_regular xi -> spaced tol_regular yi -> K ncrit nyo nxo yo xo = Some (Some out) -> entry out j i g = Some v ->
  v = rres xi yi fi dist huge xmsg ncrit (xo i j) (yo i j) (re_full xi yi (xo i j) (yo i j)) (rc_full xi yi (xo i j) (yo i j)) g.
Proof.
  rewrite <- tol_regular_eq. intros SX SY H E. destruct (drgrid2rcm_sizes _ _ _ _ _ _ H) as (H1 & H2 & H3 & H4). destruct (drgrid2rcm_entry _ _ _ _ _ _ _ _ _ _ H E) as (p & P & V & G).
  rewrite rpoint_spaced in P by auto. inversion P; subst p. rewrite rd_map_seq in V by auto. congruence.
Qed.
Lemma rpoint_range fast ncrit x y p g v lo hi : 2 <= length xi -> 2 <= length yi -> (0 < huge)%Qc -> rgrid2rcm_point xi yi ngrd fi dist huge xmsg fast ncrit x y = Some p -> rd p g = Some v ->
  (forall a b, 1 <= a <= length xi -> 1 <= b <= length yi -> fi a b g <> xmsg -> (lo <= fi a b g /\ fi a b g <= hi)%Qc) -> missing_or_between xmsg lo hi v.
Proof.
  intros H1 H2 HH P V F. destruct (rpoint_ok xi yi ngrd fi dist huge xmsg fast ncrit x y H1 H2) as (xa & ya & (A1 & A2 & _) & E). rewrite P in E. inversion E; subst p. clear E P.
  pose proof (rd_Some_bounds _ _ V) as B. rewrite map_length, seq_length in B. rewrite rd_map_seq in V by auto.
  inversion V as [V']. clear V V'. unfold rres. match goal with |- context [node_of fi xmsg ?t g] => set (e := t) end. match goal with |- context [match ?t with Some _ => _ | None => xmsg end] => set (c := t) end.
  assert (HE : forall q, e = Some q -> 1 <= fst q <= length xi /\ 1 <= snd q <= length yi).
  { intros q Q. unfold e, pick_e in Q. assert (FU : re_full xi yi x y = Some q -> 1 <= fst q <= length xi /\ 1 <= snd q <= length yi) by (intros U; apply find2_some in U; lia).
    assert (LO : re_loc xi yi xa ya x y = Some q -> 1 <= fst q <= length xi /\ 1 <= snd q <= length yi) by (intros U; apply find2_some in U; lia).
    destruct fast; [|auto]. destruct (rc_loc xi yi xa ya x y); auto. destruct (re_loc xi yi xa ya x y); auto. }
  assert (HC : forall q, c = Some q -> 1 <= fst q <= length xi - 1 /\ 1 <= snd q <= length yi - 1 /\ pr xi yi x y (fst q) (snd q) = true).
  { intros q Q. unfold c, pick_c in Q. assert (FU : rc_full xi yi x y = Some q -> 1 <= fst q <= length xi - 1 /\ 1 <= snd q <= length yi - 1 /\ pr xi yi x y (fst q) (snd q) = true) by (intros U; apply find2_some in U as (U1 & U2 & U3); split; [lia|split; [lia|auto]]).
    destruct fast; [|auto]. unfold rc_loc in Q. destruct (pr xi yi x y xa ya) eqn:PR; auto. inversion Q; subst. cbn [fst snd]. auto. }
  destruct (Qceqb_spec (node_of fi xmsg e g) xmsg) as [N|N].
  - destruct c as [[ix iy]|]; [|left; auto]. specialize (HC _ eq_refl). cbn [fst snd] in HC. destruct HC as (C1 & C2 & C3). apply reg_val_range; auto.
  - right. destruct e as [[ix iy]|]; cbn [node_of] in *; [|tauto]. specialize (HE _ eq_refl). cbn [fst snd] in HE. apply F; tauto.
Qed.
End Reg2.
