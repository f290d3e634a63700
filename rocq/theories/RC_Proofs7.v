From Verif Require Import Base Buffer Loops VH_Model VH_Proofs LM_Model TG_Model RC_Model RC_Spec RC_Proofs RC_Proofs2 RC_Proofs3 RC_Proofs4 RC_Proofs5 RC_Proofs6.
Local Open Scope nat_scope.

Section PointsT.
Variables (nxi nyi ngrd : nat) (xi yi : nat -> nat -> Qc) (fi : nat -> nat -> nat -> Qc).
Variables (dist : Qc -> Qc -> Qc -> Qc -> Qc) (xmsg : Qc).
Lemma same_eq xo yo ix iy : same xi yi xo yo ix iy = true <-> xi ix iy = xo /\ yi ix iy = yo.
Proof. unfold same. destruct (Qceqb_spec xo (xi ix iy)), (Qceqb_spec yo (yi ix iy)); cbn; split; try tauto; try discriminate; try (intros [? ?]; congruence). auto. Qed.
Lemma pe0_first xo yo : first_pair (fun ix iy => xi ix iy = xo /\ yi ix iy = yo) nxi nyi (pe0 nxi nyi xi yi xo yo).
Proof. apply find2_full. intros. apply same_eq. Qed.
Lemma pe0_node xo yo ix iy : distinct_nodes nxi nyi xi yi -> 1 <= ix <= nxi -> 1 <= iy <= nyi -> xi ix iy = xo -> yi ix iy = yo -> pe0 nxi nyi xi yi xo yo = Some (ix, iy).
Proof.
  intros D X Y EX EY. apply first_pair_unique with (P := fun ix iy => xi ix iy = xo /\ yi ix iy = yo) (nx := nxi) (ny := nyi); [apply pe0_first|].
  cbn. repeat split; auto; try lia. intros jx jy J1 J2 [K1 K2]. destruct (D ix iy jx jy); auto; try congruence. subst. lia.
Qed.
Lemma pc_bounds k xo yo ix iy : pc xi yi k xo yo ix iy = true <-> in_cell xi yi k xo yo ix iy.
Proof. exact (pc_in_cell xi yi k xo yo ix iy). Qed.

Lemma cell_target opt ncrit k xo yo c ng : separates nxi nyi xi yi dist xo yo -> distinct_nodes nxi nyi xi yi -> node_of fi xmsg (pe0 nxi nyi xi yi xo yo) ng = xmsg ->
  (forall p, c = Some p -> 1 <= fst p <= nxi - k /\ 1 <= snd p <= nyi - k) ->
  exists u, cellval xi yi fi dist xmsg opt ncrit k xo yo c ng = Some u /\
    match c with
    | None => u = xmsg
    | Some (ix, iy) =>
        ((Z.abs opt = 2)%Z /\ (xi ix iy = xi (ix + k)%nat iy \/ yi ix iy = yi ix (iy + k)%nat) /\ u = xmsg) \/
        (~ ((Z.abs opt = 2)%Z /\ (xi ix iy = xi (ix + k)%nat iy \/ yi ix iy = yi ix (iy + k)%nat)) /\
         enough_mean xmsg ncrit (corner_weights dist xi yi (fun a b => fi a b ng) opt k xo yo ix iy) u)
    end.
Proof.
  intros HD DN NODE HC. unfold cellval. destruct c as [[ix iy]|]; [|eauto]. specialize (HC _ eq_refl). cbn [fst snd] in HC. destruct HC as [C1 C2].
  unfold pw, corner_weights. destruct (Z.eqb_spec (Z.abs opt) 2) as [O|O].
  - assert (Z : forall a b : Qc, Qceqb (b - a)%Qc 0%Qc = true <-> a = b).
    { intros a b. destruct (Qceqb_spec (b - a)%Qc 0%Qc) as [Z|Z]; split; try discriminate; auto.
      - intros _. symmetry. transitivity (b - a + a)%Qc; [ring|rewrite Z; ring].
      - intros ->. exfalso. apply Z. ring. }
    destruct (_ || _) eqn:D.
    + exists xmsg. split; auto. left. split; auto. split; auto. apply orb_prop in D as [D|D]; apply Z in D; auto.
    + apply orb_false_iff in D as [D1 D2]. cbn [combine].
      match goal with |- exists u, points_value xmsg ncrit ?l _ = _ /\ _ => destruct (points_value_ok xmsg ncrit l) as (v & V1 & V2) end.
      { intros p I _. repeat (destruct I as [<-|I]; [discriminate|]). destruct I. }
      exists v. split; [exact V1|]. right. split; [|exact V2]. intros [_ [K|K]]; apply Z in K; congruence.
  - cbn [combine].
    match goal with |- exists u, points_value xmsg ncrit ?l _ = _ /\ _ => set (l0 := l); destruct (points_value_ok xmsg ncrit l0) as (v & V1 & V2) end.
    { assert (K : forall a b, 1 <= a <= nxi -> 1 <= b <= nyi -> fi a b ng <> xmsg -> inv_square (dist yo xo (yi a b) (xi a b)) <> None).
      { intros a b A B N. unfold inv_square. destruct (Qceqb_spec (dist yo xo (yi a b) (xi a b)) 0%Qc) as [Z|]; [|discriminate]. exfalso. apply HD in Z as [Z1 Z2]; auto.
        rewrite (pe0_node xo yo a b) in NODE by auto. cbn in NODE. auto. }
      intros p I N. unfold l0 in I. repeat (destruct I as [<-|I]; [cbn [fst snd] in *; apply K; auto; lia|]). destruct I. }
    exists v. split; [exact V1|]. right. split; [tauto|].
    assert (EQ : dflts l0 = inverse_square (corners dist xi yi (fun a b => fi a b ng) k xo yo ix iy)).
    { unfold l0, dflts, inverse_square, corners. cbn [map fst snd]. assert (W : forall d, dflt (inv_square d) = (/ (d * d))%Qc).
      { intros d. unfold inv_square. destruct (Qceqb_spec d 0%Qc) as [->|D]; cbn [dflt]. { reflexivity. } field. auto. }
      rewrite !W. reflexivity. }
    rewrite <- EQ. exact V2.
Qed.
Lemma final_target dkm opt ncrit k xo yo ng : separates nxi nyi xi yi dist xo yo -> distinct_nodes nxi nyi xi yi ->
  exists v, pfinal nxi nyi xi yi fi dist xmsg dkm opt ncrit k xo yo (c_full nxi nyi xi yi k xo yo) ng = Some v /\
    points_target nxi nyi xi yi (fun a b => fi a b ng) dist xmsg dkm opt ncrit k xo yo v.
Proof.
  intros HD DN. unfold pfinal, first_val. set (e := pe0 nxi nyi xi yi xo yo). set (c := c_full nxi nyi xi yi k xo yo).
  assert (FE : first_pair (fun ix iy => xi ix iy = xo /\ yi ix iy = yo) nxi nyi e) by apply pe0_first.
  assert (FC : first_pair (in_cell xi yi k xo yo) (nxi - k) (nyi - k) c) by (apply find2_full; intros; apply pc_bounds).
  destruct (Qceqb_spec (node_of fi xmsg e ng) xmsg) as [N|N].
  - destruct (cell_target opt ncrit k xo yo c ng HD DN N) as (u & U1 & U2). { intros p P. unfold c, c_full in P. apply find2_some in P. lia. }
    rewrite U1. unfold fallback_val. cbn [cell_is]. destruct (Qceqb_spec u xmsg) as [U|U].
    + destruct (present xmsg (around dist nxi nyi xi yi (fun a b => fi a b ng) dkm xo yo)) as [|p l] eqn:P.
      * exists u. split; auto. exists e, c. split; auto. split; auto. right. split; auto. exists u. split; auto.
      * eexists. split; [reflexivity|]. exists e, c. split; auto. split; auto. right. split; auto. exists u. split; auto. right. split; auto. right. rewrite P. split; [discriminate|auto].
    + exists u. split; auto. exists e, c. split; auto. split; auto. right. split; auto. exists u. split; auto.
  - exists (node_of fi xmsg e ng). split.
    + unfold fallback_val. cbn [cell_is]. destruct (Qceqb_spec (node_of fi xmsg e ng) xmsg); [tauto|auto].
    + exists e, c. split; auto.
Qed.
(** any grid: no NaN and values within the range of the present source values *)
Lemma wmean_between0 lo hi l : (0 < qsum (map snd l))%Qc -> (forall p, In p l -> (0 <= snd p)%Qc) -> (forall p, In p l -> (lo <= fst p /\ fst p <= hi)%Qc) ->
  (lo <= wmean l /\ wmean l <= hi)%Qc.
Proof.
  intros P W F. assert (B : (lo * qsum (map snd l) <= qsum (map (fun p => fst p * snd p) l) /\ qsum (map (fun p => fst p * snd p) l) <= hi * qsum (map snd l))%Qc).
  { clear P. induction l as [|p l IH]; cbn [map]. { cbn. split; qclra. } rewrite !qsum_cons.
    destruct IH as [I1 I2]; [intros; apply W; right; auto|intros; apply F; right; auto|].
    pose proof (W p (or_introl eq_refl)). destruct (F p (or_introl eq_refl)) as [F1 F2]. split; qcnra. }
  unfold wmean. apply div_between; tauto.
Qed.
Lemma corner_weights_nonneg opt k xo yo ix iy f p : in_cell xi yi k xo yo ix iy ->
  ~ ((Z.abs opt = 2)%Z /\ (xi ix iy = xi (ix + k)%nat iy \/ yi ix iy = yi ix (iy + k)%nat)) -> In p (corner_weights dist xi yi f opt k xo yo ix iy) -> (0 <= snd p)%Qc.
Proof.
  intros (B1 & B2 & B3 & B4) ND. unfold corner_weights. destruct (Z.eqb_spec (Z.abs opt) 2) as [O|O].
  - assert (LT : forall a b v : Qc, (a <= v)%Qc -> (v <= b)%Qc -> a <> b -> (a < b)%Qc). { intros a b v L1 L2 N. destruct (Qclt_le_dec a b); auto. exfalso. apply N. apply Qcle_antisym; [eapply Qcle_trans; eauto|auto]. }
    assert (X : (xi ix iy < xi (ix + k)%nat iy)%Qc) by (apply (LT _ _ xo); auto).
    assert (Y : (yi ix iy < yi ix (iy + k)%nat)%Qc) by (apply (LT _ _ yo); auto).
    assert (FR : forall a b v : Qc, (a < b)%Qc -> (a <= v)%Qc -> (v <= b)%Qc -> (0 <= (v - a) / (b - a) /\ (v - a) / (b - a) <= 1)%Qc) by (intros; apply div_between; qclra).
    destruct (FR _ _ xo X B1 B2) as [W1 W2]. destruct (FR _ _ yo Y B3 B4) as [W3 W4]. revert W1 W2 W3 W4.
    generalize ((xo - xi ix iy) / (xi (ix + k)%nat iy - xi ix iy))%Qc ((yo - yi ix iy) / (yi ix (iy + k)%nat - yi ix iy))%Qc. intros wx wy W1 W2 W3 W4 I.
    repeat (destruct I as [<-|I]; [cbn [snd]; clear - W1 W2 W3 W4; qcnra|]). destruct I.
  - intros I. unfold inverse_square in I. apply in_map_iff in I as (q & <- & _). cbn [snd]. destruct (Qceqb_spec (snd q) 0%Qc) as [->|N]. { vm_compute. discriminate. }
    assert ((0 < / (snd q * snd q))%Qc); [|qclra]. apply Qcinv_pos. destruct (Qclt_le_dec 0 (snd q)) as [C|C]. { qcnra. } assert ((snd q < 0)%Qc). { destruct (Qcle_lt_or_eq _ _ C); auto. congruence. } qcnra.
Qed.
Lemma final_range fast dkm opt ncrit k xo yo c ng lo hi : separates nxi nyi xi yi dist xo yo -> distinct_nodes nxi nyi xi yi -> cell_found nxi nyi xi yi fast k xo yo c ->
  (forall a b, 1 <= a <= nxi -> 1 <= b <= nyi -> fi a b ng <> xmsg -> (lo <= fi a b ng /\ fi a b ng <= hi)%Qc) ->
  exists v, pfinal nxi nyi xi yi fi dist xmsg dkm opt ncrit k xo yo c ng = Some v /\ missing_or_between xmsg lo hi v.
Proof.
  intros HD DN CF F. unfold pfinal, first_val.
  destruct (Qceqb_spec (node_of fi xmsg (pe0 nxi nyi xi yi xo yo) ng) xmsg) as [N|N].
  - destruct (cell_target opt ncrit k xo yo c ng HD DN N) as (u & U1 & U2). { intros p ->. apply cell_found_in in CF. tauto. }
    assert (MU : missing_or_between xmsg lo hi u).
    { destruct c as [[ix iy]|]; [|left; auto]. apply cell_found_in in CF as [[C1 C2] C3]. cbn [fst snd] in *. apply pc_bounds in C3.
      destruct U2 as [(_ & _ & ->)|(ND & U2)]; [left; auto|]. destruct U2 as [(_ & S & ->)|(_ & ->)]; [right|left; auto]. apply wmean_between0; auto.
      - intros p I. apply in_present in I as [I _]. eapply corner_weights_nonneg; eauto.
      - intros p I. apply in_present in I as [I P]. assert (K : exists a b, 1 <= a <= nxi /\ 1 <= b <= nyi /\ fst p = fi a b ng).
        { unfold corner_weights in I. destruct (Z.abs opt =? 2)%Z.
          - repeat (destruct I as [<-|I]; [eexists; eexists; split; [|split; [|reflexivity]]; lia|]). destruct I.
          - unfold inverse_square, corners in I. cbn [map] in I. repeat (destruct I as [<-|I]; [eexists; eexists; split; [|split; [|reflexivity]]; cbn [fst snd]; lia|]). destruct I. }
        destruct K as (a & b & A & B & E). rewrite E in *. auto. }
    rewrite U1. unfold fallback_val. cbn [cell_is]. destruct (Qceqb_spec u xmsg) as [U|U]; [|eauto].
    destruct (present xmsg (around dist nxi nyi xi yi (fun a b => fi a b ng) dkm xo yo)) as [|p l] eqn:P; [eauto|]. eexists. split; [reflexivity|]. right. rewrite <- P. apply wmean_between.
    + rewrite P. discriminate.
    + intros q I. unfold inverse_square in I. apply in_map_iff in I as (r & <- & I). apply in_present in I as [I _]. apply around_pos in I as (I & _). cbn [snd]. apply Qcinv_pos. qcnra.
    + intros q I. unfold inverse_square in I. apply in_map_iff in I as (r & <- & I). apply in_present in I as [I NM]. apply around_pos in I as (_ & _ & ix & iy & X & Y & ->). cbn [fst] in *. auto.
  - unfold fallback_val. cbn [cell_is]. destruct (Qceqb_spec (node_of fi xmsg (pe0 nxi nyi xi yi xo yo) ng) xmsg) as [E|_]; [tauto|].
    eexists. split; [reflexivity|]. right. destruct (pe0 nxi nyi xi yi xo yo) as [[ex ey]|] eqn:E; cbn [node_of] in *; [|tauto]. apply find2_some in E as (E1 & E2 & _). cbn [fst snd] in *. apply F; auto; lia.
Qed.
Lemma final_exact fast dkm opt ncrit k xo yo c ng ix iy : cell_found nxi nyi xi yi fast k xo yo c -> 1 <= ix <= nxi -> 1 <= iy <= nyi -> xi ix iy = xo -> yi ix iy = yo -> fi ix iy ng <> xmsg ->
  (forall jx jy, 1 <= jx <= nxi -> 1 <= jy <= nyi -> xi jx jy = xo -> yi jx jy = yo -> (jx, jy) = (ix, iy)) ->
  pfinal nxi nyi xi yi fi dist xmsg dkm opt ncrit k xo yo c ng = Some (fi ix iy ng).
Proof.
  intros CF X Y EX EY P U. assert (E : pe0 nxi nyi xi yi xo yo = Some (ix, iy)).
  { apply first_pair_unique with (P := fun ix iy => xi ix iy = xo /\ yi ix iy = yo) (nx := nxi) (ny := nyi); [apply pe0_first|].
    cbn. repeat split; auto; try lia. intros jx jy J1 J2 [K1 K2]. specialize (U jx jy J1 J2 K1 K2). inversion U. lia. }
  unfold pfinal, first_val. rewrite E. cbn [node_of]. destruct (Qceqb_spec (fi ix iy ng) xmsg); [tauto|]. unfold fallback_val. cbn [cell_is]. destruct (Qceqb_spec (fi ix iy ng) xmsg); tauto.
Qed.
(** separable grids: the window search is the whole search *)
Lemma points_cell_whole k xo yo c x y : 2 <= nxi -> 2 <= nyi -> separable nxi nyi xi yi x y -> 1 <= k -> cell_found nxi nyi xi yi (pfast nxi nyi xi yi k) k xo yo c -> c = c_full nxi nyi xi yi k xo yo.
Proof.
  intros HX HY SEP HK CF. unfold cell_found in CF. destruct (pfast nxi nyi xi yi k) eqn:PF; auto. destruct CF as (gx & gy & G1 & G2 & ->).
  unfold pfast in PF. apply andb_prop in PF as [P1 P2]. apply andb_prop in P1 as [P0 P1]. apply Nat.ltb_lt in P0, P1. apply andb_prop in P2 as [P2 P3].
  rewrite increasing_ascending in P2, P3. destruct (sep_refs nxi nyi xi yi x y HX HY SEP) as [-> ->].
  destruct (earliest_ok (xr nxi xi) xo k) as (bx & E1 & B1); auto; rewrite ?xr_length; auto. destruct (earliest_ok (yr nyi yi) yo k) as (by_ & E2 & B2); auto; rewrite ?yr_length; auto.
  rewrite G1 in E1. rewrite G2 in E2. inversion E1; inversion E2; subst gx gy.
  assert (C : c_loc nxi nyi xi yi k (stride_index (length (xr nxi xi)) k bx) (stride_index (length (yr nyi yi)) k by_) xo yo = c_full nxi nyi xi yi k xo yo).
  { eapply local_cell_full; eauto; right; eauto. }
  rewrite C. unfold pick_c. destruct (c_full nxi nyi xi yi k xo yo); auto.
Qed.
End PointsT.
