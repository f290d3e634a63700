From Verif Require Import Base Buffer Loops VH_Model VH_Proofs LM_Model LM_Spec LM_Proofs LM_Proofs3 TG_Model RC_Model RC_Spec RC_Proofs RC_Proofs2 RC_Proofs3.
Local Open Scope nat_scope.

(** * means stay between the extremes *)
Lemma div_between lo hi s t : (0 < s)%Qc -> (lo * s <= t)%Qc -> (t <= hi * s)%Qc -> (lo <= t / s /\ t / s <= hi)%Qc.
Proof.
  intros P B1 B2. assert (E : (t = (t / s) * s)%Qc) by (field; intro Z; rewrite Z in P; qclra). set (q := (t / s)%Qc) in *. clearbody q. subst t. split.
  - destruct (Qclt_le_dec q lo) as [C|C]; auto. exfalso. qcnra.
  - destruct (Qclt_le_dec hi q) as [C|C]; auto. exfalso. qcnra.
Qed.
Lemma wmean_between lo hi l : l <> [] -> (forall p, In p l -> (0 < snd p)%Qc) -> (forall p, In p l -> (lo <= fst p /\ fst p <= hi)%Qc) ->
  (lo <= wmean l /\ wmean l <= hi)%Qc.
Proof.
  intros N W F. assert (P : (0 < qsum (map snd l))%Qc). { apply qsum_pos. { destruct l; [congruence|discriminate]. } intros q Q. apply in_map_iff in Q as (p & <- & Q). auto. }
  assert (B : (lo * qsum (map snd l) <= qsum (map (fun p => fst p * snd p) l) /\ qsum (map (fun p => fst p * snd p) l) <= hi * qsum (map snd l))%Qc).
  { clear N P. induction l as [|p l IH]; cbn [map]. { cbn. split; qclra. } rewrite !qsum_cons.
    destruct IH as [I1 I2]; [intros; apply W; right; auto|intros; apply F; right; auto|].
    pose proof (W p (or_introl eq_refl)). destruct (F p (or_introl eq_refl)) as [F1 F2].
    generalize dependent (qsum (map snd l)). generalize dependent (qsum (map (fun p => fst p * snd p)%Qc l)). intros s s1 t t1. split; qcnra. }
  destruct B as [B1 B2]. unfold wmean. apply div_between; auto.
Qed.
Lemma in_present m l p : In p (present m l) -> In p l /\ fst p <> m.
Proof. unfold present. rewrite filter_In. intros [I P]. split; auto. destruct (Qceqb_spec (fst p) m); [discriminate|auto]. Qed.
Lemma corner_mean_range m ncrit l v lo hi : (forall p, In p l -> fst p <> m -> (lo <= fst p /\ fst p <= hi)%Qc) -> corner_mean m ncrit l v -> missing_or_between m lo hi v.
Proof.
  intros H [(p & F & ->)|(F & [(N & C & ->)|(_ & ->)])]; [right|right|left; auto].
  - apply find_some in F as [I _]. apply in_present in I as [I P]. auto.
  - apply wmean_between.
    + unfold inverse_square. destruct (present m l); [cbn in N; lia|discriminate].
    + intros p I. apply (inverse_square_pos _ F). apply in_map. auto.
    + intros p I. unfold inverse_square in I. apply in_map_iff in I as (q & <- & I). apply in_present in I as [I P]. cbn. auto.
Qed.
Lemma filled_range l m k v lo hi : (forall j u, nth_error l j = Some u -> missing_or_between m lo hi u) -> filled false 2 l m k v -> missing_or_between m lo hi v.
Proof.
  intros H F. destruct F as [v E N|a b u v G K A E1 E2 L|a b G K A B L|b v G K E|a u G K A E|G K]; try (left; auto; fail); eauto.
  assert (U : (lo <= u /\ u <= hi)%Qc). { destruct (H _ _ E1) as [->|]; auto. destruct G as (_ & _ & [G|G] & _); [lia|congruence]. }
  assert (V : (lo <= v /\ v <= hi)%Qc). { destruct (H _ _ E2) as [->|]; auto. destruct G as (_ & _ & _ & G); congruence. }
  right. unfold on_line.
  set (num := qz (Z.of_nat k - Z.of_nat (a - 1))). set (den := qz (Z.of_nat b - Z.of_nat (a - 1))).
  assert (N0 : (0 <= num)%Qc) by (unfold num; change 0%Qc with (qz 0); apply qz_le; lia).
  assert (D0 : (num <= den)%Qc) by (unfold num, den; apply qz_le; lia).
  assert (P : (0 < den)%Qc) by (unfold den; change 0%Qc with (qz 0); apply qz_lt; lia).
  assert (T : (0 <= num / den /\ num / den <= 1)%Qc).
  { apply div_between; auto; qclra. }
  destruct T as [T1 T2]. set (t := (num / den)%Qc) in *. clearbody t. clear - U V T1 T2. destruct U, V. split; qcnra.
Qed.
(** leading and trailing missing stretches stay missing *)
Lemma filled_leading l m k v : (forall j, j <= k -> nth_error l j = Some m) -> filled false 2 l m k v -> v = m.
Proof.
  intros H F. destruct F as [v E N|a b u v G K A E1 E2 L|a b G K A B L|b v G K E|a u G K A E|G K]; auto.
  - rewrite H in E by lia. congruence.
  - exfalso. destruct G as (_ & _ & [G|G] & _); [lia|]. apply G. apply H. lia.
Qed.
Lemma filled_trailing l m k v : (forall j, k <= j < length l -> nth_error l j = Some m) -> k < length l -> filled false 2 l m k v -> v = m.
Proof.
  intros H HK F. destruct F as [v E N|a b u v G K A E1 E2 L|a b G K A B L|b v G K E|a u G K A E|G K]; auto.
  - rewrite H in E by lia. congruence.
  - exfalso. destruct G as (_ & _ & _ & G). apply G. apply H. assert (nth_error l b <> None) by congruence. apply nth_error_Some in H0. lia.
Qed.
Lemma filled_kept l m k v u : nth_error l k = Some u -> u <> m -> filled false 2 l m k v -> v = u.
Proof.
  intros E N F. destruct F as [v E' N'|a b u' v G K A E1 E2 L|a b G K A B L|b v G K E'|a u' G K A E'|G K]; try congruence.
  all: exfalso; destruct G as (_ & G & _); rewrite G in E by lia; congruence.
Qed.

Section Res.
Variables (nxi nyi : nat) (xi yi : nat -> nat -> Qc) (fi : nat -> nat -> nat -> Qc).
Variables (dist : Qc -> Qc -> Qc -> Qc -> Qc) (huge xmsg : Qc).
Lemma res_range ncrit x y e c ng lo hi : 2 <= nxi -> 2 <= nyi ->
  (forall ix iy, 1 <= ix <= nxi -> 1 <= iy <= nyi -> fi ix iy ng <> xmsg -> (lo <= fi ix iy ng /\ fi ix iy ng <= hi)%Qc) ->
  (forall p, e = Some p -> 1 <= fst p <= nxi /\ 1 <= snd p <= nyi) ->
  (forall p, c = Some p -> 1 <= fst p <= nxi - 2 /\ 1 <= snd p <= nyi - 2) ->
  missing_or_between xmsg lo hi (res xi yi fi dist huge xmsg ncrit 2 x y e c ng).
Proof.
  intros HX HY H He Hc. unfold res. destruct (Qceqb_spec (node_of fi xmsg e ng) xmsg) as [E|E].
  - destruct c as [[cx cy]|]; [|left; auto]. specialize (Hc _ eq_refl). cbn [fst snd] in Hc.
    eapply corner_mean_range; [|apply curv_value_ok]. intros p I. unfold corners in I. cbn [map fst snd] in I.
    repeat (destruct I as [<-|I]; [cbn [fst]; apply H; lia|]). destruct I.
  - right. unfold node_of in *. destruct e as [[ex ey]|]; [|congruence]. specialize (He _ eq_refl). cbn [fst snd] in He. apply H; auto; lia.
Qed.
Lemma searches_bounds xo yo x y e c : 2 <= nxi -> 2 <= nyi -> searches nxi nyi xi yi xo yo x y e c ->
  (forall p, e = Some p -> 1 <= fst p <= nxi /\ 1 <= snd p <= nyi) /\ (forall p, c = Some p -> 1 <= fst p <= nxi - 2 /\ 1 <= snd p <= nyi - 2).
Proof.
  intros HX HY S. unfold searches in S. destruct (fast_of nxi nyi xi yi xo yo).
  - destruct S as (gx & gy & _ & _ & -> & ->). split; intros p P.
    + unfold pick_e in P. destruct (c_loc _ _ _ _ _ _ _ _ _) eqn:C; [|destruct (e_loc _ _ _ _ _ _ _ _) eqn:E]; try (inversion P; subst; apply find2_some in E; lia); apply find2_some in P; lia.
    + unfold pick_c in P. destruct (c_loc _ _ _ _ _ _ _ _ _) eqn:C; [inversion P; subst; apply find2_some in C; lia|]. apply find2_some in P. lia.
  - destruct S as (-> & ->). split; intros p P; apply find2_some in P; lia.
Qed.
(** the searches are the searches of the whole grid *)
Definition whole_search (xo yo : list Qc) : Prop :=
  (exists x y, separable nxi nyi xi yi x y /\ spaced eps_curv x /\ spaced eps_curv y) \/
  ~ (ascending (map (fun ix => xi ix 1) (seq 1 nxi)) /\ ascending (map (fun iy => yi 1 iy) (seq 1 nyi)) /\ ascending xo /\ ascending yo).
Lemma fast_of_spec xo yo : fast_of nxi nyi xi yi xo yo = true <-> ascending (map (fun ix => xi ix 1) (seq 1 nxi)) /\ ascending (map (fun iy => yi 1 iy) (seq 1 nyi)) /\ ascending xo /\ ascending yo.
Proof. unfold fast_of. rewrite !andb_true_iff, !increasing_ascending. unfold xr, yr. tauto. Qed.
Lemma sep_refs x y : 2 <= nxi -> 2 <= nyi -> separable nxi nyi xi yi x y -> x = xr nxi xi /\ y = yr nyi yi.
Proof.
  intros HX HY (LX & LY & S). split; apply rd_ext.
  - rewrite xr_length. auto.
  - intros i I. unfold xr. rewrite rd_map_seq by lia. apply S; lia.
  - rewrite yr_length. auto.
  - intros i I. unfold yr. rewrite rd_map_seq by lia. apply S; lia.
Qed.
Lemma whole_searches xo yo x y e c : 2 <= nxi -> 2 <= nyi -> whole_search xo yo -> searches nxi nyi xi yi xo yo x y e c -> e = e_full nxi nyi xi yi x y /\ c = c_full nxi nyi xi yi 2 x y.
Proof.
  intros HX HY W S. unfold searches in S. destruct (fast_of nxi nyi xi yi xo yo) eqn:F; [|auto].
  apply fast_of_spec in F. destruct W as [(ax & ay & SEP & SX & SY)|W]; [|tauto]. destruct S as (gx & gy & G1 & G2 & -> & ->).
  destruct (sep_refs _ _ HX HY SEP) as [-> ->]. destruct F as (A1 & A2 & _). fold (xr nxi xi) in A1. fold (yr nyi yi) in A2.
  assert (E : e_loc nxi nyi xi yi gx gy x y = e_full nxi nyi xi yi x y) by (eapply local_exact_full; eauto).
  assert (C : c_loc nxi nyi xi yi 2 gx gy x y = c_full nxi nyi xi yi 2 x y) by (eapply local_cell_full; eauto).
  rewrite E, C. unfold pick_e, pick_c. destruct (e_full nxi nyi xi yi x y), (c_full nxi nyi xi yi 2 x y); auto.
Qed.
Lemma res_target ncrit x y ng : 2 <= nxi -> 2 <= nyi ->
  curv_target nxi nyi xi yi (fun a b => fi a b ng) dist xmsg eps_curv ncrit x y
    (res xi yi fi dist huge xmsg ncrit 2 x y (e_full nxi nyi xi yi x y) (c_full nxi nyi xi yi 2 x y) ng).
Proof.
  intros HX HY. exists (e_full nxi nyi xi yi x y), (c_full nxi nyi xi yi 2 x y). split; [|split].
  - apply find2_full. intros ix iy _ _. exact (pe_within xi yi eps_curv x y ix iy).
  - apply find2_full. intros ix iy _ _. exact (pc_in_cell xi yi 2 x y ix iy).
  - unfold res, node_of. destruct (e_full nxi nyi xi yi x y) as [[ex ey]|].
    + destruct (Qceqb_spec (fi ex ey ng) xmsg) as [E|E]; [right|left; auto]. split; auto.
      destruct (c_full nxi nyi xi yi 2 x y) as [[cx cy]|]; auto. apply curv_value_ok.
    + destruct (Qceqb_spec xmsg xmsg) as [E|E]; [|congruence]. right. split; auto.
      destruct (c_full nxi nyi xi yi 2 x y) as [[cx cy]|]; auto. apply curv_value_ok.
Qed.
(** a target beyond the grid, in any search *)
Lemma res_outside xo yo ncrit x y e c ng : 2 <= nxi -> 2 <= nyi -> searches nxi nyi xi yi xo yo x y e c ->
  (forall ix iy, 1 <= ix <= nxi -> 1 <= iy <= nyi -> (x < xi ix iy - eps_curv)%Qc) \/ (forall ix iy, 1 <= ix <= nxi -> 1 <= iy <= nyi -> (xi ix iy + eps_curv < x)%Qc) \/
  (forall ix iy, 1 <= ix <= nxi -> 1 <= iy <= nyi -> (y < yi ix iy - eps_curv)%Qc) \/ (forall ix iy, 1 <= ix <= nxi -> 1 <= iy <= nyi -> (yi ix iy + eps_curv < y)%Qc) ->
  res xi yi fi dist huge xmsg ncrit 2 x y e c ng = xmsg.
Proof.
  intros HX HY S O. assert (E0 : (0 < eps_curv)%Qc) by reflexivity.
  assert (NE : forall lx hx ly hy, 1 <= lx -> hx <= nxi -> 1 <= ly -> hy <= nyi -> find2 (pe xi yi eps_curv x y) (rng lx hx) (rng ly hy) = None).
  { intros. destruct (find2 _ _ _) as [p|] eqn:E; auto. exfalso. apply find2_some in E as (P1 & P2 & P). apply pe_within in P as ((W1 & W2) & (W3 & W4)).
    destruct O as [O|[O|[O|O]]]; specialize (O (fst p) (snd p) ltac:(lia) ltac:(lia)); qclra. }
  assert (NC : forall lx hx ly hy, 1 <= lx -> hx <= nxi - 2 -> 1 <= ly -> hy <= nyi - 2 -> find2 (pc xi yi 2 x y) (rng lx hx) (rng ly hy) = None).
  { intros. destruct (find2 _ _ _) as [p|] eqn:E; auto. exfalso. apply find2_some in E as (P1 & P2 & P). apply pc_in_cell in P as (W1 & W2 & W3 & W4).
    destruct O as [O|[O|[O|O]]].
    - specialize (O (fst p) (snd p) ltac:(lia) ltac:(lia)); qclra.
    - specialize (O (fst p + 2) (snd p) ltac:(lia) ltac:(lia)); qclra.
    - specialize (O (fst p) (snd p) ltac:(lia) ltac:(lia)); qclra.
    - specialize (O (fst p) (snd p + 2) ltac:(lia) ltac:(lia)); qclra. }
  assert (X : e = None /\ c = None).
  { unfold searches, e_loc, c_loc, e_full, c_full in S. rewrite !NE, !NC in S by lia. destruct (fast_of nxi nyi xi yi xo yo); [|auto].
    destruct S as (gx & gy & _ & _ & S). rewrite !NE, !NC in S by lia. destruct S. split; auto. }
  destruct X as [-> ->]. unfold res, node_of. destruct (Qceqb_spec xmsg xmsg); auto.
Qed.
End Res.
