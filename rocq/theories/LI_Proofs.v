From Verif Require Import Base Buffer Loops VH_Model VH_Spec VH_Proofs LM_Proofs LI_Model LI_Spec.
Local Open Scope nat_scope.

(** ** The sweep, for either direction: [lt] is [<] or [>] *)
Section Sweep.
Variables (lt : Qc -> Qc -> Prop) (past : Qc -> Qc -> bool).
Hypothesis past_spec : forall a b, reflect (lt b a) (past a b).
Hypothesis lt_trans : forall a b c, lt a b -> lt b c -> lt a c.
Hypothesis lt_irrefl : forall a, ~ lt a a.
Hypothesis lt_total : forall a b, lt a b \/ a = b \/ lt b a.
Hypothesis lt_dir : (forall a b, lt a b <-> (a < b)%Qc) \/ (forall a b, lt a b <-> (b < a)%Qc).

Definition sorted_by (l : list Qc) : Prop := forall i j a b, i < j -> rd l i = Some a -> rd l j = Some b -> lt a b.
Variables (xs fs xtail ftail : list Qc) (m : Qc).
Hypothesis LEN : length xs = length fs.
Hypothesis two : 2 <= length xs.
Hypothesis sorted : sorted_by xs.
Notation nin := (length xs).
Notation xi := (xs ++ xtail).
Notation fi := (fs ++ ftail).

Lemma rd_xi k : 1 <= k <= nin -> rd xi k = rd xs k. Proof. intros H. apply rd_app1. lia. Qed.
Lemma rd_fi k : 1 <= k <= nin -> rd fi k = rd fs k. Proof. intros H. apply rd_app1. lia. Qed.
Lemma advance_ok t : forall fuel ni, nin - ni < fuel -> 1 <= ni <= nin - 1 ->
  (ni = 1 \/ exists x, rd xs ni = Some x /\ lt x t) ->
  exists ni', advance fuel past nin xi t ni = Some ni' /\ ni <= ni' <= nin - 1 /\ (ni' = 1 \/ exists x, rd xs ni' = Some x /\ lt x t) /\
    (ni' = nin - 1 \/ exists x, rd xs (ni' + 1) = Some x /\ ~ lt x t).
Proof.
  induction fuel as [|fuel IH]; intros ni Hf Hn Hp; [lia|]. cbn [advance]. destruct (Nat.ltb_spec (ni + 1) nin) as [C|C].
  - destruct (rd_Some xs (i := ni + 1)) as [x Ex]; [lia|]. rewrite rd_xi, Ex by lia. cbn [bind]. destruct (past_spec t x) as [P|P].
    + destruct (IH (ni + 1)) as [ni' [E [H1 [H2 H3]]]]; try lia; [right; eauto|]. exists ni'. split; auto. split; [lia|]. auto.
    + exists ni. split; auto. split; [lia|]. split; auto. right. eauto.
  - exists ni. split; auto. split; [lia|]. split; auto. left. lia.
Qed.
Lemma between_of a b t : lt a t -> lt t b -> strictly_between t a b.
Proof. intros H1 H2. unfold strictly_between. destruct lt_dir as [D|D]; rewrite D in H1, H2; auto. Qed.
Lemma outside_low t : (forall x, In x xs -> lt t x) -> linear_at xs fs m t m.
Proof. intros H. apply la_outside. destruct lt_dir as [D|D]; [left|right]; intros x Hx; apply D; auto. Qed.
Lemma outside_high t : (forall x, In x xs -> lt x t) -> linear_at xs fs m t m.
Proof. intros H. apply la_outside. destruct lt_dir as [D|D]; [right|left]; intros x Hx; apply D; auto. Qed.
Lemma at_cursor_ok t ni : 1 <= ni <= nin - 1 -> (ni = 1 \/ exists x, rd xs ni = Some x /\ lt x t) -> (ni = nin - 1 \/ exists x, rd xs (ni + 1) = Some x /\ ~ lt x t) ->
  exists v, at_cursor past xi fi m t ni = Some v /\ linear_at xs fs m t v.
Proof.
  intros Hn H1 H2. unfold at_cursor.
  destruct (rd_Some xs (i := ni)) as [x0 E0]; [lia|]. destruct (rd_Some xs (i := ni + 1)) as [x1 E1]; [lia|].
  destruct (rd_Some fs (i := ni)) as [f0 F0]; [lia|]. destruct (rd_Some fs (i := ni + 1)) as [f1 F1]; [lia|].
  rewrite !rd_xi, !rd_fi, E0, E1, F0, F1 by lia. cbn [bind].
  assert (N0 : nth_error xs (ni - 1) = Some x0) by (rewrite <- rd_nth by lia; auto).
  assert (N1 : nth_error xs (ni - 1 + 1) = Some x1) by (rewrite nth_rd; replace (ni - 1 + 1 + 1) with (ni + 1) by lia; auto).
  assert (G0 : nth_error fs (ni - 1) = Some f0) by (rewrite <- rd_nth by lia; auto).
  assert (G1 : nth_error fs (ni - 1 + 1) = Some f1) by (rewrite nth_rd; replace (ni - 1 + 1 + 1) with (ni + 1) by lia; auto).
  destruct (Qceqb_spec t x0) as [->|A0]. { exists f0. split; auto. eapply la_point; eauto. }
  destruct (Qceqb_spec t x1) as [->|A1]. { exists f1. split; auto. eapply la_point; eauto. }
  destruct (past_spec t x0) as [P0|P0], (past_spec x1 t) as [P1|P1]; cbn [andb].
  - destruct (Qceqb_spec f0 m) as [B0|B0]; cbn [negb andb].
    { exists m. split; [reflexivity|]. apply (la_gap xs fs m t (ni - 1) x0 x1 f0 f1); auto using between_of. }
    destruct (Qceqb_spec f1 m) as [B1|B1]; cbn [negb].
    { exists m. split; [reflexivity|]. apply (la_gap xs fs m t (ni - 1) x0 x1 f0 f1); auto using between_of. }
    eexists. split; [reflexivity|]. replace (f0 + (f1 - f0) / (x1 - x0) * (t - x0))%Qc with (along f0 f1 (linear_part t x0 x1)).
    + eapply la_line; eauto using between_of.
    + unfold along, linear_part, Qcdiv. ring.
  - exists m. split; auto. apply outside_high. assert (L1 : lt x1 t) by (destruct (lt_total x1 t) as [|[|]]; auto; [subst; congruence|contradiction]).
    assert (E : ni = nin - 1). { destruct H2 as [|[x [X1 X2]]]; auto. rewrite E1 in X1. injection X1 as <-. contradiction. }
    intros x Hx. apply In_rd in Hx. destruct Hx as [k [K Ek]]. destruct (Nat.eq_dec k (ni + 1)) as [->|]. { rewrite E1 in Ek. injection Ek as <-. auto. }
    apply lt_trans with x1; auto. eapply sorted; [|exact Ek|exact E1]. lia.
  - exists m. split; auto. apply outside_low. assert (L0 : lt t x0) by (destruct (lt_total t x0) as [|[|]]; auto; [contradiction|exfalso; auto]).
    assert (ni = 1) as ->. { destruct H1 as [|[x [X1 X2]]]; auto. rewrite E0 in X1. injection X1 as <-. exfalso. apply (lt_irrefl t). eauto. }
    intros x Hx. apply In_rd in Hx. destruct Hx as [k [K Ek]]. destruct (Nat.eq_dec k 1) as [->|]. { rewrite E0 in Ek. injection Ek as <-. auto. }
    apply lt_trans with x0; auto. eapply sorted; [|exact E0|exact Ek]. lia.
  - exfalso. apply (lt_irrefl t). assert (lt x0 x1) by (eapply sorted; [|exact E0|exact E1]; lia).
    apply lt_trans with x0; [destruct (lt_total t x0) as [|[|]]; auto; contradiction|]. apply lt_trans with x1; auto. destruct (lt_total x1 t) as [|[|]]; auto; [subst; congruence|contradiction].
Qed.
Lemma sweep_ok xo : (forall i j a b, i < j -> nth_error xo i = Some a -> nth_error xo j = Some b -> lt a b) -> forall ni, 1 <= ni <= nin - 1 ->
  (ni = 1 \/ forall t, In t xo -> exists x, rd xs ni = Some x /\ lt x t) ->
  exists vs, sweep past nin xi fi m xo ni = Some vs /\ length vs = length xo /\
    forall j t, nth_error xo j = Some t -> exists v, nth_error vs j = Some v /\ linear_at xs fs m t v.
Proof.
  induction xo as [|t xo IH]; intros Hs ni Hn Hp.
  - exists []. split; auto. split; auto. intros [|j]; discriminate.
  - cbn [sweep]. destruct (advance_ok t (nin + 1) ni) as [ni' [E [B1 [B2 B3]]]]; try lia.
    { destruct Hp as [->|Hp]; auto. right. apply Hp. simpl. auto. }
    rewrite E. cbn [bind]. destruct (at_cursor_ok t ni') as [v [Ev V]]; auto; [lia|]. rewrite Ev. cbn [bind].
    destruct (IH ltac:(intros i j a b Hij Ha Hb; apply (Hs (Datatypes.S i) (Datatypes.S j) a b); auto; lia) ni') as [vs [Es [Lv Hv]]]; [lia| |].
    { destruct B2 as [->|[x [X1 X2]]]; auto. right. intros u Hu. exists x. split; auto. apply lt_trans with t; auto.
      apply In_nth_error in Hu. destruct Hu as [j Hj]. apply (Hs 0 (Datatypes.S j) t u); auto. lia. }
    rewrite Es. cbn [bind]. exists (v :: vs). split; auto. split; [simpl; auto|]. intros [|j] u Hu; simpl in *; [injection Hu as <-; eauto|auto].
Qed.
End Sweep.

Definition goes (iflag : Z) (l : list Qc) : Prop := (iflag = 1%Z /\ goes_up l) \/ (iflag = (-1)%Z /\ goes_down l).
Lemma up_sorted l : goes_up l -> sorted_by Qclt l.
Proof.
  intros G i j a b H A B. apply rd_Some_bounds in A as BA. apply rd_Some_bounds in B as BB. rewrite rd_nth in A, B by lia. eapply G; [|exact A|exact B]. lia.
Qed.
Lemma down_sorted l : goes_down l -> sorted_by (fun a b => (b < a)%Qc) l.
Proof.
  intros G i j a b H A B. apply rd_Some_bounds in A as BA. apply rd_Some_bounds in B as BB. rewrite rd_nth in A, B by lia. eapply G; [|exact A|exact B]. lia.
Qed.
Lemma Qc_total a b : (a < b)%Qc \/ a = b \/ (b < a)%Qc.
Proof. destruct (Qc_dec a b) as [[H|H]|H]; auto. Qed.
Lemma Qclt_irrefl a : ~ (a < a)%Qc. Proof. intros H. apply (Qclt_not_le _ _ H), Qcle_refl. Qed.
Lemma lin2int1_ok iflag xs fs xt ft xo m : length xs = length fs -> 2 <= length xs -> goes iflag xs -> goes iflag xo ->
  exists vs, dlin2int1 (length xs) (xs ++ xt) (fs ++ ft) xo m iflag = Some vs /\ length vs = length xo /\
    forall j t, nth_error xo j = Some t -> exists v, nth_error vs j = Some v /\ linear_at xs fs m t v.
Proof.
  intros L H2 G1 G2. unfold dlin2int1. destruct G1 as [[-> G1]|[-> G1]], G2 as [[E2 G2]|[E2 G2]]; try discriminate.
  - cbn [Z.eqb]. change (1 =? 1)%Z with true. cbv iota. apply (sweep_ok Qclt); auto; try lia.
    + intros a b. apply Qcltb_spec. + apply Qclt_trans. + apply Qclt_irrefl. + apply Qc_total. + left. tauto. + apply up_sorted. auto.
  - change (-1 =? 1)%Z with false. change (-1 =? -1)%Z with true. cbv iota. apply (sweep_ok (fun a b => (b < a)%Qc)); auto; try lia.
    + intros a b. apply Qcltb_spec. + intros a b c X Y. eapply Qclt_trans; eauto. + apply Qclt_irrefl. + intros a b. destruct (Qc_total a b) as [|[|]]; auto. + right. tauto. + apply down_sorted. auto.
Qed.

(** ** Monotonicity tests *)
Lemma goes_up_cons a l : goes_up (a :: l) <-> goes_up l /\ (match l with b :: _ => (a < b)%Qc | [] => True end).
Proof.
  split.
  - intros G. split. { intros i j p q H A B. apply (G (Datatypes.S i) (Datatypes.S j)); auto. lia. } destruct l; auto. apply (G 0 1); auto.
  - intros [G H] i j p q Hij A B. destruct j as [|j]; [lia|]. simpl in B. destruct i as [|i]; simpl in A; [|apply (G i j); auto; lia].
    injection A as <-. destruct l as [|b l]; [destruct j; discriminate|]. destruct j as [|j]; simpl in B; [injection B as <-; auto|].
    apply Qclt_trans with b; auto. apply (G 0 (Datatypes.S j)); auto. lia.
Qed.
Lemma goes_down_cons a l : goes_down (a :: l) <-> goes_down l /\ (match l with b :: _ => (b < a)%Qc | [] => True end).
Proof.
  split.
  - intros G. split. { intros i j p q H A B. apply (G (Datatypes.S i) (Datatypes.S j)); auto. lia. } destruct l; auto. apply (G 0 1); auto.
  - intros [G H] i j p q Hij A B. destruct j as [|j]; [lia|]. simpl in B. destruct i as [|i]; simpl in A; [|apply (G i j); auto; lia].
    injection A as <-. destruct l as [|b l]; [destruct j; discriminate|]. destruct j as [|j]; simpl in B; [injection B as <-; auto|].
    apply Qclt_trans with b; auto. apply (G 0 (Datatypes.S j)); auto. lia.
Qed.
Lemma steps_up l : reflect (goes_up l) (all_steps (fun b a => Qcleb b a) l).
Proof.
  induction l as [|a l IH]; [constructor; intros [|i] j p q; discriminate|]. cbn [all_steps]. destruct l as [|b l].
  - constructor. apply goes_up_cons. split; auto. intros [|i] j p q; discriminate.
  - destruct (Qcleb_spec b a) as [C|C].
    + constructor. intros G. apply goes_up_cons in G. destruct G as [_ G]. apply (Qclt_not_le _ _ G). auto.
    + destruct IH as [G|G]; constructor.
      * apply goes_up_cons. split; auto. apply Qcnot_le_lt. auto.
      * intros G'. apply goes_up_cons in G'. tauto.
Qed.
Lemma steps_down l : reflect (goes_down l) (all_steps (fun b a => Qcleb a b) l).
Proof.
  induction l as [|a l IH]; [constructor; intros [|i] j p q; discriminate|]. cbn [all_steps]. destruct l as [|b l].
  - constructor. apply goes_down_cons. split; auto. intros [|i] j p q; discriminate.
  - destruct (Qcleb_spec a b) as [C|C].
    + constructor. intros G. apply goes_down_cons in G. destruct G as [_ G]. apply (Qclt_not_le _ _ G). auto.
    + destruct IH as [G|G]; constructor.
      * apply goes_down_cons. split; auto. apply Qcnot_le_lt. auto.
      * intros G'. apply goes_down_cons in G'. tauto.
Qed.
Lemma monoid1_up l : goes_up l -> dmonoid1 l = (1, 0)%Z.
Proof.
  intros G. unfold dmonoid1. destruct l as [|a [|b l]]; auto. pose proof (proj1 (goes_up_cons _ _) G) as [_ H].
  destruct (Qcltb_spec a b); [|contradiction]. destruct (steps_up (a :: b :: l)); [auto|contradiction].
Qed.
Lemma monoid1_down l : 2 <= length l -> goes_down l -> dmonoid1 l = (-1, 0)%Z.
Proof.
  intros L G. unfold dmonoid1. destruct l as [|a [|b l]]; simpl in L; try lia. pose proof (proj1 (goes_down_cons _ _) G) as [_ H].
  destruct (Qcltb_spec a b) as [C|C]; [destruct (Qclt_irrefl a); eapply Qclt_trans; eauto|]. destruct (steps_down (a :: b :: l)); [auto|contradiction].
Qed.
Lemma monoid1_inv l f e : dmonoid1 l = (f, e) -> f <> 0%Z -> e = 0%Z /\ goes f l /\ (f = 1%Z \/ 2 <= length l).
Proof.
  unfold dmonoid1. destruct l as [|a [|b l]].
  - intros E _. injection E as <- <-. split; auto. split; auto. left. split; auto. intros [|i] j p q; discriminate.
  - intros E _. injection E as <- <-. split; auto. split; auto. left. split; auto. intros i j p q H A B. destruct i as [|[|i]], j as [|[|j]]; try discriminate; lia.
  - destruct (Qcltb a b); [destruct (steps_up (a :: b :: l)) as [G|G]|destruct (steps_down (a :: b :: l)) as [G|G]]; intros E N; injection E as <- <-; try congruence.
    + split; auto. split; auto. left. auto. + split; auto. split; [right; auto|right; simpl; lia].
Qed.
Lemma monoid2_ok xi xo f e : dmonoid2 xi xo = (f, e) -> f <> 0%Z -> e = 0%Z -> goes f xi /\ goes f xo.
Proof.
  unfold dmonoid2. destruct (dmonoid1 xi) as [f1 e1] eqn:E1. destruct (Z.eqb_spec f1 0). { intros E. injection E as <- <-. congruence. }
  destruct (dmonoid1 xo) as [f2 e2] eqn:E2. cbn [fst]. destruct (Z.eqb_spec f2 0). { intros E. injection E as <- <-. discriminate. }
  destruct (Z.eqb_spec f1 f2) as [->|]; cbn [negb]; intros E; injection E as <- <-; [|discriminate]. intros _ _.
  destruct (monoid1_inv _ _ _ E1 n) as [_ [G1 _]]. destruct (monoid1_inv _ _ _ E2 n0) as [_ [G2 _]]. auto.
Qed.
