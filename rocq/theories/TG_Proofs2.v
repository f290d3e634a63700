From Coq Require Import Qround.
From Verif Require Import Base Buffer Loops VH_Model VH_Proofs LI_Proofs TG_Model TG_Spec TG_Proofs.
Local Open Scope nat_scope.

(** rounding *)
Lemma floor_spec (q : Qc) : (qz (Qfloor q) <= q /\ q < qz (Qfloor q + 1))%Qc.
Proof.
  split.
  - unfold Qcle, qz. rewrite this_Q2Qc. apply Qfloor_le.
  - unfold Qclt, qz. rewrite this_Q2Qc. apply Qlt_floor.
Qed.
Lemma floor_unique (q : Qc) k : (qz k <= q)%Qc -> (q < qz (k + 1))%Qc -> Qfloor q = k.
Proof.
  intros A B. destruct (floor_spec q) as [C D].
  assert (qz k < qz (Qfloor q + 1))%Qc by (eapply Qcle_lt_trans; eauto). assert (qz (Qfloor q) < qz (k + 1))%Qc by (eapply Qcle_lt_trans; eauto).
  apply (proj1 (qz_lt _ _)) in H. apply (proj1 (qz_lt _ _)) in H0.
  lia.
Qed.
Lemma f_int_pos q : (0 <= q)%Qc -> (qz (f_int q) <= q /\ q < qz (f_int q + 1))%Qc.
Proof. intros H. unfold f_int. destruct (Qcleb_spec 0 q); [|contradiction]. apply floor_spec. Qed.
Lemma f_int_neg q : (q < 0)%Qc -> (qz (- f_int q) <= - q /\ - q < qz (- f_int q + 1))%Qc.
Proof.
  intros H. unfold f_int. destruct (Qcleb_spec 0 q) as [L|]; [exfalso; revert H; apply Qcle_not_lt; auto|].
  rewrite Z.opp_involutive. apply floor_spec.
Qed.
Lemma f_nint_pos q : (0 <= q)%Qc -> (qz (f_nint q) <= q + dec 1 2 /\ q + dec 1 2 < qz (f_nint q + 1))%Qc.
Proof. intros H. unfold f_nint. destruct (Qcleb_spec 0 q); [|contradiction]. apply floor_spec. Qed.
Lemma half_pos : (0 < dec 1 2)%Qc. Proof. reflexivity. Qed.
Lemma half_lt1 : (dec 1 2 < 1)%Qc. Proof. reflexivity. Qed.
Lemma half_dbl : (dec 1 2 + dec 1 2 = 1)%Qc. Proof. apply Qc_is_canon. reflexivity. Qed.
Lemma f_nint_int k : (0 <= k)%Z -> f_nint (qz k) = k.
Proof.
  intros H. unfold f_nint. destruct (Qcleb_spec 0 (qz k)) as [L|N]; [|exfalso; apply N; rewrite <- qz_0; apply qz_le; auto].
  pose proof half_pos. pose proof half_lt1. apply floor_unique; rewrite ?qz_add, ?qz_1; set (h := dec 1 2) in *; clearbody h; qclra.
Qed.

(** grid positions *)
Lemma pos_inj mx m n m' n' : 1 <= m <= mx -> 1 <= m' <= mx -> 1 <= n -> 1 <= n' -> (n - 1) * mx + m = (n' - 1) * mx + m' -> m = m' /\ n = n'.
Proof. intros A B C D E. assert (n = n') by nia. subst. split; auto; nia. Qed.
Lemma pos_range mx ny m n : 1 <= m <= mx -> 1 <= n <= ny -> 1 <= (n - 1) * mx + m <= mx * ny.
Proof. nia. Qed.
Lemma increasing_inj g i j a : increasing g -> rd g i = Some a -> rd g j = Some a -> i = j.
Proof.
  intros G A B. destruct (Nat.lt_trichotomy i j) as [L|[E|L]]; auto; exfalso; [apply (Qclt_irrefl a), (G i j a a)|apply (Qclt_irrefl a), (G j i a a)]; auto.
Qed.
Lemma spaced_increasing g d : equally_spaced g d -> increasing g.
Proof.
  intros [D [g1 H]] i j a b L A B. assert (1 <= i) by (apply rd_Some_bounds in A; lia). rewrite (H _ _ A), (H _ _ B).
  assert (qz (Z.of_nat (i - 1)) < qz (Z.of_nat (j - 1)))%Qc as Q by (apply qz_lt; lia).
  set (u := qz (Z.of_nat (i - 1))) in *. set (v := qz (Z.of_nat (j - 1))) in *. clearbody u v.
  assert (0 < (v - u) * d)%Qc as P. { apply Qcmul_pos; auto. qclra. } qcnra.
Qed.

(** the node an observation lies on *)
Lemma first_index_spec g t : forall m0, match first_index g t m0 with
  | Some m => m0 <= m /\ rd g (m - m0 + 1) = Some t | None => ~ In t g end.
Proof.
  induction g as [|v g IH]; intros m0; simpl; auto. destruct (Qceqb_spec t v) as [->|N].
  - rewrite Nat.sub_diag. split; auto.
  - specialize (IH (m0 + 1)). destruct (first_index g t (m0 + 1)) as [m|].
    + destruct IH as [L E]. split; [lia|]. replace (m - m0 + 1) with (Datatypes.S (m - (m0 + 1) + 1)) by lia. destruct (m - (m0 + 1) + 1) eqn:Q; [lia|]. simpl in *. auto.
    + intros [E|I]; [congruence|tauto].
Qed.
Lemma first_node_spec gx gy x y : forall n0, match first_node gx gy x y n0 with
  | Some (m, n) => n0 <= n /\ rd gx m = Some x /\ rd gy (n - n0 + 1) = Some y | None => ~ (In x gx /\ In y gy) end.
Proof.
  induction gy as [|v gy IH]; intros n0; simpl; [tauto|]. specialize (IH (n0 + 1)).
  assert (STEP : match first_node gx gy x y (n0 + 1) with Some (m, n) => n0 <= n /\ rd gx m = Some x /\ rd (v :: gy) (n - n0 + 1) = Some y
    | None => ~ (In x gx /\ In y gy) end).
  { destruct (first_node gx gy x y (n0 + 1)) as [[m n]|]; auto. destruct IH as [L [A B]]. repeat split; auto; try lia.
    replace (n - n0 + 1) with (Datatypes.S (n - (n0 + 1) + 1)) by lia. destruct (n - (n0 + 1) + 1) eqn:Q; [lia|]. simpl in *. auto. }
  destruct (Qceqb_spec y v) as [->|N].
  - pose proof (first_index_spec gx x 1) as F. destruct (first_index gx x 1) as [m|].
    + destruct F as [L E]. rewrite Nat.sub_diag. replace (m - 1 + 1) with m in E by lia. auto.
    + destruct (first_node gx gy x v (n0 + 1)) as [[m n]|]; auto. tauto.
  - destruct (first_node gx gy x y (n0 + 1)) as [[m n]|]; auto. intros [A [B|B]]; [congruence|tauto].
Qed.
Definition names_node (gx gy : list Qc) (r : option (nat * nat)) (o : triple) : Prop :=
  match r with Some (m, n) => node gx gy m n (tx o) (ty o) | None => ~ exists m n, node gx gy m n (tx o) (ty o) end.
Lemma exact_slow gx gy dx dy o : exists r, exact_node false gx gy dx dy o = Some r /\ names_node gx gy r o.
Proof.
  unfold exact_node. eexists; split; eauto. pose proof (first_node_spec gx gy (tx o) (ty o) 1) as F.
  destruct (first_node gx gy (tx o) (ty o) 1) as [[m n]|]; simpl.
  - destruct F as [L [A B]]. split; auto. replace (n - 1 + 1) with n in B by lia. auto.
  - intros [m [n [A B]]]. apply F. split; eapply rd_In; eauto.
Qed.
Lemma by_step g d t : 1 <= length g -> equally_spaced g d -> exists r, index_by_step g d t = Some r /\
  match r with Some m => rd g m = Some t | None => ~ In t g end.
Proof.
  intros L [D [g1 H]]. unfold index_by_step. destruct (rd_Some g (i := 1)) as [a Ea]; [lia|]. rewrite Ea. cbn [bind].
  assert (a = g1) as ->. { rewrite (H _ _ Ea). simpl. rewrite qz_0. ring. }
  destruct (Qceqb_spec d 0) as [->|ND]; [exfalso; apply (Qclt_irrefl _ D)|].
  set (mm := (f_nint ((t - g1) / d)%Qc + 1)%Z).
  assert (In t g -> exists i, 1 <= i <= length g /\ rd g i = Some t /\ mm = Z.of_nat i) as HI.
  { intros I. apply In_rd in I. destruct I as [i [R E]]. exists i. split; auto. split; auto. unfold mm. rewrite (H _ _ E).
    replace ((g1 + qz (Z.of_nat (i - 1)) * d - g1) / d)%Qc with (qz (Z.of_nat (i - 1))) by (field; auto). rewrite f_nint_int by lia. lia. }
  destruct (Z.ltb_spec mm 1) as [L1|L1]; cbn [orb].
  { eexists; split; eauto. simpl. intros I. destruct (HI I) as [i [R [_ E]]]. lia. }
  destruct (Z.ltb_spec (Z.of_nat (length g)) mm) as [L2|L2].
  { eexists; split; eauto. simpl. intros I. destruct (HI I) as [i [R [_ E]]]. lia. }
  destruct (rd_Some g (i := Z.to_nat mm)) as [v Ev]; [lia|]. rewrite Ev. cbn [bind]. eexists; split; eauto.
  destruct (Qceqb_spec t v) as [->|N]; auto. intros I. destruct (HI I) as [i [R [E E2]]]. rewrite E2, Nat2Z.id in Ev. congruence.
Qed.
Lemma exact_fast gx gy dx dy o : 1 <= length gx -> 1 <= length gy -> equally_spaced gx dx -> equally_spaced gy dy ->
  exists r, exact_node true gx gy dx dy o = Some r /\ names_node gx gy r o.
Proof.
  intros A B C D. unfold exact_node. destruct (by_step gx dx (tx o) A C) as [mm [-> Hm]]. destruct (by_step gy dy (ty o) B D) as [nn [-> Hn]]. cbn [bind].
  eexists; split; eauto. destruct mm as [m|], nn as [n|]; simpl; try (split; auto; fail); intros [m' [n' [E1 E2]]]; apply rd_In in E1, E2; auto.
Qed.

(** state of gout/dout seen node by node *)
Section GRID.
Variables (gx gy : list Qc).
Let mx := length gx.
Let ny := length gy.
Definition pos (m n : nat) : nat := (n - 1) * length gx + m.
Definition at_node (s : grids) (m n : nat) (v : cell) (d : Qc) : Prop := rd (fst s) (pos m n) = Some v /\ rd (snd s) (pos m n) = Some d.
Definition sized (s : grids) : Prop := length (fst s) = mx * ny /\ length (snd s) = mx * ny.
Definition is_node (m n : nat) : Prop := 1 <= m <= mx /\ 1 <= n <= ny.
Lemma at_node_ex s m n : sized s -> is_node m n -> exists v d, at_node s m n v d.
Proof.
  intros [A B] [C D]. pose proof (pos_range mx ny m n C D). destruct (rd_Some (fst s) (i := pos m n)) as [v E]; [fold mx; unfold pos; fold mx; lia|].
  destruct (rd_Some (snd s) (i := pos m n)) as [d E2]; [unfold pos; fold mx; lia|]. exists v, d. split; auto.
Qed.
Lemma at_node_fun s m n v d v' d' : at_node s m n v d -> at_node s m n v' d' -> v = v' /\ d = d'.
Proof. intros [A B] [C D]. split; congruence. Qed.
Lemma store_ok s m n v d : sized s -> is_node m n -> exists s', store (length gx) s m n v d = Some s' /\ sized s' /\ at_node s' m n v d /\
  (forall m' n' v' d', is_node m' n' -> (m', n') <> (m, n) -> at_node s m' n' v' d' -> at_node s' m' n' v' d').
Proof.
  intros [A B] [C D]. pose proof (pos_range mx ny m n C D) as P. unfold store. fold (pos m n). change ((n - 1) * mx + m) with (pos m n) in P.
  rewrite wrx_ok by lia. cbn [bind]. rewrite wrx_ok by lia. cbn [bind]. eexists; split; eauto. unfold sized, at_node. cbn [fst snd]. rewrite !wr_length. split; auto.
  split; [split; apply rd_wr_eq; lia|]. intros m' n' v' d' [C' D'] N [E1 E2].
  assert (pos m n <> pos m' n'). { intros E. apply N. destruct (pos_inj mx m n m' n') as [-> ->]; auto; lia. }
  rewrite !rd_wr_neq by auto. auto.
Qed.
Lemma node_is m n a b : node gx gy m n a b -> is_node m n.
Proof. intros [A B]. apply rd_Some_bounds in A, B. split; auto. Qed.
Lemma node_of m n : is_node m n -> exists a b, node gx gy m n a b.
Proof. intros [A B]. destruct (rd_Some gx (i := m)) as [a Ea]; [fold mx; lia|]. destruct (rd_Some gy (i := n)) as [b Eb]; [fold ny; lia|]. exists a, b. split; auto. Qed.

(** the prepass *)
Variables (dx dy zmsg : Qc) (both : bool).
Hypothesis Gx : increasing gx.
Hypothesis Gy : increasing gy.
Hypothesis HE : forall o, exists r, exact_node both gx gy dx dy o = Some r /\ names_node gx gy r o.
Definition hit_state (obs : list triple) (a b : Qc) (v : cell) (d : Qc) : Prop :=
  (last_value (on_node a b) obs v /\ d = 0%Qc) \/ ((forall o, In o obs -> ~ on_node a b o) /\ v = Some zmsg /\ d = far).
Lemma far_pos : (0 < far)%Qc. Proof. reflexivity. Qed.
Lemma last_value_snoc (P : triple -> Prop) obs o : P o -> last_value P (obs ++ o :: nil) (tz o).
Proof. intros H. exists obs, o, []. split; [auto|]. split; [auto|]. split; [auto|]. intros q []. Qed.
Lemma last_value_skip (P : triple -> Prop) obs o v : ~ P o -> last_value P obs v -> last_value P (obs ++ o :: nil) v.
Proof.
  intros N [l1 [q [l2 [-> [A [B C]]]]]]. exists l1, q, (l2 ++ o :: nil). rewrite <- app_assoc. repeat split; auto.
  intros r I. apply in_app_or in I. destruct I as [I|[<-|[]]]; auto.
Qed.
Lemma prepass_ok obs : exists s c, prepass both gx gy dx dy obs zmsg = Some (s, c) /\ sized s /\
  (forall m n a b, node gx gy m n a b -> exists v d, at_node s m n v d /\ hit_state obs a b v d) /\
  c <= length obs /\ (c = length obs <-> forall o, In o obs -> exists m n, node gx gy m n (tx o) (ty o)).
Proof.
  unfold prepass. induction obs as [|o obs IH] using rev_ind.
  - cbn [foldM]. do 2 eexists. split; [reflexivity|]. split; [split; apply repeat_length|]. split.
    + intros m n a b H. apply node_is in H. destruct H as [C D]. pose proof (pos_range mx ny m n C D) as P. exists (Some zmsg), far. split.
      * split; unfold pos; cbn [fst snd]; fold mx; fold ny.
        -- destruct (rd_Some (repeat (Some zmsg) (mx * ny)) (i := (n - 1) * mx + m)) as [v E]; [rewrite repeat_length; lia|].
           etransitivity; [exact E|]. f_equal. apply rd_In in E. apply repeat_spec in E. auto.
        -- destruct (rd_Some (repeat far (mx * ny)) (i := (n - 1) * mx + m)) as [w F]; [rewrite repeat_length; lia|].
           etransitivity; [exact F|]. f_equal. apply rd_In in F. apply repeat_spec in F. auto.
      * right. repeat split; auto.
    + simpl. split; auto. split; auto. intros _ q [].
  - destruct IH as [s [c [E [S [N [Cl Ci]]]]]]. rewrite foldM_app, E. cbn [bind foldM fst snd]. destruct (HE o) as [r [Er Hr]]. rewrite Er. cbn [bind].
    rewrite app_length. cbn [length]. destruct r as [[m n]|]; simpl in Hr.
    + destruct (store_ok s m n (tz o) 0%Qc S (node_is _ _ _ _ Hr)) as [s' [Es [S' [A' K']]]]. cbn [fst snd]. rewrite Es. cbn [bind].
      exists s', (c + 1). split; auto. split; auto. split; [|split; [lia|]].
      * intros m2 n2 a b H. destruct (N _ _ _ _ H) as [v [d [A Hh]]]. destruct (Nat.eq_dec m2 m) as [->|D1].
        -- destruct (Nat.eq_dec n2 n) as [->|D2].
           ++ exists (tz o), 0%Qc. split; auto. left. split; auto. apply last_value_snoc. destruct H as [H1 H2], Hr as [H3 H4]. split; congruence.
           ++ exists v, d. split; [apply K'; auto; [eapply node_is; eauto|congruence]|].
              assert (Z : ~ on_node a b o). { intros [Q1 Q2]. apply D2. destruct H as [_ H2], Hr as [_ H4]. rewrite Q2 in H4. exact (increasing_inj _ _ _ _ Gy H2 H4). }
              destruct Hh as [[L1 L2]|[L1 L2]]; [left; split; auto; apply last_value_skip; auto|right; split; auto]. intros q I. apply in_app_or in I. destruct I as [I|[<-|[]]]; auto.
        -- exists v, d. split; [apply K'; auto; [eapply node_is; eauto|congruence]|].
           assert (Z : ~ on_node a b o). { intros [Q1 Q2]. apply D1. destruct H as [H1 _], Hr as [H3 _]. rewrite Q1 in H3. exact (increasing_inj _ _ _ _ Gx H1 H3). }
           destruct Hh as [[L1 L2]|[L1 L2]]; [left; split; auto; apply last_value_skip; auto|right; split; auto]. intros q I. apply in_app_or in I. destruct I as [I|[<-|[]]]; auto.
      * split.
        -- intros Ec q I. apply in_app_or in I. destruct I as [I|[<-|[]]]; [apply Ci; auto; lia|eauto].
        -- intros F. assert (c = length obs); [|lia]. apply Ci. intros q I. apply F. apply in_or_app. auto.
    + exists s, c. split; auto. split; auto. split; [|split; [lia|]].
      * intros m n a b H. destruct (N _ _ _ _ H) as [v [d [A Hh]]]. exists v, d. split; auto.
        assert (Z : ~ on_node a b o). { intros [Q1 Q2]. apply Hr. exists m, n. rewrite Q1, Q2. auto. }
        destruct Hh as [[L1 L2]|[L1 L2]]; [left; split; auto; apply last_value_skip; auto|right; split; auto]. intros q I. apply in_app_or in I. destruct I as [I|[<-|[]]]; auto.
      * split; [lia|]. intros F. exfalso. apply Hr, F, in_or_app. simpl. auto.
Qed.
End GRID.
