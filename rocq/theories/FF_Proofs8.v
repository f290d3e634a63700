(** The twiddle factors stored by the initialisation. *)
From Coq Require Import Reals List Arith Lia Lra Bool.
From Verif Require Import Base Buffer VH_Model RS_Spec FF_Model FF_Proofs FF_Proofs2 FF_Proofs3 FF_Proofs7.
Import ListNotations.
Local Open Scope R_scope.

Lemma NoDup_app_disj {A} (l m : list A) : NoDup l -> NoDup m -> (forall z, In z l -> In z m -> False) -> NoDup (l ++ m).
Proof.
  induction l as [|a l IH]; intros H1 H2 H3; cbn; auto. inversion H1; subst. constructor.
  - intros H. apply in_app_iff in H. destruct H; [contradiction|]. apply (H3 a); auto. left; auto.
  - apply IH; auto. intros z Z1 Z2. apply (H3 z); auto. right; auto.
Qed.

(** Stores at distinct positions *)
Lemma stores (d : R) es : forall w0, NoDup (map fst es) -> (forall e, In e es -> (fst e < length w0)%nat) ->
  exists w, foldM (fun w e => wrx w (fst e + 1) (snd e)) es w0 = Some w /\ length w = length w0 /\
    (forall e, In e es -> nth (fst e) w d = snd e) /\ (forall i, ~ In i (map fst es) -> nth i w d = nth i w0 d).
Proof.
  induction es as [|e es IH]; intros w0 ND HB; cbn [foldM].
  - exists w0. repeat split; auto. intros e [].
  - cbn [map] in ND. inversion ND; subst. rewrite wrx_at by (apply HB; left; auto). cbn [bind].
    assert (LU : length (upd0 w0 (fst e) (snd e)) = length w0) by apply upd0_length.
    destruct (IH (upd0 w0 (fst e) (snd e))) as (w & R1 & R2 & R3 & R4); auto.
    { intros e' He'. rewrite LU. apply HB. right; auto. }
    exists w. split; auto. split; [congruence|]. split.
    + intros e' [<-|He']; [|auto]. rewrite R4 by auto. apply nth_upd0_eq. apply HB. left; auto.
    + intros i Hi. cbn [map In] in Hi. rewrite R4 by tauto. apply nth_upd0_neq. tauto.
Qed.

Section Tw.
Variables n : nat.
Hypothesis Hn : (0 < n)%nat.

(** One factor *)
Lemma in_twiddles l1 is ip e : In e (twiddles n l1 is ip) <->
  exists j q, (1 <= j <= ip - 1)%nat /\ (1 <= q)%nat /\ (2 * q + 1 <= n / (l1 * ip))%nat /\
    (e = ((is + (j - 1) * (n / (l1 * ip)) + (2 * q - 1) - 1)%nat, cos (INR q * (INR (j * l1) * (2 * PI / INR n)))) \/
     e = ((is + (j - 1) * (n / (l1 * ip)) + 2 * q - 1)%nat, sin (INR q * (INR (j * l1) * (2 * PI / INR n))))).
Proof.
  unfold twiddles. rewrite in_loop. split.
  - intros (j & Hj & H). apply in_flat_map in H. destruct H as (q & Hq & H). apply in_seq in Hq. cbn [In] in H.
    exists j, q. split; auto. split; [lia|]. split; [apply half_odd; lia|]. destruct H as [<-|[<-|[]]]; auto.
  - intros (j & q & Hj & Hq & Hq2 & H). exists j. split; auto. apply in_flat_map. exists q. split.
    + apply in_seq. split; auto. apply half_odd; auto.
    + cbn [In]. destruct H as [->| ->]; auto.
Qed.
Lemma twiddles_pos l1 is ip e : In e (twiddles n l1 is ip) -> (is <= fst e < is + (ip - 1) * (n / (l1 * ip)))%nat.
Proof.
  rewrite in_twiddles. set (ido := (n / (l1 * ip))%nat). intros (j & q & Hj & Hq & Hq2 & H).
  assert ((j - 1) * ido + ido <= (ip - 1) * ido)%nat by (replace ((j - 1) * ido + ido)%nat with (j * ido)%nat by nia; apply Nat.mul_le_mono_r; lia).
  remember ((ip - 1) * ido)%nat as b0 eqn:Eb. remember ((j - 1) * ido)%nat as a0 eqn:Ea. clear Ea Eb.
  destruct H as [->| ->]; cbn [fst]; lia.
Qed.
Lemma twiddles_nodup l1 is ip : NoDup (map fst (twiddles n l1 is ip)).
Proof.
  unfold twiddles, loop. set (ido := (n / (l1 * ip))%nat).
  rewrite flat_map_concat_map, concat_map, map_map, <- flat_map_concat_map.
  apply NoDup_flat_map; [apply seq_NoDup| |].
  - intros j Hj. rewrite flat_map_concat_map, concat_map, map_map, <- flat_map_concat_map. cbn [map fst].
    apply NoDup_flat_map; [apply seq_NoDup| |].
    + intros q Hq. apply in_seq in Hq. constructor; [|constructor; auto; constructor]. intros [E|[]]. lia.
    + intros q q' z Hq Hq' [<-|[<-|[]]] [E|[E|[]]]; apply in_seq in Hq, Hq'; lia.
  - intros j j' z Hj Hj' H H'. apply in_seq in Hj, Hj'.
    apply in_map_iff in H, H'. destruct H as (e & <- & H), H' as (e' & E & H').
    apply in_flat_map in H, H'. destruct H as (q & Hq & H), H' as (q' & Hq' & H'). apply in_seq in Hq, Hq'.
    assert (Q : (2 * q + 1 <= ido)%nat) by (apply half_odd; lia). assert (Q' : (2 * q' + 1 <= ido)%nat) by (apply half_odd; lia).
    cbn [In] in H, H'.
    assert (F : exists u, (u < ido)%nat /\ fst e = (is + (u + ido * (j - 1)))%nat).
    { destruct H as [<-|[<-|[]]]; cbn [fst]; [exists (2 * q - 2)%nat|exists (2 * q - 1)%nat]; (split; [lia|]); rewrite (Nat.mul_comm ido); generalize ((j - 1) * ido)%nat; intros; lia. }
    assert (F' : exists u, (u < ido)%nat /\ fst e' = (is + (u + ido * (j' - 1)))%nat).
    { destruct H' as [<-|[<-|[]]]; cbn [fst]; [exists (2 * q' - 2)%nat|exists (2 * q' - 1)%nat]; (split; [lia|]); rewrite (Nat.mul_comm ido); generalize ((j' - 1) * ido)%nat; intros; lia. }
    destruct F as (u & Hu & Fu), F' as (u' & Hu' & Fu'). rewrite Fu, Fu' in E.
    assert (E2 : (u + ido * (j - 1) = u' + ido * (j' - 1))%nat) by lia.
    destruct (Nat.lt_trichotomy j j') as [L|[L|L]]; auto; exfalso.
    + assert (ido * (j - 1) + ido <= ido * (j' - 1))%nat by nia. lia.
    + assert (ido * (j' - 1) + ido <= ido * (j - 1))%nat by nia. lia.
Qed.

(** All factors: [pre] is the list of the factors already treated *)
Lemma off_next l1 ip : (0 < l1)%nat -> (0 < ip)%nat -> Nat.divide (l1 * ip) n ->
  (n - n / l1 + (ip - 1) * (n / (l1 * ip)) = n - n / (l1 * ip))%nat.
Proof.
  intros H1 H2 (m & Hm). rewrite Hm. rewrite Nat.div_mul by nia.
  replace (m * (l1 * ip))%nat with (m * ip * l1)%nat by nia. rewrite Nat.div_mul by lia.
  assert (m * ip <= m * ip * l1)%nat by nia. assert (m <= m * ip)%nat by nia. rewrite Nat.mul_sub_distr_r. nia.
Qed.
Lemma all_tw_range fac : forall l1 e, (0 < l1)%nat -> (forall f, In f fac -> (0 < f)%nat) -> n = (l1 * prod fac)%nat ->
  In e (all_twiddles n l1 (n - n / l1) fac) -> (n - n / l1 <= fst e < n)%nat.
Proof.
  induction fac as [|ip fac IH]; intros l1 e H1 HF HP He; [destruct He|].
  destruct fac as [|ip' fac]; [destruct He|]. cbn [all_twiddles] in He.
  assert (0 < ip)%nat by (apply HF; left; auto).
  assert (DV : Nat.divide (l1 * ip) n) by (exists (prod (ip' :: fac)); rewrite HP, !prod_cons; nia).
  assert (ON := off_next l1 ip H1 H DV).
  assert (Q : (1 <= n / (l1 * ip) <= n)%nat).
  { destruct DV as (m & Hm). rewrite Hm. rewrite Nat.div_mul by nia. destruct m; [lia|]. nia. }
  assert (Q1 : (n / l1 <= n)%nat) by (apply Nat.div_le_upper_bound; nia).
  assert (Q2 : (n / (l1 * ip) <= n / l1)%nat) by (apply Nat.div_le_compat_l; nia).
  apply in_app_iff in He. destruct He as [He|He].
  - apply twiddles_pos in He. rewrite ON in He. lia.
  - rewrite ON in He. apply IH in He; [lia|nia|intros; apply HF; right; auto|]. rewrite HP at 1. rewrite !prod_cons. nia.
Qed.
Lemma all_tw_nodup fac : forall l1, (0 < l1)%nat -> (forall f, In f fac -> (0 < f)%nat) -> n = (l1 * prod fac)%nat ->
  NoDup (map fst (all_twiddles n l1 (n - n / l1) fac)).
Proof.
  induction fac as [|ip fac IH]; intros l1 H1 HF HP; [constructor|].
  destruct fac as [|ip' fac]; [constructor|]. cbn [all_twiddles].
  assert (0 < ip)%nat by (apply HF; left; auto).
  assert (DV : Nat.divide (l1 * ip) n) by (exists (prod (ip' :: fac)); rewrite HP, !prod_cons; nia).
  assert (ON := off_next l1 ip H1 H DV).
  assert (HP' : n = (l1 * ip * prod (ip' :: fac))%nat) by (rewrite HP, !prod_cons; nia).
  assert (HF' : forall f, In f (ip' :: fac) -> (0 < f)%nat) by (intros; apply HF; right; auto).
  rewrite ON. rewrite map_app. apply NoDup_app_disj.
  - apply twiddles_nodup.
  - apply (IH (l1 * ip)%nat); auto. nia.
  - intros z Z1 Z2. apply in_map_iff in Z1, Z2. destruct Z1 as (e & <- & Z1), Z2 as (e' & E & Z2).
    apply twiddles_pos in Z1. rewrite ON in Z1. apply (all_tw_range (ip' :: fac) (l1 * ip)) in Z2; auto; [lia|nia].
Qed.
(** Membership: the twiddle factors of any factor but the last are all there *)
Lemma all_tw_in pre : forall l1 ip post e, (0 < l1)%nat -> (forall f, In f (pre ++ ip :: post) -> (0 < f)%nat) ->
  n = (l1 * prod (pre ++ ip :: post))%nat -> post <> [] ->
  In e (twiddles n (l1 * prod pre) (n - n / (l1 * prod pre)) ip) -> In e (all_twiddles n l1 (n - n / l1) (pre ++ ip :: post)).
Proof.
  induction pre as [|f pre IH]; intros l1 ip post e H1 HF HP NE He.
  - rewrite prod_nil, Nat.mul_1_r in He. cbn [app]. destruct post as [|g post]; [contradiction|]. cbn [all_twiddles].
    apply in_app_iff. left. auto.
  - cbn [app] in *. assert (0 < f)%nat by (apply HF; left; auto).
    assert (DV : Nat.divide (l1 * f) n) by (exists (prod (pre ++ ip :: post)); rewrite HP, !prod_cons; nia).
    assert (ON := off_next l1 f H1 H DV).
    assert (EX : exists g r, pre ++ ip :: post = g :: r) by (destruct pre; cbn; eauto). destruct EX as (g & r & EX).
    assert (IN : In e (all_twiddles n (l1 * f) (n - n / (l1 * f)) (pre ++ ip :: post))).
    { apply IH; auto; [nia|intros; apply HF; right; auto|rewrite HP, prod_cons; nia|].
      rewrite prod_cons in He. rewrite Nat.mul_assoc in He. exact He. }
    rewrite EX in *. change (all_twiddles n l1 (n - n / l1) (f :: g :: r)) with
      (twiddles n l1 (n - n / l1) f ++ all_twiddles n (l1 * f) (n - n / l1 + (f - 1) * (n / (l1 * f))) (g :: r)).
    apply in_app_iff. right. rewrite ON. exact IN.
Qed.
End Tw.

(** The array wa after the initialisation: for every factor ip, with l1 the
    product of the factors before it and ido that of the factors after it *)
Definition wa_ok (d : R) (n : nat) (fac : list nat) (wa : list R) : Prop :=
  forall pre ip post, fac = pre ++ ip :: post ->
    forall s q, (1 <= s < ip)%nat -> (1 <= q)%nat -> (2 * q + 1 <= prod post)%nat ->
      nth (n - n / prod pre + (s - 1) * prod post + 2 * q - 2) wa d = cos (th (ip * prod post) (s * q)) /\
      nth (n - n / prod pre + (s - 1) * prod post + 2 * q - 1) wa d = sin (th (ip * prod post) (s * q)).

Lemma hrffti_ok d n fuel wa0 ev od : (2 <= n)%nat -> factorize fuel 1 4 n [] = Some (ev ++ od) -> factors n ev od -> (n <= length wa0)%nat ->
  exists wa, hrffti fuel n wa0 = Some (wa, ev ++ od) /\ length wa = length wa0 /\ wa_ok d n (ev ++ od) wa /\
    (forall i, (n <= i)%nat -> nth i wa d = nth i wa0 d).
Proof.
  intros Hn HF [P EV OD T] HL. set (fac := ev ++ od) in *.
  assert (POS : forall f, In f fac -> (0 < f)%nat).
  { intros f Hf. apply in_app_iff in Hf. destruct Hf as [Hf|Hf]; [destruct (EV f Hf); lia|destruct (OD f Hf); lia]. }
  assert (E0 : (n - n / 1 = 0)%nat) by (rewrite Nat.div_1_r; lia).
  assert (HP : n = (1 * prod fac)%nat) by lia.
  assert (RG : forall e, In e (all_twiddles n 1 0 fac) -> (fst e < n)%nat).
  { intros e He. pose proof (all_tw_range n ltac:(lia) fac 1 e ltac:(lia) POS HP) as RG. rewrite E0 in RG. apply RG; auto. }
  destruct (stores d (all_twiddles n 1 0 fac) wa0) as (wa & R1 & R2 & R3 & R4).
  { pose proof (all_tw_nodup n ltac:(lia) fac 1 ltac:(lia) POS HP) as ND. now rewrite E0 in ND. }
  { intros e He. pose proof (RG e He). lia. }
  exists wa. split; [|split; [auto|split]].
  - unfold hrffti. destruct (Nat.eqb_spec n 1); [lia|]. rewrite HF. cbn [bind]. rewrite R1. reflexivity.
  - intros pre ip post Ef s q Hs Hq Hq2.
    assert (NE : post <> []) by (intros ->; rewrite prod_nil in Hq2; lia).
    assert (PP : (0 < prod pre)%nat) by (apply prod_pos; intros f Hf; specialize (POS f); rewrite Ef in POS; rewrite in_app_iff in POS; assert (0 < f)%nat by auto; lia).
    assert (PQ : (0 < prod post)%nat) by lia.
    assert (PIP : (0 < ip)%nat) by lia.
    assert (N3 : n = (prod pre * ip * prod post)%nat) by (rewrite HP, Ef, prod_app, prod_cons; nia).
    assert (ID : (n / (prod pre * ip) = prod post)%nat) by (rewrite N3, (Nat.mul_comm (prod pre * ip)); apply Nat.div_mul; nia).
    assert (AN : INR q * (INR (s * prod pre) * (2 * PI / INR n)) = th (ip * prod post) (s * q)).
    { unfold th. rewrite N3. rewrite !mult_INR. field. repeat split; apply INR_nz; auto. }
    assert (IN : forall e, In e (twiddles n (prod pre) (n - n / prod pre) ip) -> In e (all_twiddles n 1 0 fac)).
    { intros e He. pose proof (all_tw_in n ltac:(lia) pre 1 ip post e ltac:(lia)) as AI. rewrite E0, Nat.mul_1_l in AI. rewrite <- Ef in AI.
      apply AI; auto. now rewrite Nat.mul_1_l. }
    split.
    + rewrite <- AN. pose proof (R3 ((n - n / prod pre + (s - 1) * prod post + (2 * q - 1) - 1)%nat, cos (INR q * (INR (s * prod pre) * (2 * PI / INR n))))) as V.
      cbn [fst snd] in V. replace (n - n / prod pre + (s - 1) * prod post + 2 * q - 2)%nat with (n - n / prod pre + (s - 1) * prod post + (2 * q - 1) - 1)%nat by lia.
      apply V. apply IN. rewrite in_twiddles by lia. exists s, q. rewrite ID. split; [lia|]. split; [auto|]. split; [auto|]. auto.
    + rewrite <- AN. pose proof (R3 ((n - n / prod pre + (s - 1) * prod post + 2 * q - 1)%nat, sin (INR q * (INR (s * prod pre) * (2 * PI / INR n))))) as V.
      cbn [fst snd] in V. apply V. apply IN. rewrite in_twiddles by lia. exists s, q. rewrite ID. split; [lia|]. split; [auto|]. split; [auto|]. auto.
  - intros i Hi. apply R4. intros Z. apply in_map_iff in Z. destruct Z as (e & <- & Z). apply RG in Z. lia.
Qed.
