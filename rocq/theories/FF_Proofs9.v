(** The forward transform: all passes. *)
From Coq Require Import Reals List Arith Lia Lra Bool.
From Verif Require Import Base Buffer VH_Model RS_Spec RS_Dft FF_Model FF_Proofs FF_Proofs2 FF_Proofs3 FF_Proofs4 FF_Proofs5
  FF_Proofs6 FF_Proofs7 FF_Proofs8.
Import ListNotations.
Local Open Scope R_scope.

(** A radix the passes accept, with the product of the factors already treated *)
Definition radix_ok (ip ido : nat) : Prop := ip = 2%nat \/ ip = 4%nat \/ (ip mod 2 = 1 /\ 3 <= ip /\ ido mod 2 = 1)%nat.

Lemma radf_general (d : R) n ip l1 ido iw wa : is_small ip = false ->
  radf d n ip l1 ido iw wa = hradfg d ido ip l1 (fun i => wa (iw + 0 * ido + i - 1)%nat).
Proof. intros H. destruct ip as [|[|[|[|[|[|ip]]]]]]; try reflexivity; discriminate H. Qed.
Lemma small_cases ip ido : radix_ok ip ido -> is_small ip = true -> ip = 2%nat \/ ip = 4%nat \/ (ip = 3%nat \/ ip = 5%nat) /\ (ido mod 2 = 1)%nat.
Proof.
  intros [->|[->|(O1 & O2 & O3)]] H; auto. right; right. split; auto. unfold is_small in H.
  apply orb_true_iff in H. destruct H as [H|H]; apply orb_true_iff in H; destruct H as [H|H]; apply Nat.eqb_eq in H; subst; auto; discriminate O1.
Qed.

Section Fwd.
Variable d : R.
Variable x : nat -> R.
Definition blocks (l2 ido : nat) (A : list R) : Prop :=
  forall k t, (k < l2)%nat -> (t < ido)%nat -> nth (t + ido * k) A d = hc ido (strided x l2 k) t.
Lemma blocks_in ip l1 ido A : blocks (l1 * ip) ido A -> stage_in d ip ido l1 x A.
Proof.
  intros H k s t Hk Hs Ht. rewrite H by nia. apply hc_ext. intros j _. unfold strided, sub. f_equal. nia.
Qed.
Lemma out_blocks ip l1 ido A : stage_out d ip ido l1 x A -> blocks l1 (ip * ido) A.
Proof. intros H k t Hk Ht. apply H; auto. Qed.

Lemma radf_ok n ip l1 ido iw wa A B : radix_ok ip ido -> (0 < ido)%nat -> (0 < l1)%nat ->
  twisted ip ido (fun s i => wa (iw + s * ido + i - 1)%nat) ->
  length A = (ido * ip * l1)%nat -> length B = (ido * ip * l1)%nat ->
  stage_in d ip ido l1 x (if andb (negb (is_small ip)) (ido =? 1)%nat then B else A) ->
  exists A' B', run (radf d n ip l1 ido iw wa) (A, B) = Some (A', B') /\ length A' = length A /\ length B' = length B /\
    stage_out d ip ido l1 x (if is_small ip then B' else A').
Proof.
  intros HR Hi Hl HT HA HB Hin. destruct (is_small ip) eqn:ES; cbn [negb andb] in Hin.
  - destruct (small_cases ip ido HR ES) as [->|[->|[[->| ->] HO]]].
    + destruct (hradf2_ok d ido l1 x A B Hi Hl _ Hin HT HB) as (B' & R1 & R2 & R3). exists A, B'. auto.
    + destruct (hradf4_ok d ido l1 x A B Hi Hl _ Hin HT HB) as (B' & R1 & R2 & R3). exists A, B'. auto.
    + destruct (hradf3_ok d ido l1 x A B Hi Hl _ HO Hin HT HB) as (B' & R1 & R2 & R3). exists A, B'. auto.
    + destruct (hradf5_ok d ido l1 x A B Hi Hl _ HO Hin HT HB) as (B' & R1 & R2 & R3). exists A, B'. auto.
  - rewrite radf_general by auto. destruct HR as [->|[->|(O1 & O2 & O3)]]; try discriminate ES.
    pose proof (Nat.div_mod_eq ip 2) as DM. rewrite O1 in DM.
    apply (hradfg_ok d ido ip l1 (ip / 2)); auto; try lia.
    intros s q Hs Hq Hq2. destruct (HT s q Hs Hq Hq2) as [W1 W2]. rewrite <- W1, <- W2. split; f_equal; lia.
Qed.

Variable n : nat.
Variable wa : list R.
Variable fac : list nat.
Hypothesis Hfac : prod fac = n.
Hypothesis Hpos : forall f, In f fac -> (2 <= f)%nat.
Hypothesis Hrad : forall pre ip post, fac = pre ++ ip :: post -> radix_ok ip (prod post).
Hypothesis Hwa : wa_ok d n fac wa.
Local Notation w := (fun i => nth (i - 1) wa d).

Definition inv (pre post : list nat) (s : stf) : Prop :=
  let '(c, ch, na, l2, iw) := s in
  l2 = prod pre /\ iw = (n + 1 - n / prod pre)%nat /\ length c = n /\ length ch = n /\
  blocks (prod pre) (prod post) (if na : bool then c else ch).

Lemma stepf_ok pre ip post s : fac = pre ++ ip :: post -> inv (pre ++ (ip :: nil)) post s ->
  exists s', stepf d n w s ip = Some s' /\ inv pre (ip :: post) s'.
Proof.
  intros Ef Hs. destruct s as [[[[c ch] na] l2] iw]. cbn [inv] in Hs. destruct Hs as (E1 & E2 & L1 & L2 & HB).
  rewrite prod_app, prod_cons, prod_nil, Nat.mul_1_r in *.
  assert (POS : forall l, (forall f, In f l -> In f fac) -> (0 < prod l)%nat).
  { intros l Hl. apply prod_pos. intros f Hf. specialize (Hpos f (Hl f Hf)). lia. }
  assert (Ppre : (0 < prod pre)%nat) by (apply POS; intros; rewrite Ef; apply in_app_iff; auto).
  assert (Ppost : (0 < prod post)%nat) by (apply POS; intros; rewrite Ef; apply in_app_iff; right; right; auto).
  assert (Pip : (2 <= ip)%nat) by (apply Hpos; rewrite Ef; apply in_app_iff; right; left; auto).
  assert (N3 : n = (prod pre * ip * prod post)%nat) by (rewrite <- Hfac, Ef, prod_app, prod_cons; nia).
  assert (D1 : (l2 / ip = prod pre)%nat) by (rewrite E1; apply Nat.div_mul; lia).
  assert (D2 : (n / l2 = prod post)%nat) by (rewrite E1, N3, (Nat.mul_comm (prod pre * ip)); apply Nat.div_mul; nia).
  assert (D3 : (n / prod pre = ip * prod post)%nat) by (rewrite N3; replace (prod pre * ip * prod post)%nat with (ip * prod post * prod pre)%nat by nia; apply Nat.div_mul; lia).
  assert (LE : (ip * prod post <= n)%nat) by (rewrite N3; nia).
  assert (IW : (iw - (ip - 1) * prod post = n + 1 - ip * prod post)%nat).
  { rewrite E2, <- E1, D2. rewrite Nat.mul_sub_distr_r, Nat.mul_1_l.
    assert (prod post <= ip * prod post)%nat by nia. lia. }
  unfold stepf. rewrite D1, D2, IW.
  set (na2 := if andb (negb (is_small ip)) (prod post =? 1)%nat then negb (negb na) else negb na).
  assert (TW : twisted ip (prod post) (fun s i => w (n + 1 - ip * prod post + s * prod post + i - 1)%nat)).
  { intros s q Hs Hq Hq2. destruct (Hwa pre ip post Ef s q Hs Hq Hq2) as [W1 W2]. rewrite D3 in W1, W2.
    rewrite <- W1, <- W2. split; f_equal; generalize ((s - 1) * prod post)%nat; intros; lia. }
  assert (LEN : n = (prod post * ip * prod pre)%nat) by nia.
  destruct (radf_ok n ip (prod pre) (prod post) (n + 1 - ip * prod post) w (fst (swap2 na2 (c, ch))) (snd (swap2 na2 (c, ch))))
    as (A' & B' & R1 & R2 & R3 & R4); auto.
  - apply (Hrad pre ip post Ef).
  - destruct na2; cbn; congruence.
  - destruct na2; cbn; congruence.
  - apply blocks_in. destruct (is_small ip), (prod post =? 1)%nat, na; cbn [negb andb swap2 fst snd] in *; subst na2; cbn; exact HB.
  - rewrite <- surjective_pairing in R1. rewrite R1. cbn [bind].
    assert (LA : length (fst (swap2 na2 (c, ch))) = n /\ length (snd (swap2 na2 (c, ch))) = n) by (destruct na2; cbn; auto).
    destruct LA as [LA LB]. apply out_blocks in R4.
    destruct (is_small ip), (prod post =? 1)%nat, na; subst na2; cbn [negb andb swap2 fst snd] in *;
      (eexists; split; [reflexivity|]); cbn [inv];
      (split; [reflexivity|]); (split; [rewrite D3; reflexivity|]); (split; [congruence|]); (split; [congruence|]); rewrite prod_cons; exact R4.
Qed.

Lemma passes_ok post : forall pre s, fac = pre ++ post -> inv pre post s -> forall rpre, pre = rev rpre ->
  exists s', foldM (stepf d n w) rpre s = Some s' /\ inv [] fac s'.
Proof.
  intros pre s Ef Hs rpre. revert post pre s Ef Hs. induction rpre as [|ip rpre IH]; intros post pre s Ef Hs Er.
  - subst pre. cbn [rev app] in *. exists s. rewrite Ef. auto.
  - cbn [rev] in Er. subst pre. rewrite <- app_assoc in Ef. cbn [app] in Ef.
    destruct (stepf_ok (rev rpre) ip post s Ef Hs) as (s1 & R1 & I1).
    destruct (IH (ip :: post) (rev rpre) s1 Ef I1 eq_refl) as (s2 & R2 & I2).
    exists s2. split; auto. cbn [foldM]. rewrite R1. exact R2.
Qed.

Lemma hrftf1_ok c ch : length c = n -> length ch = n -> (forall j, (j < n)%nat -> nth j c d = x j) ->
  exists c' ch', hrftf1 d n c ch wa fac = Some (c', ch') /\ length c' = n /\ length ch' = n /\
    (forall t, (t < n)%nat -> nth t c' d = hc n x t).
Proof.
  intros L1 L2 Hx. unfold hrftf1.
  assert (Pn : (0 < n)%nat) by (rewrite <- Hfac; apply prod_pos; intros f Hf; specialize (Hpos f Hf); lia).
  destruct (passes_ok [] fac (c, ch, true, n, n)) with (rpre := rev fac) as ([[[[c' ch'] na] l2] iw] & R1 & I1).
  - now rewrite app_nil_r.
  - cbn [inv]. rewrite Hfac, prod_nil. repeat split; auto.
    + rewrite Nat.div_same by lia. lia.
    + intros k t Hk Ht. assert (t = 0)%nat by lia. subst t. rewrite hc_one. rewrite Nat.mul_1_l. cbn [Nat.add]. rewrite Hx by auto.
      unfold strided. f_equal. lia.
  - now rewrite rev_involutive.
  - rewrite R1. cbn [bind]. cbn [inv] in I1. destruct I1 as (_ & _ & LC & LH & BL). rewrite prod_nil, Hfac in BL.
    assert (V : forall t, (t < n)%nat -> nth t (if na then c' else ch') d = hc n x t).
    { intros t Ht. specialize (BL 0%nat t ltac:(lia) Ht). rewrite Nat.mul_0_r, Nat.add_0_r in BL. rewrite BL. apply hc_ext. intros j _. unfold strided. f_equal. lia. }
    destruct na; eauto 6.
Qed.
End Fwd.

Lemma factors_rad n ev od : factors n ev od -> forall pre ip post, ev ++ od = pre ++ ip :: post -> radix_ok ip (prod post).
Proof.
  intros [P EV OD _] pre ip post E.
  assert (IN : In ip (ev ++ od)) by (rewrite E; apply in_app_iff; right; left; auto).
  apply in_app_iff in IN. destruct (Nat.eq_dec (ip mod 2) 1) as [HO|HO].
  - assert (IO : (3 <= ip)%nat). { destruct IN as [IN|IN]; [destruct (EV ip IN); subst; discriminate|apply OD in IN; lia]. }
    right; right. split; auto. split; auto. apply prod_odd. intros f Hf.
    (* everything after an odd factor is odd *)
    revert pre E. clear IN P. induction ev as [|e ev IH]; intros pre E.
    + cbn [app] in E. apply OD. rewrite E. apply in_app_iff. right; right; auto.
    + destruct pre as [|p pre]; cbn [app] in E; injection E as E1 E2.
      * exfalso. destruct (EV e (or_introl eq_refl)); subst; discriminate.
      * apply (IH ltac:(intros; apply EV; right; auto) pre E2).
  - destruct IN as [IN|IN]; [destruct (EV ip IN); subst; unfold radix_ok; auto|apply OD in IN; tauto].
Qed.

(** Any length: initialisation and forward transform *)
Lemma forward_ok d fuel n wa0 r work ws : (1 <= n)%nat -> length r = n -> length work = n -> (n <= length wa0)%nat ->
  hrffti fuel n wa0 = Some ws ->
  exists work', hrfftf d n r work ws = Some (forward n r, work') /\ length work' = n.
Proof.
  intros Hn Lr Lw La HI.
  assert (EQ : forall c', length c' = n -> (forall t, (t < n)%nat -> nth t c' d = hc n (fun j => nth j r d) t) -> c' = forward n r).
  { intros c' Lc Hc. assert (LF : length (forward n r) = n) by (unfold forward; now rewrite map_length, seq_length).
    apply (nth_ext _ _ d 0); [congruence|]. intros t Ht. rewrite Hc by lia. rewrite forward_hc by lia.
    apply hc_ext. intros j Hj. apply nth_indep. lia. }
  destruct (Nat.eq_dec n 1) as [E1|E1].
  - subst n. unfold hrfftf. rewrite E1. cbn [Nat.eqb]. exists work. rewrite E1 in *. split; [|congruence]. f_equal. f_equal. apply EQ; [auto|].
    intros t Ht. assert (t = 0)%nat by lia. subst t. now rewrite hc_one.
  - assert (H2 : (2 <= n)%nat) by lia.
    assert (FA : exists l, factorize fuel 1 4 n [] = Some l).
    { unfold hrffti in HI. destruct (Nat.eqb_spec n 1); [lia|]. destruct (factorize fuel 1 4 n []); [eauto|discriminate]. }
    destruct FA as (l & FA). destruct (factorize_sound fuel n l H2 FA) as (ev & od & -> & F & NE).
    destruct (hrffti_ok d n fuel wa0 ev od H2 FA F La) as (wa & R1 & _ & R3 & _). rewrite HI in R1. injection R1 as ->.
    unfold hrfftf. destruct (Nat.eqb_spec n 1); [lia|]. cbn [fst snd].
    destruct (hrftf1_ok d (fun j => nth j r d) n wa (ev ++ od)) with (c := r) (ch := work) as (c' & ch' & Q1 & Q2 & Q3 & Q4); auto.
    + apply F.
    + intros f Hf. destruct F as [_ EV OD _]. apply in_app_iff in Hf. destruct Hf as [Hf|Hf]; [destruct (EV f Hf); lia|destruct (OD f Hf); lia].
    + apply (factors_rad n ev od F).
    + exists ch'. rewrite Q1. rewrite (EQ c' Q2 Q4). auto.
Qed.
Lemma hrffti_total d n fuel wa0 : (1 <= n)%nat -> (n <= length wa0)%nat -> (2 * n + 5 <= fuel)%nat ->
  exists wa fac, hrffti fuel n wa0 = Some (wa, fac) /\ length wa = length wa0 /\ (forall i, (n <= i)%nat -> nth i wa d = nth i wa0 d).
Proof.
  intros Hn La Hf. destruct (Nat.eq_dec n 1) as [->|E1].
  - exists wa0, []. auto.
  - destruct (factorize_total fuel n ltac:(lia) Hf) as (ev & od & R & F & NE).
    destruct (hrffti_ok d n fuel wa0 ev od ltac:(lia) R F La) as (wa & R1 & R2 & _ & R4). eauto 6.
Qed.
