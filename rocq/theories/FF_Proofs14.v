(** The backward transform: all passes. *)
From Coq Require Import Reals List Arith Lia Lra Bool.
From Verif Require Import Base Buffer VH_Model RS_Spec RS_Dft FF_Model FF_Model2 FF_Proofs FF_Proofs2 FF_Proofs3 FF_Proofs4 FF_Proofs5
  FF_Proofs6 FF_Proofs7 FF_Proofs8 FF_Proofs9 FF_Proofs11 FF_Proofs12 FF_Proofs13.
Import ListNotations.
Local Open Scope R_scope.

Lemma radb_general (d : R) ip l1 ido iw wa : is_small ip = false ->
  radb d ip l1 ido iw wa = hradbg d ido ip l1 (fun i => wa (iw + 0 * ido + i - 1)%nat).
Proof. intros H. destruct ip as [|[|[|[|[|[|ip]]]]]]; try reflexivity; discriminate H. Qed.
Lemma blocks_out d x ip l1 ido A : blocks d x l1 (ip * ido) A -> stage_out d ip ido l1 x A.
Proof. intros H k t Hk Ht. apply H; auto. Qed.
Lemma in_blocks d x ip l1 ido A : (0 < l1)%nat -> stage_in d ip ido l1 x A -> blocks d x (l1 * ip) ido A.
Proof.
  intros Hl H k t Hk Ht. pose proof (Nat.div_mod_eq k l1) as E. pose proof (Nat.mod_upper_bound k l1 ltac:(lia)).
  specialize (H (k mod l1)%nat (k / l1)%nat t ltac:(auto) ltac:(apply Nat.div_lt_upper_bound; lia) Ht).
  replace (k mod l1 + l1 * (k / l1))%nat with k in H by lia. rewrite H. apply hc_ext. intros j _. unfold strided, sub. f_equal.
  rewrite E at 3. nia.
Qed.
Lemma blocks_ext d x x' l m A : (forall j, x j = x' j) -> blocks d x l m A -> blocks d x' l m A.
Proof. intros E H k t Hk Ht. rewrite H by auto. apply hc_ext. intros. apply E. Qed.

Section Bwd.
Variable d : R.
Lemma radb_ok x ip l1 ido iw wa A B : radix_ok ip ido -> (0 < ido)%nat -> (0 < l1)%nat ->
  twisted ip ido (fun s i => wa (iw + s * ido + i - 1)%nat) ->
  length A = (ido * ip * l1)%nat -> length B = (ido * ip * l1)%nat -> stage_out d ip ido l1 x A ->
  exists A' B', run (radb d ip l1 ido iw wa) (A, B) = Some (A', B') /\ length A' = length A /\ length B' = length B /\
    stage_in d ip ido l1 (fun j => INR ip * x j) (if orb (is_small ip) (ido =? 1)%nat then B' else A').
Proof.
  intros HR Hi Hl HT HA HB Hin. assert (HB' : forall r, ip = r -> length B = (ido * l1 * r)%nat) by (intros r <-; rewrite HB; nia).
  destruct (is_small ip) eqn:ES; cbn [orb].
  - destruct (small_cases ip ido HR ES) as [->|[->|[[->| ->] HO]]].
    + destruct (hradb2_ok d ido l1 x A B Hi Hl _ Hin HT (HB' _ eq_refl)) as (B' & R1 & R2 & R3). exists A, B'. auto.
    + destruct (hradb4_ok d ido l1 x A B Hi Hl _ Hin HT (HB' _ eq_refl)) as (B' & R1 & R2 & R3). exists A, B'. auto.
    + destruct (hradb3_ok d ido l1 x A B Hi Hl _ HO Hin HT (HB' _ eq_refl)) as (B' & R1 & R2 & R3). exists A, B'. auto.
    + destruct (hradb5_ok d ido l1 x A B Hi Hl _ HO Hin HT (HB' _ eq_refl)) as (B' & R1 & R2 & R3). exists A, B'. auto.
  - rewrite radb_general by auto. destruct HR as [->|[->|(O1 & O2 & O3)]]; try discriminate ES.
    pose proof (Nat.div_mod_eq ip 2) as DM. rewrite O1 in DM.
    apply (hradbg_ok d ido ip l1 (ip / 2)); auto; try lia.
    intros s q Hs Hq Hq2. destruct (HT s q Hs Hq Hq2) as [W1 W2]. rewrite <- W1, <- W2. split; f_equal; lia.
Qed.

Variable x : nat -> R.
Variable n : nat.
Variable wa : list R.
Variable fac : list nat.
Hypothesis Hfac : prod fac = n.
Hypothesis Hpos : forall f, In f fac -> (2 <= f)%nat.
Hypothesis Hrad : forall pre ip post, fac = pre ++ ip :: post -> radix_ok ip (prod post).
Hypothesis Hwa : wa_ok d n fac wa.
Local Notation w := (fun i => nth (i - 1) wa d).

Definition invb (pre post : list nat) (s : stf) : Prop :=
  let '(c, ch, na, l1, iw) := s in
  l1 = prod pre /\ iw = (n + 1 - n / prod pre)%nat /\ length c = n /\ length ch = n /\
  blocks d (fun j => INR (prod pre) * x j) (prod pre) (prod post) (if na : bool then ch else c).

Lemma stepb_ok pre ip post s : fac = pre ++ ip :: post -> invb pre (ip :: post) s ->
  exists s', stepb d n w s ip = Some s' /\ invb (pre ++ (ip :: nil)) post s'.
Proof.
  intros Ef Hs. destruct s as [[[[c ch] na] l1] iw]. cbn [invb] in Hs. destruct Hs as (E1 & E2 & L1 & L2 & HB).
  rewrite prod_cons in HB.
  assert (POS : forall l, (forall f, In f l -> In f fac) -> (0 < prod l)%nat).
  { intros l Hl. apply prod_pos. intros f Hf. specialize (Hpos f (Hl f Hf)). lia. }
  assert (Ppre : (0 < prod pre)%nat) by (apply POS; intros; rewrite Ef; apply in_app_iff; auto).
  assert (Ppost : (0 < prod post)%nat) by (apply POS; intros; rewrite Ef; apply in_app_iff; right; right; auto).
  assert (Pip : (2 <= ip)%nat) by (apply Hpos; rewrite Ef; apply in_app_iff; right; left; auto).
  assert (N3 : n = (prod pre * ip * prod post)%nat) by (rewrite <- Hfac, Ef, prod_app, prod_cons; nia).
  assert (D2 : (n / (ip * l1) = prod post)%nat) by (rewrite E1, N3; replace (prod pre * ip * prod post)%nat with (prod post * (ip * prod pre))%nat by nia; apply Nat.div_mul; nia).
  assert (D3 : (n / prod pre = ip * prod post)%nat) by (rewrite N3; replace (prod pre * ip * prod post)%nat with (ip * prod post * prod pre)%nat by nia; apply Nat.div_mul; lia).
  assert (LE : (ip * prod post <= n)%nat) by (rewrite N3; nia).
  assert (LP : (prod post <= ip * prod post)%nat) by nia.
  unfold stepb. rewrite D2. rewrite E2, D3.
  assert (TW : twisted ip (prod post) (fun s i => w (n + 1 - ip * prod post + s * prod post + i - 1)%nat)).
  { intros s q Hs Hq Hq2. destruct (Hwa pre ip post Ef s q Hs Hq Hq2) as [W1 W2]. rewrite D3 in W1, W2.
    rewrite <- W1, <- W2. split; f_equal; generalize ((s - 1) * prod post)%nat; intros; lia. }
  assert (LEN : n = (prod post * ip * prod pre)%nat) by nia.
  destruct (radb_ok (fun j => INR (prod pre) * x j) ip (prod pre) (prod post) (n + 1 - ip * prod post) w (fst (swap2 na (c, ch))) (snd (swap2 na (c, ch))))
    as (A' & B' & R1 & R2 & R3 & R4); auto.
  - apply (Hrad pre ip post Ef).
  - destruct na; cbn; congruence.
  - destruct na; cbn; congruence.
  - apply blocks_out. destruct na; cbn [swap2 fst snd]; exact HB.
  - rewrite <- surjective_pairing in R1. rewrite E1, R1. cbn [bind].
    assert (LA : length (fst (swap2 na (c, ch))) = n /\ length (snd (swap2 na (c, ch))) = n) by (destruct na; cbn; auto).
    destruct LA as [LA LB]. apply in_blocks in R4; auto.
    assert (PA : prod (pre ++ ip :: nil) = (prod pre * ip)%nat) by (rewrite prod_app, prod_cons, prod_nil; lia).
    assert (D4 : (n / prod (pre ++ ip :: nil) = prod post)%nat) by (rewrite PA, N3, (Nat.mul_comm (prod pre * ip)); apply Nat.div_mul; nia).
    assert (IW : (n + 1 - ip * prod post + (ip - 1) * prod post = n + 1 - prod post)%nat).
    { rewrite Nat.mul_sub_distr_r, Nat.mul_1_l. lia. }
    assert (BL : blocks d (fun j => INR (prod (pre ++ ip :: nil)) * x j) (prod (pre ++ ip :: nil)) (prod post) (if orb (is_small ip) (prod post =? 1)%nat then B' else A')).
    { rewrite PA. eapply blocks_ext; [|exact R4]. intros j. cbn beta. rewrite mult_INR. ring. }
    destruct (orb (is_small ip) (prod post =? 1)%nat), na; cbn [negb swap2 fst snd] in *;
      (eexists; split; [reflexivity|]); cbn [invb];
      (split; [rewrite PA; lia|]); (split; [rewrite D4; exact IW|]); (split; [congruence|]); (split; [congruence|]); exact BL.
Qed.

Lemma passesb_ok post : forall pre s, fac = pre ++ post -> invb pre post s ->
  exists s', foldM (stepb d n w) post s = Some s' /\ invb fac [] s'.
Proof.
  induction post as [|ip post IH]; intros pre s Ef Hs.
  - exists s. rewrite app_nil_r in Ef. rewrite Ef. auto.
  - destruct (stepb_ok pre ip post s Ef Hs) as (s1 & R1 & I1).
    destruct (IH (pre ++ ip :: nil) s1) as (s2 & R2 & I2); [now rewrite <- app_assoc|exact I1|].
    exists s2. split; auto. cbn [foldM]. rewrite R1. exact R2.
Qed.

Lemma hrftb1_ok c ch : length c = n -> length ch = n -> (forall t, (t < n)%nat -> nth t c d = hc n x t) ->
  exists c' ch', hrftb1 d n c ch wa fac = Some (c', ch') /\ length c' = n /\ length ch' = n /\
    (forall k, (k < n)%nat -> nth k c' d = INR n * x k).
Proof.
  intros L1 L2 Hx. unfold hrftb1.
  assert (Pn : (0 < n)%nat) by (rewrite <- Hfac; apply prod_pos; intros f Hf; specialize (Hpos f Hf); lia).
  destruct (passesb_ok fac [] (c, ch, false, 1, 1)%nat) as ([[[[c' ch'] na] l1] iw] & R1 & I1); auto.
  - cbn [invb]. rewrite prod_nil, Hfac. split; [auto|]. split; [rewrite Nat.div_1_r; lia|]. split; auto. split; auto.
    intros k t Hk Ht. assert (k = 0)%nat by lia. subst k. rewrite Nat.mul_0_r, Nat.add_0_r. rewrite Hx by auto. apply hc_ext.
    intros j _. unfold strided. cbn [INR]. rewrite Rmult_1_l. f_equal. lia.
  - rewrite R1. cbn [bind]. cbn [invb] in I1. destruct I1 as (_ & _ & LC & LH & BL). rewrite prod_nil, Hfac in BL.
    assert (V : forall k, (k < n)%nat -> nth k (if na then ch' else c') d = INR n * x k).
    { intros k Hk. specialize (BL k 0%nat Hk ltac:(lia)). rewrite Nat.mul_1_l in BL. cbn [Nat.add] in BL. rewrite BL, hc_one.
      unfold strided. f_equal. f_equal. lia. }
    destruct na; eauto 6.
Qed.
End Bwd.

(** Any length: a coefficient list that is the transform of x is taken to n x *)
Lemma backward_gen d fuel n wa0 r work ws x : (1 <= n)%nat -> length r = n -> length work = n -> (n <= length wa0)%nat ->
  hrffti fuel n wa0 = Some ws -> (forall t, (t < n)%nat -> nth t r d = hc n x t) ->
  exists r' work', hrfftb d n r work ws = Some (r', work') /\ length r' = n /\ length work' = n /\ (forall k, (k < n)%nat -> nth k r' d = INR n * x k).
Proof.
  intros Hn Lr Lw La HI HX. destruct (Nat.eq_dec n 1) as [E1|E1].
  - subst n. unfold hrfftb. rewrite E1. cbn [Nat.eqb]. exists r, work. rewrite E1 in *. split; auto. split; auto. split; [congruence|].
    intros k Hk. rewrite HX by auto. assert (k = 0)%nat by lia. subst k. rewrite hc_one. cbn [INR]. ring.
  - assert (H2 : (2 <= n)%nat) by lia.
    assert (FA : exists l, factorize fuel 1 4 n [] = Some l).
    { unfold hrffti in HI. destruct (Nat.eqb_spec n 1); [lia|]. destruct (factorize fuel 1 4 n []); [eauto|discriminate]. }
    destruct FA as (l & FA). destruct (factorize_sound fuel n l H2 FA) as (ev & od & -> & F & NE).
    destruct (hrffti_ok d n fuel wa0 ev od H2 FA F La) as (wa & R1 & _ & R3 & _). rewrite HI in R1. injection R1 as ->.
    unfold hrfftb. destruct (Nat.eqb_spec n 1); [lia|]. cbn [fst snd].
    apply hrftb1_ok; auto.
    + apply F.
    + intros f Hf. destruct F as [_ EV OD _]. apply in_app_iff in Hf. destruct Hf as [Hf|Hf]; [destruct (EV f Hf); lia|destruct (OD f Hf); lia].
    + apply (factors_rad n ev od F).
Qed.

Lemma backward_ok d fuel n wa0 r work ws : (1 <= n)%nat -> length r = n -> length work = n -> (n <= length wa0)%nat ->
  hrffti fuel n wa0 = Some ws ->
  exists work', hrfftb d n r work ws = Some (backward n r, work') /\ length work' = n.
Proof.
  intros Hn Lr Lw La HI. assert (NZ : INR n <> 0) by (apply not_0_INR; lia).
  destruct (backward_gen d fuel n wa0 r work ws (fun j => / INR n * nth j (backward n r) 0) Hn Lr Lw La HI) as (r' & work' & R1 & R2 & R3 & R4).
  - intros t Ht. rewrite hc_scal. rewrite hc_backward by auto. rewrite (nth_indep r d 0) by lia. field. auto.
  - exists work'. split; auto. rewrite R1. f_equal. f_equal.
    assert (LF : length (backward n r) = n) by (unfold backward; now rewrite map_length, seq_length).
    apply (nth_ext _ _ d 0); [congruence|]. intros t Ht. rewrite R4 by lia. field. auto.
Qed.
Lemma round_trip d fuel n wa0 x work ws : (1 <= n)%nat -> length x = n -> length work = n -> (n <= length wa0)%nat ->
  hrffti fuel n wa0 = Some ws ->
  exists y work' work'', hrfftf d n x work ws = Some (y, work') /\
    hrfftb d n y work' ws = Some (map (fun v => INR n * v) x, work'').
Proof.
  intros Hn Lx Lw La HI. destruct (forward_ok d fuel n wa0 x work ws Hn Lx Lw La HI) as (work' & R1 & L1).
  assert (LF : length (forward n x) = n) by (unfold forward; now rewrite map_length, seq_length).
  destruct (backward_gen d fuel n wa0 (forward n x) work' ws (fun j => nth j x 0) Hn LF L1 La HI) as (r' & work'' & R2 & L2 & L3 & V).
  - intros t Ht. rewrite (nth_indep _ d 0) by lia. apply forward_hc; auto.
  - exists (forward n x), work', work''. split; auto. rewrite R2. f_equal. f_equal.
    apply (nth_ext _ _ d (INR n * 0)); [rewrite map_length; congruence|]. intros k Hk. rewrite V by lia.
    rewrite (map_nth (fun v => INR n * v)). reflexivity.
Qed.
