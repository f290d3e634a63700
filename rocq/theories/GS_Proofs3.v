(** One column of the synthesis: the amplitude of one order on every row. *)
From Coq Require Import Reals List Arith Lia Bool Lra.
From Verif Require Import Base Buffer VH_Model RS_Spec RS_Dft GS_Spec GS_Model GS_Proofs1 GS_Proofs2.
Import ListNotations.
Local Open Scope nat_scope.

(** ** Sizes *)
Lemma late_north nlat : late_of nlat = north nlat.
Proof.
  unfold late_of, north. pose proof (Nat.div_mod nlat 2 ltac:(lia)). pose proof (Nat.mod_upper_bound nlat 2 ltac:(lia)).
  assert (nlat mod 2 = 0 \/ nlat mod 2 = 1) as [E|E] by lia; rewrite E.
  - rewrite Nat.add_0_r. replace (nlat + 1) with (1 + (nlat / 2) * 2) by lia. rewrite Nat.div_add by lia. cbn. lia.
  - auto.
Qed.
Lemma l_lmax nlat nlon : l_of nlat nlon = lmax nlat nlon.
Proof. unfold l_of, lmax. replace (nlon + 2) with (nlon + 1 * 2) by lia. rewrite Nat.div_add by lia. auto. Qed.
Lemma halves nlat : nlat / 2 + north nlat = nlat /\ nlat / 2 <= north nlat <= nlat / 2 + 1.
Proof.
  unfold north. pose proof (Nat.div_mod nlat 2 ltac:(lia)). pose proof (Nat.mod_upper_bound nlat 2 ltac:(lia)).
  pose proof (Nat.div_mod (nlat + 1) 2 ltac:(lia)). pose proof (Nat.mod_upper_bound (nlat + 1) 2 ltac:(lia)). lia.
Qed.

Definition tri_sum (nlat m : nat) : nat := list_sum (map (fun k => nlat - k) (seq 0 m)).
Lemma tri_sum_S nlat m : tri_sum nlat (S m) = tri_sum nlat m + (nlat - m).
Proof. unfold tri_sum. rewrite seq_S, map_app, list_sum_app. cbn. lia. Qed.
Lemma tri_sum_closed nlat m : m <= nlat -> 2 * tri_sum nlat m + m * m = m * (2 * nlat + 1).
Proof. induction m; intros H; [reflexivity|]. rewrite tri_sum_S. specialize (IHm ltac:(lia)). nia. Qed.
Lemma tri_sum_mono nlat m m' : m <= m' -> tri_sum nlat m <= tri_sum nlat m'.
Proof. induction 1; auto. rewrite tri_sum_S. lia. Qed.
Lemma npm_tri nlat l : l <= nlat -> npm_of nlat l = tri_sum nlat l.
Proof.
  intros H. unfold npm_of. pose proof (tri_sum_closed nlat l H).
  replace (l * (2 * nlat - l + 1)) with (tri_sum nlat l * 2) by nia. apply Nat.div_mul. lia.
Qed.
Lemma mml1_tri nlat m : m < nlat -> mml1 nlat m + m = tri_sum nlat m.
Proof.
  intros H. unfold mml1. pose proof (tri_sum_closed nlat m ltac:(lia)).
  assert (m <= tri_sum nlat m). { clear -H. induction m; [cbn; lia|]. rewrite tri_sum_S. specialize (IHm ltac:(lia)). lia. }
  replace (m * (2 * nlat - m - 1)) with ((tri_sum nlat m - m) * 2) by nia. rewrite Nat.div_mul by lia. lia.
Qed.
Lemma mml1_slot nlat m n : m <= n < nlat -> mml1 nlat m + (n + 1) = slot nlat m n.
Proof. intros H. unfold slot. fold (tri_sum nlat m). rewrite <- mml1_tri by lia. lia. Qed.
Lemma slot_bound nlat l m n : m < l <= nlat -> m <= n < nlat -> 1 <= slot nlat m n <= npm_of nlat l.
Proof.
  intros Hm Hn. rewrite npm_tri by lia. unfold slot. fold (tri_sum nlat m).
  pose proof (tri_sum_mono nlat (S m) l ltac:(lia)). rewrite tri_sum_S in H. lia.
Qed.

(** ** Sums over even and odd indices *)
Lemma sum_parity n (f : nat -> R) : sumR n f = (sumR ((n + 1) / 2) (fun q => f (2 * q)%nat) + sumR (n / 2) (fun q => f (2 * q + 1)%nat))%R.
Proof.
  assert (E : forall k, (sumR (2 * k) f = sumR k (fun q => f (2 * q)%nat) + sumR k (fun q => f (2 * q + 1)%nat))%R).
  { induction k; [cbn; ring|]. replace (2 * S k) with (S (S (2 * k))) by lia. cbn [sumR]. rewrite IHk. replace (S (2 * k)) with (2 * k + 1) by lia. ring. }
  destruct (Nat.Even_or_Odd n) as [[k ->]|[k ->]].
  - replace ((2 * k + 1) / 2) with k by (symmetry; rewrite Nat.mul_comm, Nat.add_comm, Nat.div_add by lia; cbn; lia).
    replace (2 * k / 2) with k by (symmetry; rewrite Nat.mul_comm; apply Nat.div_mul; lia). apply E.
  - replace ((2 * k + 1 + 1) / 2) with (S k) by (replace (2 * k + 1 + 1) with (S k * 2) by lia; symmetry; apply Nat.div_mul; lia).
    replace ((2 * k + 1) / 2) with k by (symmetry; rewrite Nat.mul_comm, Nat.add_comm, Nat.div_add by lia; cbn; lia).
    replace (2 * k + 1) with (S (2 * k)) at 1 by lia. cbn [sumR]. rewrite E. ring.
Qed.

Lemma count1 nlat m : m < nlat -> (nlat + 2 - (m + 1)) / 2 = (nlat - m + 1) / 2.
Proof. intros. f_equal. lia. Qed.
Lemma count2 nlat m : (nlat + 2 - (m + 2)) / 2 = (nlat - m) / 2.
Proof. intros. f_equal. lia. Qed.
Lemma ev q : Nat.even (2 * q) = true. Proof. rewrite Nat.even_mul. auto. Qed.
Lemma od q : Nat.odd (2 * q + 1) = true. Proof. rewrite Nat.add_comm, Nat.odd_add_mul_2. auto. Qed.
Lemma half_lt n q : q < (n + 1) / 2 -> 2 * q < n.
Proof. intros H. pose proof (Nat.div_mod (n + 1) 2 ltac:(lia)). pose proof (Nat.mod_upper_bound (n + 1) 2 ltac:(lia)). lia. Qed.
Lemma half_lt1 n q : q < n / 2 -> 2 * q + 1 < n.
Proof. intros H. pose proof (Nat.div_mod n 2 ltac:(lia)). lia. Qed.

Section Column.
Variables nlat nlon mode : nat.
Hypothesis Hmode : mode <= 2.
Notation l := (l_of nlat nlon).
Notation late := (late_of nlat).
Notation lat := (lat_of nlat mode).
Variable pmn : list R.
Hypothesis HP : view late (npm_of nlat l) pmn (val2 late pmn).
Hypothesis HZ : zero_at_equator nlat nlon pmn.

Let P := val2 late pmn.
Lemma leg_P m n i : m <= n < nlat -> P i (mml1 nlat m + (n + 1)) = legendre nlat pmn m n i.
Proof. intros H. unfold P, legendre. rewrite mml1_slot, late_north by auto. auto. Qed.

(** amplitude of order m on row i, coefficients numbered by n+1 *)
Definition ampv (m : nat) (v : nat -> R) (i : nat) : R :=
  sumR (nlat - m) (fun k => ((if used mode m (m + k) then v (m + k + 1)%nat else 0) * pfull nlat pmn m (m + k) i)%R).
Definition coefs (tv : list (nat * (nat -> R))) (c np1 : nat) : R := addto (map (fun t => (fst t, snd t np1)) tv) c.

Lemma coefs_out tv c np1 : memb c (map fst tv) = false -> coefs tv c np1 = 0%R.
Proof.
  unfold coefs. induction tv as [|t tv IH]; intros H; [reflexivity|]. cbn in *. apply orb_false_iff in H. destruct H as [H1 H2].
  rewrite Nat.eqb_sym, H1. change (0 + coefs tv c np1 = 0)%R. rewrite <- (IH H2) at 2. unfold coefs. ring.
Qed.

Definition evens (m : nat) (v : nat -> R) (i : nat) : R :=
  sumR ((nlat - m + 1) / 2) (fun q => v (m + 1 + 2 * q)%nat * P i (mml1 nlat m + (m + 1 + 2 * q)))%R.
Definition odds (m : nat) (v : nat -> R) (i : nat) : R :=
  sumR ((nlat - m) / 2) (fun q => v (m + 2 + 2 * q)%nat * P i (mml1 nlat m + (m + 2 + 2 * q)))%R.

Lemma amp_north m v i : m < nlat -> mode = 0 -> i <= north nlat -> ampv m v i = (evens m v i + odds m v i)%R.
Proof.
  intros Hm M0 Hi. unfold ampv, pfull, used. rewrite M0. destruct (Nat.leb_spec i (north nlat)); [|lia].
  rewrite sum_parity. unfold evens, odds. f_equal; apply sumR_ext; intros q Hq.
  - pose proof (half_lt _ _ Hq). rewrite <- leg_P by lia. f_equal; [f_equal; ring|f_equal; ring].
  - pose proof (half_lt1 _ _ Hq). rewrite <- leg_P by lia. f_equal; [f_equal; ring|f_equal; ring].
Qed.
Lemma amp_south m v i : m < nlat -> mode = 0 -> north nlat < i -> ampv m v i = (evens m v (nlat + 1 - i) - odds m v (nlat + 1 - i))%R.
Proof.
  intros Hm M0 Hi. unfold ampv, pfull, used. rewrite M0. destruct (Nat.leb_spec i (north nlat)); [lia|].
  rewrite sum_parity. unfold evens, odds. unfold Rminus. rewrite <- sumR_opp. f_equal; apply sumR_ext; intros q Hq.
  - pose proof (half_lt _ _ Hq). rewrite <- leg_P by lia. replace (m + 2 * q - m) with (2 * q) by lia. rewrite pow_1_even, Rmult_1_l. f_equal; [f_equal; ring|f_equal; ring].
  - pose proof (half_lt1 _ _ Hq). rewrite <- leg_P by lia. replace (m + (2 * q + 1) - m) with (S (2 * q)) by lia. rewrite pow_1_odd.
    replace (m + (2 * q + 1) + 1) with (m + 2 + 2 * q) by lia. ring.
Qed.
Lemma amp_equator m v : m < l -> mode = 0 -> Nat.odd nlat = true -> ampv m v (north nlat) = evens m v (north nlat).
Proof.
  intros Hm H0 HO. assert (m < nlat) by (unfold l_of in Hm; lia). rewrite amp_north by auto.
  replace (odds m v (north nlat)) with 0%R; [ring|]. symmetry. unfold odds. apply sumR_0. intros q Hq. pose proof (half_lt1 _ _ Hq).
  replace (m + 2 + 2 * q) with (m + 2 * q + 1 + 1) at 2 by lia. rewrite leg_P by lia. rewrite HZ; auto; try lia.
  - ring.
  - rewrite <- l_lmax. auto.
  - replace (m + 2 * q + 1 - m) with (2 * q + 1) by lia. apply od.
Qed.
Lemma amp_odd m v i : m < nlat -> mode = 1 -> i <= north nlat -> ampv m v i = odds m v i.
Proof.
  intros Hm M0 Hi. unfold ampv, pfull, used. rewrite M0. destruct (Nat.leb_spec i (north nlat)); [|lia].
  rewrite sum_parity. rewrite (sumR_0 ((nlat - m + 1) / 2)), Rplus_0_l.
  - unfold odds. apply sumR_ext; intros q Hq. pose proof (half_lt1 _ _ Hq). rewrite <- leg_P by lia. replace (m + (2 * q + 1) - m) with (2 * q + 1) by lia.
    rewrite od. f_equal; [f_equal; ring|f_equal; ring].
  - intros q Hq. replace (m + 2 * q - m) with (2 * q) by lia. rewrite <- Nat.negb_even, ev. cbn. ring.
Qed.
Lemma amp_even m v i : m < nlat -> mode = 2 -> i <= north nlat -> ampv m v i = evens m v i.
Proof.
  intros Hm M0 Hi. unfold ampv, pfull, used. rewrite M0. destruct (Nat.leb_spec i (north nlat)); [|lia].
  rewrite sum_parity. rewrite (sumR_0 ((nlat - m) / 2)), Rplus_0_r.
  - unfold evens. apply sumR_ext; intros q Hq. pose proof (half_lt _ _ Hq). rewrite <- leg_P by lia. replace (m + 2 * q - m) with (2 * q) by lia.
    rewrite ev. f_equal; [f_equal; ring|f_equal; ring].
  - intros q Hq. replace (m + (2 * q + 1) - m) with (2 * q + 1) by lia. rewrite <- Nat.negb_odd, od. cbn. ring.
Qed.

Lemma column_ok m ts tv g F : m < l -> NoDup (map fst tv) -> (forall t, In t tv -> 1 <= fst t <= nlon) ->
  (forall np1, m + 1 <= np1 <= nlat -> mapM (fun t => let* v := snd t np1 in Some (fst t, v)) ts = Some (map (fun t => (fst t, snd t np1)) tv)) ->
  map fst ts = map fst tv ->
  view lat nlon g F -> (forall i c, memb c (map fst tv) = true -> F i c = 0%R) ->
  exists g', column nlat nlon mode m ts pmn g = Some g' /\
    view lat nlon g' (fun i c => if memb c (map fst tv) then ampv m (coefs tv c) i else F i c).
Proof.
  intros Hm ND Hc Hts Hfst HF F0. assert (Hl : l <= nlat) by (unfold l_of; lia).
  destruct (halves nlat) as [H1 H2]. rewrite <- late_north in H1, H2.
  assert (HM : forall lo np1, m < lo -> lo <= np1 <= nlat -> 1 <= mml1 nlat m + np1 <= npm_of nlat l).
  { intros lo np1 A B. replace np1 with (np1 - 1 + 1) by lia. rewrite mml1_slot by lia. apply slot_bound; lia. }
  unfold column. destruct (Nat.eqb_spec mode 0) as [M0|M0].
  - assert (HL : lat = nlat) by (unfold lat_of; rewrite M0; auto). unfold column_full.
    destruct (spread_ok nlat nlon mode pmn P HP (fun i => i) late m (m + 1) ts tv g F ltac:(lia) ltac:(intros; cbn beta; rewrite HL; lia) Hc Hts ltac:(intros; apply (HM (m + 1)); lia) HF) as (g1 & E1 & V1).
    rewrite E1. cbn [bind].
    destruct (spread_ok nlat nlon mode pmn P HP (fun i => nlat - i + 1) (nlat / 2) m (m + 2) ts tv g1 _ ltac:(lia) ltac:(intros; cbn beta; rewrite HL; lia) Hc ltac:(intros; apply Hts; lia) ltac:(intros; apply (HM (m + 2)); lia) V1) as (g2 & E2 & V2).
    rewrite E2. cbn [bind]. rewrite Hfst.
    assert (Hc' : forall c, In c (map fst tv) -> 1 <= c <= nlon). { intros c I. apply in_map_iff in I. destruct I as (t & <- & I). auto. }
    destruct (combine_ok nlat nlon mode (map fst tv) g2 _ HL ND Hc' V2) as (g3 & E3 & V3). exists g3. split; [exact E3|].
    set (F2 := fun i' c' => _) in V2.
    assert (B2 : forall i c, 1 <= i <= nlat -> F2 i c = (F i c + (if inside i late then evens m (coefs tv c) i else 0) + (if (nlat + 1 - i <=? nlat / 2)%nat then odds m (coefs tv c) (nlat + 1 - i) else 0))%R).
    { intros i c Hi. unfold F2. f_equal; [f_equal|].
      - rewrite count1 by lia. unfold evens. destruct (inside i late) eqn:EI.
        + apply sumR_ext. intros q Hq. cbv zeta. fold (coefs tv c (m + 1 + 2 * q)). f_equal. rewrite (sum_delta_id late i (fun k => P k (mml1 nlat m + (m + 1 + 2 * q)))), EI. auto.
        + apply sumR_0. intros q Hq. cbv zeta. rewrite (sum_delta_id late i (fun k => P k (mml1 nlat m + (m + 1 + 2 * q)))), EI. ring.
      - rewrite count2. unfold odds. destruct (nlat + 1 - i <=? nlat / 2) eqn:EI.
        + apply sumR_ext. intros q Hq. cbv zeta. fold (coefs tv c (m + 2 + 2 * q)). f_equal. rewrite (sum_delta_mirror nlat (nlat / 2) i (fun k => P k (mml1 nlat m + (m + 2 + 2 * q)))), EI by lia. auto.
        + apply sumR_0. intros q Hq. cbv zeta. rewrite (sum_delta_mirror nlat (nlat / 2) i (fun k => P k (mml1 nlat m + (m + 2 + 2 * q)))), EI by lia. ring. }
    assert (OUT : forall i c, memb c (map fst tv) = false -> evens m (coefs tv c) i = 0%R /\ odds m (coefs tv c) i = 0%R).
    { intros i c H. split; apply sumR_0; intros; rewrite coefs_out by auto; ring. }
    apply (view_ext _ _ _ _ _ V3). intros i c Hi Hc2. cbn beta. change (fun i' c' => _) with F2. rewrite HL in Hi.
    destruct (memb c (map fst tv)) eqn:EM.
    + destruct (Nat.leb_spec i (nlat / 2)).
      * change ((F2 i c + F2 (nlat - i + 1)%nat c)%R = ampv m (coefs tv c) i). rewrite !B2, !F0 by (auto; lia).
        rewrite (inside_true i late) by lia. destruct (Nat.leb_spec (nlat + 1 - i) (nlat / 2)); [lia|].
        unfold inside. destruct (Nat.leb_spec (nlat - i + 1) late); [lia|]. rewrite andb_false_r.
        destruct (Nat.leb_spec (nlat + 1 - (nlat - i + 1)) (nlat / 2)); [|lia]. replace (nlat + 1 - (nlat - i + 1)) with i by lia.
        rewrite amp_north by (try rewrite <- late_north; auto; lia). ring.
      * destruct (Nat.leb_spec (nlat + 1 - i) (nlat / 2)).
        -- change ((F2 (nlat - i + 1)%nat c - F2 i c)%R = ampv m (coefs tv c) i). rewrite !B2, !F0 by (auto; lia).
           rewrite (inside_true (nlat - i + 1) late) by lia. destruct (Nat.leb_spec (nlat + 1 - i) (nlat / 2)); [|lia].
           unfold inside. destruct (Nat.leb_spec i late); [lia|]. rewrite andb_false_r.
           destruct (Nat.leb_spec (nlat + 1 - (nlat - i + 1)) (nlat / 2)); [lia|].
           rewrite amp_south by (try rewrite <- late_north; auto; lia). replace (nlat - i + 1) with (nlat + 1 - i) by lia. ring.
        -- change (F2 i c = ampv m (coefs tv c) i). rewrite !B2, !F0 by (auto; lia). rewrite (inside_true i late) by lia.
           destruct (Nat.leb_spec (nlat + 1 - i) (nlat / 2)); [lia|]. assert (i = north nlat) by (rewrite <- late_north; lia). subst i.
           rewrite amp_equator; [ring|auto|auto|]. rewrite <- late_north in *. pose proof (Nat.div_mod nlat 2 ltac:(lia)).
           assert (nlat = 2 * (nlat / 2) + 1) as -> by lia. apply od.
    + change (F2 i c = F i c). rewrite B2 by lia. destruct (OUT i c EM) as [-> _]. destruct (OUT (nlat + 1 - i) c EM) as [_ ->].
      destruct (inside i late), (nlat + 1 - i <=? nlat / 2); ring.
  - assert (HL : lat = late) by (unfold lat_of; destruct (Nat.eqb_spec mode 0); [lia|auto]). unfold column_half.
    set (lo := m + (if mode =? 1 then 2 else 1)).
    destruct (spread_ok nlat nlon mode pmn P HP (fun i => i) late m lo ts tv g F ltac:(lia) ltac:(intros; cbn beta; rewrite HL; lia) Hc ltac:(intros; apply Hts; unfold lo in *; destruct (mode =? 1); lia) ltac:(intros; apply (HM lo); unfold lo in *; destruct (mode =? 1); lia) HF) as (g1 & E1 & V1).
    exists g1. split; [exact E1|]. apply (view_ext _ _ _ _ _ V1). intros i c Hi Hc2. cbn beta. rewrite HL in Hi.
    assert (SM : sumR ((nlat + 2 - lo) / 2) (fun q => let np1 := (lo + 2 * q)%nat in
        addto (map (fun t => (fst t, snd t np1)) tv) c * sumR late (fun k => delta i (1 + k)%nat * P (1 + k)%nat (mml1 nlat m + np1)%nat))%R = ampv m (coefs tv c) i).
    { assert (Eq : forall q, sumR late (fun k => delta i (1 + k) * P (1 + k)%nat (mml1 nlat m + (lo + 2 * q)))%R = P i (mml1 nlat m + (lo + 2 * q))).
      { intros q. rewrite (sum_delta_id late i (fun k => P k (mml1 nlat m + (lo + 2 * q)))), inside_true by auto. auto. }
      transitivity (sumR ((nlat + 2 - lo) / 2) (fun q => coefs tv c (lo + 2 * q) * P i (mml1 nlat m + (lo + 2 * q)))%R).
      { apply sumR_ext. intros q Hq. cbv zeta. rewrite Eq. auto. }
      unfold lo. destruct (Nat.eqb_spec mode 1) as [M1|M1].
      - rewrite count2. rewrite amp_odd by (try rewrite <- late_north; auto; lia). auto.
      - rewrite count1 by lia. rewrite amp_even by (try rewrite <- late_north; auto; lia). auto. }
    rewrite SM. destruct (memb c (map fst tv)) eqn:EM.
    + rewrite F0 by auto. ring.
    + unfold ampv. rewrite sumR_0; [ring|]. intros k Hk. rewrite coefs_out by auto. destruct (used mode m (m + k)); ring.
Qed.
End Column.
