From Coq Require Import Qround.
From Verif Require Import Base Buffer Loops VH_Model VH_Proofs LI_Proofs TG_Model TG_Spec TG_Proofs TG_Proofs2 TG_Proofs3.
Local Open Scope nat_scope.

Lemma Qcdiv_le a b c : (0 < c)%Qc -> (a * c <= b)%Qc -> (a <= b / c)%Qc.
Proof.
  intros C H. assert (C0 : c <> 0%Qc) by (apply Qcpos_neq; auto). assert (I := Qcinv_pos C).
  replace a with (a * c * / c)%Qc by (field; auto). unfold Qcdiv. apply Qcmult_le_compat_r; auto. apply Qclt_le_weak; auto.
Qed.
Lemma Qcdiv_lt a b c : (0 < c)%Qc -> (b < a * c)%Qc -> (b / c < a)%Qc.
Proof.
  intros C H. assert (C0 : c <> 0%Qc) by (apply Qcpos_neq; auto). assert (I := Qcinv_pos C).
  replace a with (a * c * / c)%Qc by (field; auto). unfold Qcdiv. apply Qcmult_lt_compat_r; auto.
Qed.
Lemma Qcdiv_le_inv a b c : (0 < c)%Qc -> (a <= b / c)%Qc -> (a * c <= b)%Qc.
Proof.
  intros C H. assert (C0 : c <> 0%Qc) by (apply Qcpos_neq; auto). replace b with (b / c * c)%Qc by (field; auto).
  apply Qcmult_le_compat_r; auto. apply Qclt_le_weak; auto.
Qed.
Lemma Qcdiv_lt_inv a b c : (0 < c)%Qc -> (b / c < a)%Qc -> (b < a * c)%Qc.
Proof. intros C H. assert (C0 : c <> 0%Qc) by (apply Qcpos_neq; auto). replace b with (b / c * c)%Qc by (field; auto). apply Qcmult_lt_compat_r; auto. Qed.

Lemma f_int_unique_pos q k : (0 <= q)%Qc -> (qz k <= q)%Qc -> (q < qz (k + 1))%Qc -> f_int q = k.
Proof. intros H A B. unfold f_int. destruct (Qcleb_spec 0 q); [|contradiction]. apply floor_unique; auto. Qed.
Lemma f_int_unique_neg q k : (q < 0)%Qc -> (qz k <= - q)%Qc -> (- q < qz (k + 1))%Qc -> f_int q = (- k)%Z.
Proof.
  intros H A B. unfold f_int. destruct (Qcleb_spec 0 q) as [L|]; [exfalso; revert H; apply Qcle_not_lt; auto|]. rewrite (floor_unique _ k); auto.
Qed.
Lemma steps_plus_two_iff lo d t m : (0 < d)%Qc -> (steps_plus_two lo d t m <-> m = (f_int ((t - lo) / d) + 2)%Z).
Proof.
  intros D. set (q := ((t - lo) / d)%Qc).
  assert (SG : (lo <= t)%Qc <-> (0 <= q)%Qc).
  { split; intros H; [apply Qcdiv_le; auto; qclra|]. unfold q in H. apply Qcdiv_le_inv in H; auto. qclra. }
  assert (NQ : (- q)%Qc = ((lo - t) / d)%Qc) by (unfold q; field; apply Qcpos_neq; auto).
  split.
  - intros [[A [B C]]|[A [B C]]].
    + rewrite (f_int_unique_pos q (m - 2)); [lia|apply SG; auto|apply Qcdiv_le; auto|]. replace (m - 2 + 1)%Z with (m - 1)%Z by lia. apply Qcdiv_lt; auto.
    + rewrite (f_int_unique_neg q (2 - m)); [lia| | |].
      * apply Qcnot_le_lt. rewrite <- SG. intros H. revert A. apply Qcle_not_lt; auto.
      * rewrite NQ. apply Qcdiv_le; auto.
      * rewrite NQ. replace (2 - m + 1)%Z with (3 - m)%Z by lia. apply Qcdiv_lt; auto.
  - intros ->. destruct (Qclt_le_dec q 0) as [L|L].
    + right. destruct (f_int_neg q L) as [A B]. split; [apply Qcnot_le_lt; rewrite SG; intros H; revert L; apply Qcle_not_lt; auto|].
      rewrite NQ in A, B. apply Qcdiv_le_inv in A; auto. apply Qcdiv_lt_inv in B; auto.
      replace (2 - (f_int q + 2))%Z with (- f_int q)%Z by lia. replace (3 - (f_int q + 2))%Z with (- f_int q + 1)%Z by lia. auto.
    + left. destruct (f_int_pos q L) as [A B]. split; [apply SG; auto|]. apply Qcdiv_le_inv in A; auto. apply Qcdiv_lt_inv in B; auto.
      replace (f_int q + 2 - 2)%Z with (f_int q) by lia. replace (f_int q + 2 - 1)%Z with (f_int q + 1)%Z by lia. auto.
Qed.
Lemma nint_frac n s : (0 <= s)%Qc -> (s < 1)%Qc -> f_nint (qz (Z.of_nat n) + s) = if Qcltb s (dec 1 2) then Z.of_nat n else Z.of_nat (n + 1).
Proof.
  intros A B. assert (0 <= qz (Z.of_nat n))%Qc as N. { rewrite <- qz_0. apply qz_le. lia. }
  unfold f_nint. destruct (Qcleb_spec 0 (qz (Z.of_nat n) + s)) as [L|L]; [|exfalso; apply L; qclra].
  pose proof half_pos as H1. pose proof half_lt1 as H2. pose proof half_dbl as H3. set (h := dec 1 2) in *. clearbody h.
  destruct (Qcltb_spec s h); apply floor_unique; rewrite ?Nat2Z.inj_add, ?qz_add, ?qz_1; change (Z.of_nat 1) with 1%Z; rewrite ?qz_1; qclra.
Qed.

Lemma scan_ok g t slp : forall k n0, n0 + k <= length g -> 1 <= n0 -> exists r, bracket_scan g t slp (seq n0 k) = Some r /\
  ((exists n a b, n0 <= n < n0 + k /\ rd g n = Some a /\ rd g (n + 1) = Some b /\ (a <= t)%Qc /\ (t < b)%Qc /\ r = (f_nint (qz (Z.of_nat n) + (t - a) / (b - a)), ((t - a) / (b - a))%Qc)) \/
   (r = ((-1)%Z, slp) /\ forall n a b, n0 <= n < n0 + k -> rd g n = Some a -> rd g (n + 1) = Some b -> ~ ((a <= t)%Qc /\ (t < b)%Qc))).
Proof.
  induction k as [|k IH]; intros n0 L L1; cbn [seq bracket_scan].
  - eexists; split; eauto. right. split; auto. intros. lia.
  - destruct (rd_Some g (i := n0)) as [a Ea]; [lia|]. destruct (rd_Some g (i := n0 + 1)) as [b Eb]; [lia|]. rewrite Ea, Eb. cbn [bind].
    destruct (Qcleb_spec a t) as [A|A]; [destruct (Qcltb_spec t b) as [B|B]|]; cbn [andb].
    + eexists; split; eauto. left. exists n0, a, b. repeat split; auto; lia.
    + destruct (IH (Datatypes.S n0)) as [r [E H]]; try lia. rewrite E. exists r. split; auto. destruct H as [[n [a' [b' [H1 H2]]]]|[H1 H2]].
      * left. exists n, a', b'. split; [lia|auto].
      * right. split; auto. intros n a' b' R Ra Rb. destruct (Nat.eq_dec n n0) as [->|]; [|apply (H2 n); auto; lia]. intros [X Y]. assert (a' = a) by congruence. assert (b' = b) by congruence. subst. contradiction.
    + destruct (IH (Datatypes.S n0)) as [r [E H]]; try lia. rewrite E. exists r. split; auto. destruct H as [[n [a' [b' [H1 H2]]]]|[H1 H2]].
      * left. exists n, a', b'. split; [lia|auto].
      * right. split; auto. intros n a' b' R Ra Rb. destruct (Nat.eq_dec n n0) as [->|]; [|apply (H2 n); auto; lia]. intros [X Y]. assert (a' = a) by congruence. assert (b' = b) by congruence. subst. contradiction.
Qed.
Lemma inc_le g i j a b : increasing g -> i <= j -> rd g i = Some a -> rd g j = Some b -> (a <= b)%Qc.
Proof. intros G L A B. destruct (Nat.eq_dec i j) as [->|]; [|apply Qclt_le_weak, (G i j); auto; lia]. assert (a = b) by congruence. subst. apply Qcle_refl. Qed.
Lemma qcabs_pos q : (0 <= q)%Qc -> qcabs q = q. Proof. intros H. unfold qcabs. destruct (Qcleb_spec 0 q); auto. contradiction. Qed.
Lemma qcabs_neg q : (q <= 0)%Qc -> qcabs q = (- q)%Qc.
Proof. intros H. unfold qcabs. destruct (Qcleb_spec 0 q); auto. assert (q = 0%Qc) by (apply Qcle_antisym; auto). subst. reflexivity. Qed.
Lemma qcabs_nonneg q : (0 <= qcabs q)%Qc.
Proof. unfold qcabs. destruct (Qcleb_spec 0 q); auto. assert (q < 0)%Qc by (apply Qcnot_le_lt; auto). qclra. Qed.
Lemma nearest_unique g t m m' : nearest_index g t m -> nearest_index g t m' -> m = m'.
Proof.
  intros [_ [a [A [A1 A2]]]] [_ [b [B [B1 B2]]]]. assert (E : qcabs (t - a) = qcabs (t - b)) by (apply Qcle_antisym; [eapply A1|eapply B1]; eauto).
  assert (m' <= m) by (eapply A2; eauto). assert (m <= m') by (eapply B2; eauto). lia.
Qed.
Lemma bracket_nearest g t n a b : increasing g -> rd g n = Some a -> rd g (n + 1) = Some b -> (a <= t)%Qc -> (t < b)%Qc ->
  nearest_index g t (if Qcltb ((t - a) / (b - a)) (dec 1 2) then n else n + 1).
Proof.
  intros G Ea Eb A B. pose proof (rd_Some_bounds _ _ Ea) as R1. pose proof (rd_Some_bounds _ _ Eb) as R2. split.
  - destruct (rd_Some g (i := 1)) as [lo El]; [lia|]. destruct (rd_Some g (i := length g)) as [hi Eh]; [lia|]. exists lo, hi. split; auto. split; auto.
    assert (lo <= a)%Qc by (apply (inc_le g 1 n); auto; lia). assert (b <= hi)%Qc by (apply (inc_le g (n + 1) (length g)); auto; lia). split; qclra.
  - assert (W : (0 < b - a)%Qc) by qclra. pose proof half_dbl as HD. pose proof half_pos as HP.
    assert (lowj : forall j c, rd g j = Some c -> j <= n -> (c <= a)%Qc) by (intros j c Ec Hj; apply (inc_le g j n); auto).
    assert (highj : forall j c, rd g j = Some c -> n < j -> (b <= c)%Qc) by (intros j c Ec Hj; apply (inc_le g (n + 1) j); auto; lia).
    destruct (Qcltb_spec ((t - a) / (b - a)) (dec 1 2)) as [S|S].
    + apply Qcdiv_lt_inv in S; auto. assert (C : (t - a < b - t)%Qc) by (set (h := dec 1 2) in *; clearbody h; qcnra).
      exists a. split; auto. rewrite (qcabs_pos (t - a)) by qclra. split.
      * intros j c Ec. destruct (Nat.le_gt_cases j n) as [Hj|Hj].
        -- pose proof (lowj j c Ec Hj). rewrite qcabs_pos by qclra. qclra.
        -- pose proof (highj j c Ec Hj). rewrite qcabs_neg by qclra. qclra.
      * intros j c Ec E. destruct (Nat.le_gt_cases j n) as [Hj|Hj]; auto. exfalso. pose proof (highj j c Ec Hj). rewrite qcabs_neg in E by qclra. qclra.
    + apply Qcnot_lt_le in S. apply Qcdiv_le_inv in S; auto. assert (C : (b - t <= t - a)%Qc) by (set (h := dec 1 2) in *; clearbody h; qcnra).
      exists b. split; auto. rewrite (qcabs_neg (t - b)) by qclra. split.
      * intros j c Ec. destruct (Nat.le_gt_cases j n) as [Hj|Hj].
        -- pose proof (lowj j c Ec Hj). rewrite qcabs_pos by qclra. qclra.
        -- pose proof (highj j c Ec Hj). rewrite qcabs_neg by qclra. qclra.
      * intros j c Ec E. destruct (Nat.le_gt_cases j (n + 1)) as [Hj|Hj]; auto. exfalso. assert (b < c)%Qc by (apply (G (n + 1) j); auto).
        rewrite qcabs_neg in E by qclra. qclra.
Qed.
Lemma no_bracket g t : increasing g -> (forall n a b, 1 <= n < 1 + (length g - 1) -> rd g n = Some a -> rd g (n + 1) = Some b -> ~ ((a <= t)%Qc /\ (t < b)%Qc)) ->
  forall m, ~ nearest_index g t m.
Proof.
  intros G H m [[lo [hi [E1 [E2 [A B]]]]] _]. pose proof (rd_Some_bounds _ _ E2) as R.
  assert (P : forall k, 1 + k <= length g -> forall c, rd g (1 + k) = Some c -> (c <= t)%Qc).
  { induction k as [|k IH]; intros L c Ec. { change (1 + 0) with 1 in Ec. assert (c = lo) by congruence. subst; auto. }
    destruct (rd_Some g (i := 1 + k)) as [c' Ec']; [lia|]. specialize (IH ltac:(lia) c' Ec'). apply Qcnot_lt_le. intros X.
    apply (H (1 + k) c' c); auto; try lia. replace (1 + k + 1) with (1 + Datatypes.S k) by lia. auto. }
  assert (hi <= t)%Qc. { apply (P (length g - 1)); [lia|]. replace (1 + (length g - 1)) with (length g) by lia. auto. } revert B. apply Qcle_not_lt; auto.
Qed.

(** one axis *)
Lemma assign_ok flag g t : 3 <= length g -> increasing g -> forall d, axis_step g = Some d -> exists mm so,
  (forall slp, assign_axis flag g d t slp = Some (mm, match so with Some s => s | None => slp end)) /\
  (forall m, 1 <= m <= length g -> (mm = Z.of_nat m <-> reached flag g t m)) /\
  (if flag then so = None else match so with Some s => fraction g t s | None => mm = (-1)%Z end).
Proof.
  intros L G d D. unfold axis_step in D. destruct (rd_Some g (i := 3)) as [q Eq]; [lia|]. destruct (rd_Some g (i := 2)) as [p Ep]; [lia|].
  destruct (rd_Some g (i := 1)) as [lo El]; [lia|]. rewrite Eq, Ep in D. cbn [bind] in D. injection D as <-. assert (PQ : (p < q)%Qc) by (apply (G 2 3); auto; lia).
  assert (D0 : (0 < qcabs (q - p))%Qc) by (rewrite qcabs_pos by qclra; qclra).
  unfold assign_axis, reached. destruct flag.
  - exists (f_int ((t - lo) / qcabs (q - p)) + 2)%Z, None. rewrite El. cbn [bind]. destruct (Qceqb_spec (qcabs (q - p)) 0) as [Z|NZ]; [exfalso; rewrite Z in D0; apply (Qclt_irrefl _ D0)|].
    split; auto. split; auto. intros m _. split.
    + intros E. exists lo, p, q. repeat split; auto. apply steps_plus_two_iff; auto.
    + intros [lo' [p' [q' [X1 [X2 [X3 X4]]]]]]. assert (lo' = lo) by congruence. assert (p' = p) by congruence. assert (q' = q) by congruence. subst.
      apply steps_plus_two_iff in X4; auto.
  - pose proof (scan_ok g t) as SC. destruct (SC 0%Qc (length g - 1) 1) as [r0 [E0 H0]]; try lia. destruct H0 as [[n [a [b [R [Ra [Rb [A [B Er]]]]]]]]|[Er H0]].
    + exists (fst r0), (Some (snd r0)). split; [|split].
      * intros slp. destruct (SC slp (length g - 1) 1) as [r [E H]]; try lia. rewrite E. f_equal. destruct H as [[n' [a' [b' [R' [Ra' [Rb' [A' [B' Er']]]]]]]]|[_ H]].
        -- assert (n = n').
           { destruct (Nat.lt_trichotomy n n') as [X|[X|X]]; auto; exfalso.
             - assert (b <= a')%Qc by (apply (inc_le g (n + 1) n'); auto; lia). apply (Qclt_irrefl t). qclra.
             - assert (b' <= a)%Qc by (apply (inc_le g (n' + 1) n); auto; lia). apply (Qclt_irrefl t). qclra. }
           subst n'. assert (a' = a) by congruence. assert (b' = b) by congruence. subst a' b'. rewrite Er', Er. reflexivity.
        -- exfalso. apply (H n a b); auto.
      * intros m Hm. pose proof (bracket_nearest g t n a b G Ra Rb A B) as NI. subst r0. cbn [fst]. rewrite nint_frac.
        -- destruct (Qcltb ((t - a) / (b - a)) (dec 1 2)); split; intros X.
           ++ apply Nat2Z.inj in X. subst. auto.
           ++ f_equal. eapply nearest_unique; eauto.
           ++ apply Nat2Z.inj in X. subst. auto.
           ++ f_equal. eapply nearest_unique; eauto.
        -- apply Qcdiv_le; qclra.
        -- apply Qcdiv_lt; qclra.
      * exists n, a, b. subst r0. repeat split; auto.
    + exists (-1)%Z, None. split; [|split; auto].
      * intros slp. destruct (SC slp (length g - 1) 1) as [r [E H]]; try lia. rewrite E. f_equal. destruct H as [[n' [a' [b' [R' [Ra' [Rb' [A' [B' Er']]]]]]]]|[H _]]; auto.
        exfalso. apply (H0 n' a' b'); auto.
      * intros m Hm. split; [lia|]. intros X. exfalso. revert X. apply no_bracket; auto.
Qed.
Lemma fraction_fun g t s s' : increasing g -> fraction g t s -> fraction g t s' -> s = s'.
Proof.
  intros G [n [a [b [Ra [Rb [A [B ->]]]]]]] [n' [a' [b' [Ra' [Rb' [A' [B' ->]]]]]]].
  assert (n = n').
  { destruct (Nat.lt_trichotomy n n') as [X|[X|X]]; auto; exfalso.
    - assert (b <= a')%Qc by (apply (inc_le g (n + 1) n'); auto; lia). apply (Qclt_irrefl t). qclra.
    - assert (b' <= a)%Qc by (apply (inc_le g (n' + 1) n); auto; lia). apply (Qclt_irrefl t). qclra. }
  subst n'. congruence.
Qed.
