From Verif Require Import Base Buffer Loops VH_Model VH_Proofs LI_Proofs TG_Model TG_Spec TG_Proofs TG_Proofs2 TG_Proofs3 TG_Proofs4 TG_Proofs5.
Local Open Scope nat_scope.

Lemma equal_steps_ok g dd : forall n lo, lo >= 1 -> lo + n <= length g -> exists r, equal_steps dd g (seq lo n) = Some r /\
  (r = true <-> forall m c d, lo <= m < lo + n -> rd g m = Some c -> rd g (m + 1) = Some d -> (qcabs ((d - c) - dd) <= dec 1 1000)%Qc).
Proof.
  induction n as [|n IH]; intros lo H1 H2; cbn [seq equal_steps].
  - exists true. split; auto. split; auto. intros _ m c d Hm. lia.
  - destruct (rd_Some g (i := lo + 1)) as [b B]; [lia|]. destruct (rd_Some g (i := lo)) as [a A]; [lia|]. rewrite B, A. cbn [bind].
    assert (Q : (qcabs ((b - a) - dd) <= dec 1 1000)%Qc <-> Qcltb dd (b - a - ddeps)%Qc || Qcltb (b - a + ddeps)%Qc dd = false).
    { fold ddeps. unfold qcabs. destruct (Qcltb_spec dd (b - a - ddeps)%Qc) as [X|X], (Qcltb_spec (b - a + ddeps)%Qc dd) as [Y|Y]; cbn [orb].
      all: destruct (Qcleb_spec 0%Qc (b - a - dd)%Qc) as [Z|Z]; split; intros W; try discriminate; auto; try (exfalso; qclra);
       try apply Qcnot_lt_le in X; try apply Qcnot_lt_le in Y; try apply Qcnot_le_lt in Z; qclra. }
    destruct (Qcltb dd (b - a - ddeps)%Qc || Qcltb (b - a + ddeps)%Qc dd) eqn:E.
    + exists false. split; auto. split; [discriminate|]. intros F. exfalso. assert (X : true = false); [|discriminate]. apply Q. apply (F lo); auto; lia.
    + destruct (IH (Datatypes.S lo)) as [r [Er Hr]]; try lia. exists r. split; auto. rewrite Hr. split; intros F m c d Hm Hc Hd.
      * destruct (Nat.eq_dec m lo) as [->|N]; [|apply (F m); auto; lia]. rewrite A in Hc. rewrite B in Hd. injection Hc as <-. injection Hd as <-. tauto.
      * apply (F m); auto; lia.
Qed.
Lemma spacing_flag_ok g : 2 <= length g -> increasing g -> exists r, spacing_flag g = Some r /\ (r = true <-> nearly_equal g).
Proof.
  intros L G. unfold spacing_flag. destruct (rd_Some g (i := 2)) as [b B]; [lia|]. destruct (rd_Some g (i := 1)) as [a A]; [lia|]. rewrite A, B. cbn [bind].
  assert (AB : (a < b)%Qc) by (apply (G 1 2); auto). rewrite qcabs_pos by qclra.
  destruct (equal_steps_ok g (b - a)%Qc (length g - 2) 2) as [r [E H]]; try lia. exists r. split; auto. rewrite H. split.
  - intros F. exists a, b. split; auto. split; auto. intros m c d Hm Hc Hd. apply (F m); auto. pose proof (rd_Some_bounds _ _ Hd). lia.
  - intros [a' [b' [A' [B' F]]]] m c d Hm Hc Hd. replace b with b' by congruence. replace a with a' by congruence. apply (F m); auto; lia.
Qed.
Lemma strip_kept obs zmsg : kept (fun o => tz o <> Some zmsg) obs (strip obs zmsg).
Proof.
  unfold strip. induction obs as [|o obs IH]; cbn [filter]; [constructor|]. destruct (cell_is_spec zmsg (tz o)) as [E|E]; cbn [negb]; constructor; auto.
Qed.
Lemma inside_ok gx gy obs x1 xn y1 yn : rd gx 1 = Some x1 -> rd gx (length gx) = Some xn -> rd gy 1 = Some y1 -> rd gy (length gy) = Some yn ->
  (existsb (outside x1 xn y1 yn) obs = false <-> forall o, In o obs -> in_grid gx gy o).
Proof.
  intros A B C D.
  assert (Q : forall o, outside x1 xn y1 yn o = false <-> in_grid gx gy o).
  { intros o. unfold outside. destruct (Qcltb_spec (tx o) x1) as [X|X], (Qcltb_spec xn (tx o)) as [Y|Y], (Qcltb_spec (ty o) y1) as [Z|Z], (Qcltb_spec yn (ty o)) as [W|W]; cbn [orb]; split; try discriminate; auto.
    all: try (intros _; apply Qcnot_lt_le in X; apply Qcnot_lt_le in Y; apply Qcnot_lt_le in Z; apply Qcnot_lt_le in W; exists x1, xn, y1, yn; auto 10; fail).
    all: intros [x1' [xn' [y1' [yn' [A' [B' [C' [D' [[P1 P2] [P3 P4]]]]]]]]]].
    all: assert (x1' = x1) by congruence; assert (xn' = xn) by congruence; assert (y1' = y1) by congruence; assert (yn' = yn) by congruence; subst.
    all: exfalso; first [apply (Qclt_not_le _ _ X P1)|apply (Qclt_not_le _ _ Y P2)|apply (Qclt_not_le _ _ Z P3)|apply (Qclt_not_le _ _ W P4)]. }
  split.
  - intros E o I. apply Q. destruct (outside x1 xn y1 yn o) eqn:F; auto. assert (X : existsb (outside x1 xn y1 yn) obs = true) by (apply existsb_exists; eauto). congruence.
  - intros F. destruct (existsb (outside x1 xn y1 yn) obs) eqn:E; auto. apply existsb_exists in E. destruct E as [o [I O]]. apply F, Q in I. congruence.
Qed.
Lemma big_axis_ok g domain : 2 <= length g -> exists w, big_axis g domain = Some w /\ widened g domain w.
Proof.
  intros L. unfold big_axis. destruct (rd_Some g (i := 1)) as [a A]; [lia|]. destruct (rd_Some g (i := 2)) as [b B]; [lia|].
  destruct (rd_Some g (i := length g)) as [c C]; [lia|]. destruct (rd_Some g (i := length g - 1)) as [d D]; [lia|]. rewrite A, B, C, D. cbn [bind].
  eexists. split; [reflexivity|]. exists a, b, d, c. auto 10.
Qed.
Lemma widened_len g domain w : widened g domain w -> length w = length g + 2.
Proof. intros [a [b [c [d [_ [_ [_ [_ ->]]]]]]]]. simpl. rewrite app_length. simpl. lia. Qed.
Lemma widened_rd g domain w i v : widened g domain w -> rd w i = Some v ->
  (i = 1 /\ exists g1 g2, rd g 1 = Some g1 /\ rd g 2 = Some g2 /\ v = (g1 - domain * (g2 - g1))%Qc) \/
  (2 <= i <= length g + 1 /\ rd g (i - 1) = Some v) \/
  (i = length g + 2 /\ exists gm gn, rd g (length g - 1) = Some gm /\ rd g (length g) = Some gn /\ v = (gn + domain * (gn - gm))%Qc).
Proof.
  intros [a [b [c [d [A [B [C [D ->]]]]]]]] R. destruct i as [|[|i]]; [discriminate| |].
  - left. split; auto. exists a, b. cbn in R. injection R as <-. auto.
  - right. change (rd (g ++ (d + domain * (d - c))%Qc :: nil) (Datatypes.S i) = Some v) in R. destruct (Nat.leb_spec (Datatypes.S i) (length g)) as [H|H].
    + left. split; [lia|]. rewrite rd_app1 in R by lia. replace (Datatypes.S (Datatypes.S i) - 1) with (Datatypes.S i) by lia. auto.
    + right. pose proof (rd_Some_bounds _ _ R) as Bd. rewrite app_length in Bd. simpl in Bd. split; [lia|]. exists c, d. split; auto. split; auto. rewrite rd_app2 in R by lia. replace (Datatypes.S i - length g) with 1 in R by lia. cbn in R. congruence.
Qed.
Lemma widened_inner g domain w i v : widened g domain w -> rd g i = Some v -> rd w (i + 1) = Some v.
Proof.
  intros [a [b [c [d [_ [_ [_ [_ ->]]]]]]]] R. pose proof (rd_Some_bounds _ _ R). destruct i as [|i]; [lia|]. rewrite Nat.add_1_r. change (rd (g ++ (d + domain * (d - c))%Qc :: nil) (Datatypes.S i) = Some v).
  rewrite rd_app1 by lia. auto.
Qed.
Lemma widened_increasing g domain w : widened g domain w -> (0 < domain)%Qc -> 2 <= length g -> increasing g -> increasing w.
Proof.
  intros W Hd L G i j a b Hij Ri Rj.
  assert (P1 : forall g1 g2, rd g 1 = Some g1 -> rd g 2 = Some g2 -> (g1 - domain * (g2 - g1) < g1)%Qc).
  { intros g1 g2 H1 H2. assert (X : (0 < domain * (g2 - g1))%Qc). { apply Qcmul_pos; auto. assert ((g1 < g2)%Qc) by (apply (G 1 2); auto). qclra. } qclra. }
  assert (P2 : forall gm gn, rd g (length g - 1) = Some gm -> rd g (length g) = Some gn -> (gn < gn + domain * (gn - gm))%Qc).
  { intros gm gn H1 H2. assert (X : (0 < domain * (gn - gm))%Qc). { apply Qcmul_pos; auto. assert ((gm < gn)%Qc) by (apply (G (length g - 1) (length g)); auto; lia). qclra. } qclra. }
  assert (LE : forall k l c d, k <= l -> rd g k = Some c -> rd g l = Some d -> (c <= d)%Qc).
  { intros k l c d H H1 H2. destruct (Nat.eq_dec k l) as [->|N]; [replace d with c by congruence; apply Qcle_refl|apply Qclt_le_weak; apply (G k l); auto; lia]. }
  destruct (widened_rd _ _ _ _ _ W Ri) as [[-> [g1 [g2 [H1 [H2 ->]]]]]|[[Hi Ri']|[-> [gm [gn [H1 [H2 ->]]]]]]];
  destruct (widened_rd _ _ _ _ _ W Rj) as [[-> [g1' [g2' [H1' [H2' ->]]]]]|[[Hj Rj']|[-> [gm' [gn' [H1' [H2' ->]]]]]]]; try lia.
  - pose proof (P1 _ _ H1 H2). assert ((g1 <= b)%Qc) by (apply (LE 1 (j - 1)); auto; lia). qclra.
  - pose proof (P1 _ _ H1 H2). pose proof (P2 _ _ H1' H2'). assert ((g1 <= gn')%Qc) by (apply (LE 1 (length g)); auto; lia). qclra.
  - apply (G (i - 1) (j - 1)); auto; lia.
  - pose proof (P2 _ _ H1' H2'). assert ((a <= gn')%Qc) by (apply (LE (i - 1) (length g)); auto; lia). qclra.
Qed.
Lemma widened_equal g w d : widened g 1%Qc w -> 2 <= length g -> equally_spaced g d -> equally_spaced w d.
Proof.
  intros W L [Hd [g1 E]]. split; auto. exists (g1 - d)%Qc. intros i a R.
  destruct (widened_rd _ _ _ _ _ W R) as [[-> [x [y [H1 [H2 ->]]]]]|[[Hi Ri']|[-> [gm [gn [H1 [H2 ->]]]]]]].
  - apply E in H1. apply E in H2. subst x y. change (Z.of_nat (1 - 1)) with 0%Z. change (Z.of_nat (2 - 1)) with 1%Z. rewrite qz_0, qz_1. ring.
  - apply E in Ri'. subst a. replace (Z.of_nat (i - 1)) with (Z.of_nat (i - 1 - 1) + 1)%Z by lia. rewrite qz_add, qz_1. ring.
  - apply E in H1. apply E in H2. subst gm gn. replace (Z.of_nat (length g - 1)) with (Z.of_nat (length g - 1 - 1) + 1)%Z by lia.
    replace (Z.of_nat (length g + 2 - 1)) with (Z.of_nat (length g - 1 - 1) + 1 + 1 + 1)%Z by lia. rewrite !qz_add, qz_1. ring.
Qed.
Lemma equally_nearly g d : 2 <= length g -> equally_spaced g d -> nearly_equal g.
Proof.
  intros L [Hd [g1 E]]. destruct (rd_Some g (i := 1)) as [a A]; [lia|]. destruct (rd_Some g (i := 2)) as [b B]; [lia|]. exists a, b. split; auto. split; auto.
  intros m c e Hm Hc He. apply E in A, B, Hc, He. subst. change (Z.of_nat (1 - 1)) with 0%Z. change (Z.of_nat (2 - 1)) with 1%Z. replace (Z.of_nat (m + 1 - 1)) with (Z.of_nat (m - 1) + 1)%Z by lia.
  rewrite qz_add, qz_0, qz_1. match goal with |- (qcabs ?q <= _)%Qc => replace q with 0%Qc by ring end. apply (proj2 (Qcle_alt _ _)). vm_compute. discriminate.
Qed.
Lemma equally_increasing g d : equally_spaced g d -> increasing g.
Proof. intros H. eapply spaced_increasing; eauto. Qed.
