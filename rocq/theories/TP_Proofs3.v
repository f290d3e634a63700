(** The tropopause kernels in exact real arithmetic. *)
From Coq Require Import Reals Lra.
From Verif Require Import Base Buffer VH_Model VH_Proofs TP_Model TP_Spec TP_Proofs TP_Proofs2.
Local Close Scope Qc_scope.
Local Open Scope R_scope.

Lemma Rltb_true x y : Rltb x y = true <-> x < y.
Proof. unfold Rltb. destruct (Rlt_dec x y); split; intros; auto; discriminate. Qed.
Lemma Rltb_false x y : Rltb x y = false <-> y <= x.
Proof. unfold Rltb. destruct (Rlt_dec x y); split; intros; auto; try discriminate; lra. Qed.
Lemma Reqb_true x y : Reqb x y = true <-> x = y.
Proof. unfold Reqb. destruct (Req_EM_T x y); split; intros; auto; try discriminate; contradiction. Qed.
Lemma Reqb_false x y : Reqb x y = false <-> x <> y.
Proof. unfold Reqb. destruct (Req_EM_T x y); split; intros; auto; try discriminate; contradiction. Qed.

Definition gc : R := 1000 * (980665 / 100000) / (28704 / 100).
Lemma gc_eq : grav_const RF = gc.
Proof. unfold grav_const, gc. cbn. lra. Qed.
Lemma gc_pos : 34 < gc < 35. Proof. unfold gc. lra. Qed.

(** the marker tests *)
Lemma found_seen tmsg q : tmsg < 85 - 1 / 10000000000 ->
  fltb RF (fc RF 1 10000000000) (fabs RF (fsub RF (fmax RF q (fc RF 85 1)) tmsg)) = true.
Proof. intros H. cbn. apply Rltb_true. assert (85 <= Rmax q (85 / 1)). { unfold Rmax. destruct (Rle_dec q (85/1)); lra. } rewrite Rabs_pos_eq; lra. Qed.
Lemma missing_seen tmsg : fltb RF (fc RF 1 10000000000) (fabs RF (fsub RF tmsg tmsg)) = false.
Proof. cbn. apply Rltb_false. rewrite Rminus_diag_eq by auto. rewrite Rabs_R0. lra. Qed.
Lemma crit_small crit : crit <= 1000000000 -> fltb RF (fc RF 1000000000 1) crit = false.
Proof. intros. cbn. apply Rltb_false. lra. Qed.
Lemma pa_seen tmsg : 1 / 10000000000 < 99 * Rabs tmsg ->
  fltb RF (fc RF 1 10000000000) (fabs RF (fsub RF (fmul RF tmsg (fc RF 100 1)) tmsg)) = true.
Proof. intros H. cbn. apply Rltb_true. replace (tmsg * (100 / 1) - tmsg) with (99 * tmsg) by lra. rewrite Rabs_mult, (Rabs_pos_eq 99) by lra. auto. Qed.

(** the crossing lies between the two layer middles when the rate does cross *)
Lemma crossing_between p t crit k q r h r' h' : (forall x, In x p -> 0 < x) ->
  layer RF p t k r h -> layer RF p t (k + 1) r' h' -> crossing RF p t crit k q ->
  r < crit <= r' -> h < h' -> h < q <= h'.
Proof.
  intros POS Y Y' (r0 & h0 & r1 & h1 & Y0 & Y1 & D) C H.
  destruct (layer_fun RF p t _ _ _ _ _ Y Y0) as [<- <-]. destruct (layer_fun RF p t _ _ _ _ _ Y' Y1) as [<- <-].
  assert (PH : 0 < h).
  { destruct Y as (p0 & p1 & t0 & t1 & E0 & E1 & _ & _ & _ & ->). apply nth_error_In in E0, E1. apply POS in E0, E1. cbn. lra. }
  destruct D as [[_ ->]|[E ->]]; [|apply Reqb_true in E; lra]. cbn.
  set (w := (crit - r) / (r' - r)).
  assert (W0 : 0 < w) by (apply Rdiv_lt_0_compat; lra).
  assert (W1 : w <= 1). { unfold w. apply Rmult_le_reg_r with (r' - r); [lra|]. unfold Rdiv. rewrite Rmult_assoc, Rinv_l by lra. lra. }
  assert (D : 0 < ln h' - ln h) by (pose proof (ln_increasing h h' PH H); lra).
  split.
  - rewrite <- (exp_ln h) at 1 by auto. apply exp_increasing. pose proof (Rmult_lt_0_compat _ _ W0 D). lra.
  - rewrite <- (exp_ln h') at 2 by lra.
    assert (ln h + w * (ln h' - ln h) <= ln h'). { pose proof (Rmult_le_compat_r _ _ _ (Rlt_le _ _ D) W1). lra. }
    destruct H0 as [L|E]; [left; apply exp_increasing; auto|rewrite E; lra].
Qed.

(** *** witnesses *)
(** one layer of a column whose temperatures are 200 * exp(a) *)
Lemma layer_R (p t : list R) k p0 p1 a0 a1 d r : nth_error p k = Some p0 -> nth_error p (k + 1) = Some p1 ->
  nth_error t k = Some (200 * exp a0) -> nth_error t (k + 1) = Some (200 * exp a1) ->
  ln p1 - ln p0 = d -> 0 < d -> a1 - a0 = r * d / gc ->
  layer RF p t k r ((p0 + p1) / 2).
Proof.
  intros P0 P1 T0 T1 D DP E. exists p0, p1, (200 * exp a0), (200 * exp a1).
  split; [auto|]. split; [auto|]. split; [auto|]. split; [auto|]. split.
  - rewrite gc_eq. cbn. rewrite !ln_mult, !ln_exp by (try apply exp_pos; lra).
    replace (ln 200 + a0 - (ln 200 + a1)) with (- (r * d / gc)) by lra.
    replace (ln p0 - ln p1) with (- d) by lra. pose proof gc_pos. field. lra.
  - cbn. lra.
Qed.
Lemma ln_ratio x y : 0 < x -> 0 < y -> ln y - ln x = ln (y / x).
Proof. intros. unfold Rdiv. rewrite ln_mult, ln_Rinv by (auto using Rinv_0_lt_compat). lra. Qed.
Lemma ln_pos_1 x : 1 < x -> 0 < ln x.
Proof. intros. rewrite <- ln_1. apply ln_increasing; lra. Qed.

(** 1: an isothermal column gets its tropopause at 600 hPa *)
Definition iso_p : list R := [100; 200; 400; 800; 1000].
Definition iso_t : list R := [200 * exp 0; 200 * exp 0; 200 * exp 0; 200 * exp 0; 200 * exp 0].
Lemma iso_layer k p0 p1 : nth_error iso_p k = Some p0 -> nth_error iso_p (k + 1) = Some p1 -> layer RF iso_p iso_t k 0 ((p0 + p1) / 2).
Proof.
  intros H0 H1. assert (K : (k < 4)%nat). { assert (nth_error iso_p (k + 1) <> None) by congruence. apply nth_error_Some in H. cbn in H. lia. }
  assert (B : 0 < p0 < p1) by (do 4 (destruct k; [injection H0 as <-; injection H1 as <-; lra|]); lia).
  apply (layer_R _ _ _ _ _ 0 0 (ln p1 - ln p0)); auto.
  - do 4 (destruct k; [reflexivity|]). lia.
  - do 4 (destruct k; [reflexivity|]). lia.
  - pose proof (ln_increasing p0 p1). lra.
  - pose proof gc_pos. field. lra.
Qed.
Lemma exp_low x : 1 + x <= exp x.
Proof. destruct (Req_dec x 0) as [->|N]; [rewrite exp_0; lra|]. left. apply exp_ineq1. auto. Qed.
Lemma iso_ok : first_tropopause RF iso_p iso_t 2 2 600.
Proof.
  assert (Y1 := iso_layer 1 _ _ eq_refl eq_refl). assert (Y2 := iso_layer 2 _ _ eq_refl eq_refl). assert (Y3 := iso_layer 3 _ _ eq_refl eq_refl).
  split.
  2: { intros j q' J T. apply tropopause_bound in T; [|reflexivity]. cbn in T. lia. }
  split; [|split].
  - exists 0, ((400 + 800) / 2), 400. split; [auto|]. split; [reflexivity|]. split; cbn; apply Rltb_true; lra.
  - do 4 eexists. split; [exact Y2|]. split; [exact Y3|]. right. split; [cbn; apply Reqb_true; auto|lra].
  - exists (exp (ln 600 - 2 * gc / (200 * exp 0))), 2%nat, (0 :: nil).
    assert (Z : 390 < exp (ln 600 - 2 * gc / (200 * exp 0)) < 600).
    { rewrite exp_0. replace (2 * gc / (200 * 1)) with (gc / 100) by field. unfold Rminus. rewrite exp_plus, exp_ln by lra. pose proof gc_pos.
      pose proof (exp_low (- (gc / 100))). assert (exp (- (gc / 100)) < 1) by (rewrite <- exp_0; apply exp_increasing; lra). split; nra. }
    split; [|split; [|split]].
    + exists (200 * exp 0). split; [reflexivity|]. rewrite gc_eq. cbn. f_equal. f_equal. field. pose proof (exp_pos 0). lra.
    + split; [lia|]. split.
      * intros j r h J Y. replace j with 2%nat in Y by lia. destruct (layer_fun RF _ _ _ _ _ _ _ Y Y2) as [_ ->]. cbn. apply Rltb_false. lra.
      * right. do 2 eexists. split; [exact Y1|]. cbn. apply Rltb_true. lra.
    + constructor; [eexists; exact Y2|constructor].
    + unfold mean. cbn. apply Rltb_true. lra.
Qed.

(** 2: three layers that cool slowly, the lowest of them slowest: the crossing
    is extrapolated out of the top of the column *)
Definition out_p : list R := [100; 200; 400; 800].
Definition out_a (n : R) : R := n * ln 2 / gc.
Definition out_t : list R := [200 * exp (out_a 4); 200 * exp (out_a 3); 200 * exp (out_a 2); 200 * exp (out_a 0)].
Lemma ln2_pos : 0 < ln 2. Proof. apply ln_pos_1. lra. Qed.
Lemma double x : 0 < x -> ln (2 * x) - ln x = ln 2.
Proof. intros. rewrite ln_mult by lra. lra. Qed.
Lemma out_layer0 : layer RF out_p out_t 0 (-1) 150.
Proof. replace 150 with ((100 + 200) / 2) by lra. eapply (layer_R _ _ _ _ _ _ _ (ln 2)); try reflexivity; [rewrite <- (double 100) by lra; do 2 f_equal; lra|apply ln2_pos|]. unfold out_a. pose proof gc_pos. field. lra. Qed.
Lemma out_layer1 : layer RF out_p out_t 1 (-1) 300.
Proof. replace 300 with ((200 + 400) / 2) by lra. eapply (layer_R _ _ _ _ _ _ _ (ln 2)); try reflexivity; [rewrite <- (double 200) by lra; do 2 f_equal; lra|apply ln2_pos|]. unfold out_a. pose proof gc_pos. field. lra. Qed.
Lemma out_layer2 : layer RF out_p out_t 2 (-2) 600.
Proof. replace 600 with ((400 + 800) / 2) by lra. eapply (layer_R _ _ _ _ _ _ _ (ln 2)); try reflexivity; [rewrite <- (double 400) by lra; do 2 f_equal; lra|apply ln2_pos|]. unfold out_a. pose proof gc_pos. field. lra. Qed.
Lemma out_ok : first_tropopause RF out_p out_t 2 1 (75 / 2).
Proof.
  split.
  2: { intros j q' J T. apply tropopause_bound in T; [|reflexivity]. cbn in T. lia. }
  assert (Q : exp (ln 300 + (2 - -1) / (-2 - -1) * (ln 600 - ln 300)) = 75 / 2).
  { replace 600 with (2 * 300) by lra. rewrite double by lra.
    replace ((2 - -1) / (-2 - -1)) with (-3) by field. rewrite exp_plus, exp_ln by lra.
    replace (-3 * ln 2) with (- (ln 2 + ln 2 + ln 2)) by lra. rewrite exp_Ropp, !exp_plus, !exp_ln by lra. field. }
  split; [|split].
  - exists (-1), 300, 200. split; [apply out_layer1|]. split; [reflexivity|]. split; cbn; apply Rltb_true; lra.
  - do 4 eexists. split; [exact out_layer1|]. split; [exact out_layer2|]. left. split; [cbn; apply Reqb_false; lra|]. cbn. symmetry. exact Q.
  - set (t1 := 200 * exp (out_a 3)). exists (exp (ln (75 / 2) - 2 * gc / t1)), 0%nat, (-1 :: -1 :: nil).
    assert (Z : exp (ln (75 / 2) - 2 * gc / t1) < 75 / 2).
    { rewrite <- (exp_ln (75 / 2)) at 2 by lra. apply exp_increasing. pose proof gc_pos.
      assert (0 < t1) by (unfold t1; pose proof (exp_pos (out_a 3)); lra). assert (0 < 2 * gc / t1) by (apply Rdiv_lt_0_compat; lra). lra. }
    split; [|split; [|split]].
    + exists t1. split; [reflexivity|]. rewrite gc_eq. cbn. f_equal. f_equal. f_equal. lra.
    + split; [lia|]. split; [|auto].
      intros j r h J Y. cbn. apply Rltb_false. destruct j as [|[|j]]; [| |lia].
      * destruct (layer_fun RF _ _ _ _ _ _ _ Y out_layer0) as [_ ->]. lra.
      * destruct (layer_fun RF _ _ _ _ _ _ _ Y out_layer1) as [_ ->]. lra.
    + constructor; [eexists; exact out_layer1|]. constructor; [eexists; exact out_layer0|constructor].
    + unfold mean. cbn. apply Rltb_true. lra.
Qed.

(** 3: thin layers with rates 5, 1, 9, -10 from below: the mean over the whole
    2 km is 0, the mean over the first two layers is 5 *)
Definition thin_p : list R := [200; 220; 242; 1331 / 5; 14641 / 50].
Definition thin_a (n : R) : R := n * ln (11 / 10) / gc.
Definition thin_t : list R := [200 * exp (thin_a 0); 200 * exp (thin_a (-10)); 200 * exp (thin_a (-1)); 200 * exp (thin_a 0); 200 * exp (thin_a 5)].
Lemma ln11_pos : 0 < ln (11 / 10). Proof. apply ln_pos_1. lra. Qed.
Lemma step11 x : 0 < x -> ln (11 / 10 * x) - ln x = ln (11 / 10).
Proof. intros. rewrite ln_mult by lra. lra. Qed.
Ltac thin x := eapply (layer_R _ _ _ _ _ _ _ (ln (11 / 10))); try reflexivity; [rewrite <- (step11 x) by lra; do 2 f_equal; lra|apply ln11_pos|unfold thin_a; pose proof gc_pos; field; lra].
Lemma thin_layer0 : layer RF thin_p thin_t 0 (-10) 210.
Proof. replace 210 with ((200 + 220) / 2) by lra. thin 200. Qed.
Lemma thin_layer1 : layer RF thin_p thin_t 1 9 231.
Proof. replace 231 with ((220 + 242) / 2) by lra. thin 220. Qed.
Lemma thin_layer2 : layer RF thin_p thin_t 2 1 (2541 / 10).
Proof. replace (2541 / 10) with ((242 + 1331 / 5) / 2) by lra. thin 242. Qed.
Lemma thin_layer3 : layer RF thin_p thin_t 3 5 (27951 / 100).
Proof. replace (27951 / 100) with ((1331 / 5 + 14641 / 50) / 2) by lra. thin (1331 / 5). Qed.
Definition thin_q : R := exp (ln (2541 / 10) + 1 / 4 * ln (11 / 10)).
Lemma thin_crossing : crossing RF thin_p thin_t 2 2 thin_q.
Proof.
  do 4 eexists. split; [exact thin_layer2|]. split; [exact thin_layer3|]. left. split; [cbn; apply Reqb_false; lra|].
  cbn. unfold thin_q. rewrite <- (step11 (2541 / 10)) by lra. f_equal. f_equal.
  replace (11 / 10 * (2541 / 10)) with (27951 / 100) by lra. field.
Qed.
Lemma thin_reaches : exists z, two_km_above RF thin_t 2 thin_q z /\ reaches RF thin_p thin_t z 0 2.
Proof.
    set (t1 := 200 * exp (thin_a (-1))). exists (exp (ln thin_q - 2 * gc / t1)).
    assert (TP : 0 < t1) by (unfold t1; pose proof (exp_pos (thin_a (-1))); lra).
    assert (TL : t1 < 200).
    { unfold t1. assert (exp (thin_a (-1)) < 1); [|lra]. rewrite <- exp_0. apply exp_increasing.
      unfold thin_a. pose proof ln11_pos. pose proof gc_pos. assert (0 < ln (11 / 10) / gc) by (apply Rdiv_lt_0_compat; lra). lra. }
    assert (Z : exp (ln thin_q - 2 * gc / t1) < 210).
    { unfold thin_q. rewrite ln_exp. unfold Rminus. rewrite exp_plus.
      assert (B1 : exp (ln (2541 / 10) + 1 / 4 * ln (11 / 10)) < 27951 / 100).
      { rewrite <- (exp_ln (27951 / 100)) by lra. apply exp_increasing. replace (27951 / 100) with (11 / 10 * (2541 / 10)) by lra. rewrite (ln_mult (11 / 10)) by lra. pose proof ln11_pos. lra. }
      assert (B2 : exp (- (2 * gc / t1)) < 1000 / 1340).
      { rewrite exp_Ropp. apply Rmult_lt_reg_r with (exp (2 * gc / t1)); [apply exp_pos|]. rewrite Rinv_l by (pose proof (exp_pos (2 * gc / t1)); lra).
        pose proof (exp_low (2 * gc / t1)). assert (34 / 100 < 2 * gc / t1); [|lra]. pose proof gc_pos.
        apply Rmult_lt_reg_r with t1; [auto|]. unfold Rdiv at 2. rewrite Rmult_assoc, Rinv_l by lra. nra. }
      pose proof (exp_pos (ln (2541 / 10) + 1 / 4 * ln (11 / 10))). pose proof (exp_pos (- (2 * gc / t1))). nra. }
    split.
    + exists t1. split; [reflexivity|]. rewrite gc_eq. cbn. f_equal. f_equal. f_equal. lra.
    + split; [lia|]. split; [|auto].
      intros j r h J Y. cbn. apply Rltb_false. destruct j as [|[|[|j]]]; [| | |lia].
      * destruct (layer_fun RF _ _ _ _ _ _ _ Y thin_layer0) as [_ ->]. lra.
      * destruct (layer_fun RF _ _ _ _ _ _ _ Y thin_layer1) as [_ ->]. lra.
      * destruct (layer_fun RF _ _ _ _ _ _ _ Y thin_layer2) as [_ ->]. lra.
Qed.
Lemma thin_ok : first_tropopause RF thin_p thin_t 2 2 thin_q.
Proof.
  split.
  2: { intros j q' J T. apply tropopause_bound in T; [|reflexivity]. cbn in T. lia. }
  split; [|split].
  - exists 1, (2541 / 10), 242. split; [apply thin_layer2|]. split; [reflexivity|]. split; cbn; apply Rltb_true; lra.
  - exact thin_crossing.
  - destruct thin_reaches as (z & Z1 & Z2). exists z, 0%nat, (1 :: 9 :: -10 :: nil).
    split; [exact Z1|]. split; [exact Z2|]. split.
    + constructor; [eexists; exact thin_layer2|]. constructor; [eexists; exact thin_layer1|]. constructor; [eexists; exact thin_layer0|constructor].
    + unfold mean. cbn. apply Rltb_true. lra.
Qed.
