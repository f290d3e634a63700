(** C51: the Liang-Kleeman information flow. *)
From Coq Require Import Reals List Lia Lra Psatz ZArith.
From Verif Require Import Base SH_Model TP_Model CA_Model CA_Proofs CA_Props LC_Model LC_Spec LC_Proofs LC_Proofs2.
Local Close Scope Qc_scope.
Import ListNotations.
Local Open Scope R_scope.

(** The three contributions add up to one, and none of them exceeds one. *)
Theorem C51_normalised : forall (y1 y2 : list R) npt r, liang RO y1 y2 npt = Some r ->
  Rabs (tau21 r) + Rabs (dH1_star r) + Rabs (dH1_noise r) = 1 /\
  Rabs (tau21 r) < 1 /\ Rabs (dH1_star r) < 1 /\ 0 < dH1_noise r <= 1 /\ 0 < Ztot r.
Proof.
  intros y1 y2 npt r H. apply liang_some in H. destruct H as (E & F & G & D & Q & ->).
  set (l := observations y1 y2 npt) in *.
  assert (K : (2 <= length l)%nat) by (unfold l; rewrite view_len; lia).
  pose proof (sxx_pos l K D) as X.
  assert (K1 : 0 < INR (length l) - 1). { assert (INR 2 <= INR (length l)) by (apply le_INR; exact K). cbn in H. lra. }
  assert (K2 : 0 < INR (length l)) by lra.
  unfold flow_of. set (t := fb l * _). set (s := fa l). set (n := _ / _).
  assert (N : 0 < n).
  { assert (0 <= sse l (ff l) (fa l) (fb l)) by (apply tot_nonneg; intro; apply pow2_ge_0).
    assert (Qp : 0 < sse l (ff l) (fa l) (fb l)) by (apply Rnot_le_lt; intro; apply Q; apply Rle_antisym; assumption).
    unfold n. apply Rdiv_lt_0_compat; [apply Rdiv_lt_0_compat; [exact Qp|exact K2]|]. assert (0 < S ox ox l / (INR (length l) - 1)) by (apply Rdiv_lt_0_compat; lra). lra. }
  unfold mk. cbn [tau21 dH1_star dH1_noise Ztot]. set (Z := Rabs t + Rabs s + Rabs n).
  assert (An : Rabs n = n) by (apply Rabs_right; lra).
  pose proof (Rabs_pos t). pose proof (Rabs_pos s).
  assert (PZ : 0 < Z) by (unfold Z; rewrite An; lra).
  assert (AD : forall v, Rabs (v / Z) = Rabs v / Z) by (intro v; unfold Rdiv; rewrite Rabs_mult, (Rabs_inv Z), (Rabs_right Z) by lra; reflexivity).
  assert (LT : forall u, u < Z -> u / Z < 1) by (intros u Hu; apply (Rmult_lt_reg_r Z); [exact PZ|]; unfold Rdiv; rewrite Rmult_assoc, Rinv_l by lra; lra).
  rewrite !AD. repeat split.
  - rewrite <- !Rdiv_plus_distr. fold Z. unfold Rdiv. apply Rinv_r. lra.
  - apply LT. unfold Z. rewrite An. lra.
  - apply LT. unfold Z. rewrite An. lra.
  - apply Rdiv_lt_0_compat; assumption.
  - destruct (Req_dec n Z) as [W|W]; [rewrite W; unfold Rdiv; rewrite Rinv_r by lra; lra|]. left. apply LT. unfold Z in *. rewrite An in *. lra.
  - exact PZ.
Qed.

(** Changing the units and the origin of either series, including a change of
    sign, changes nothing at all in the answer. *)
Theorem C51_affine : forall a b c d (y1 y2 : list R) npt, a <> 0 -> c <> 0 ->
  liang RO (affine a b y1) (affine c d y2) npt = liang RO y1 y2 npt.
Proof. intros. apply liang_affine; assumption. Qed.

Ltac asR := match goal with |- @eq _ ?a ?b => change (@eq R a b) end.
Lemma cov_S f g l : cov f g l = S f g l / (INR (length l) - 1). Proof. reflexivity. Qed.
(** The flow is the one of Liang (2014): the coefficient of the second series in
    the least-squares fit of the tendency of the first, times the regression of
    the second series on the first. *)
Theorem C51_value : forall (y1 y2 : list R) npt r, liang RO y1 y2 npt = Some r ->
  let l := observations y1 y2 npt in
  exists f a b, best_fit l f a b /\ (forall f' a' b', best_fit l f' a' b' -> f' = f /\ a' = a /\ b' = b) /\
    T21 r = b * (cov ox oy l / cov ox ox l) /\
    tau21 r * Ztot r = T21 r /\ dH1_star r * Ztot r = a /\
    dH1_noise r * Ztot r = sse l f a b / INR (length l) / (2 * cov ox ox l) /\
    Ztot r = Rabs (T21 r) + Rabs a + sse l f a b / INR (length l) / (2 * cov ox ox l).
Proof.
  intros y1 y2 npt r H l. pose proof (C51_normalised y1 y2 npt r H) as (_ & _ & _ & _ & PZ).
  pose proof (C51_normalised y1 y2 npt r H) as (_ & _ & _ & [Pn _] & _).
  apply liang_some in H. destruct H as (E & F & G & D & Q & ->). fold l in D, Q, PZ, Pn |- *.
  assert (K : (2 <= length l)%nat) by (unfold l; rewrite view_len; lia).
  pose proof (sxx_pos l K D) as X.
  assert (K1 : 0 < INR (length l) - 1). { assert (INR 2 <= INR (length l)) by (apply le_INR; exact K). cbn in H. lra. }
  exists (ff l), (fa l), (fb l). split; [apply fit_best; assumption|]. split; [intros; apply fit_unique; assumption|].
  rewrite !cov_S. unfold flow_of, mk in *. cbn [tau21 dH1_star dH1_noise Ztot T21] in *.
  set (n := sse l _ _ _ / _ / _) in *. set (t := fb l * (S ox oy l / S ox ox l)) in *.
  assert (An : Rabs n = n).
  { apply Rabs_right. left. assert (0 < n / (Rabs t + Rabs (fa l) + Rabs n) * (Rabs t + Rabs (fa l) + Rabs n)) by (apply Rmult_lt_0_compat; assumption).
    unfold Rdiv in H. rewrite Rmult_assoc, Rinv_l in H by lra. lra. }
  split; [unfold t; asR; field; split; lra|]. split; [asR; field; lra|]. split; [asR; field; lra|]. split; [asR; field; lra|].
  rewrite An. reflexivity.
Qed.

(** When an answer is returned: the series are long enough, neither is a
    function of the other, and the tendency is not fitted exactly. *)
Theorem C51_returns : forall (y1 y2 : list R) npt,
  (exists r, liang RO y1 y2 npt = Some r) <->
  (length y1 = length y2 /\ (1 <= npt)%nat /\ (npt + 2 <= length y1)%nat /\
   independent (observations y1 y2 npt) /\ forall f a b, sse (observations y1 y2 npt) f a b <> 0).
Proof.
  intros y1 y2 npt. split.
  - intros [r H]. apply liang_some in H. destruct H as (E & F & G & D & Q & _). split; [exact E|]. split; [exact F|]. split; [exact G|]. split.
    + apply det_independent; [rewrite view_len; lia|exact D].
    + intros f a b Z. apply Q. apply Rle_antisym; [|apply tot_nonneg; intro; apply pow2_ge_0].
      rewrite <- Z. apply fit_best; [rewrite view_len; lia|exact D].
  - intros (E & F & G & I & Q). rewrite (liang_value y1 y2 npt E F G).
    destruct (Req_EM_T (det _) 0) as [D|D].
    { exfalso. apply det_independent in I; [congruence|rewrite view_len; lia]. }
    destruct (Req_EM_T (sse _ _ _ _) 0) as [Z|_]; [exfalso; exact (Q _ _ _ Z)|]. eexists. reflexivity.
Qed.

Definition w1 : list R := map IZR [3; 3; 4; 2; 4; 2]%Z.
Definition w2 : list R := map IZR [1; 0; 4; 1; 2; 4]%Z.
Example C51_example_hyp : exists r, liang RO w1 w2 2 = Some r.
Proof.
  apply C51_returns. cbn [length w1 w2 map]. repeat split; try lia.
  - pose proof (H _ (or_introl eq_refl)) as H1. pose proof (H _ (or_intror (or_introl eq_refl))) as H2.
    pose proof (H _ (or_intror (or_intror (or_introl eq_refl)))) as H3. cbn in H1, H2, H3. lra.
  - pose proof (H _ (or_introl eq_refl)) as H1. pose proof (H _ (or_intror (or_introl eq_refl))) as H2.
    pose proof (H _ (or_intror (or_intror (or_introl eq_refl)))) as H3. cbn in H1, H2, H3. lra.
  - intros f a b Z. pose proof (tot_zero _ _ (fun e => pow2_ge_0 (og e - (f + a * ox e + b * oy e))) Z) as V. cbn beta in V.
    assert (V' : forall e, In e (observations w1 w2 2) -> og e = f + a * ox e + b * oy e).
    { intros e He. specialize (V e He). rewrite <- Rsqr_pow2 in V. apply Rsqr_0_uniq in V. lra. }
    pose proof (V' _ (or_introl eq_refl)) as H1. pose proof (V' _ (or_intror (or_introl eq_refl))) as H2.
    pose proof (V' _ (or_intror (or_intror (or_introl eq_refl)))) as H3.
    pose proof (V' _ (or_intror (or_intror (or_intror (or_introl eq_refl))))) as H4. cbn in H1, H2, H3, H4. lra.
Qed.
(** The same series computed: T21 = 1/6, tau = 2/5, Z = 5/12, -2/5 and 1/5. *)
Definition qflow (r : flow QX) : list Q := map this [T21 r; tau21 r; Ztot r; dH1_star r; dH1_noise r].
Example C51_example :
  option_map qflow (liang QX (map qz [3; 3; 4; 2; 4; 2]%Z) (map qz [1; 0; 4; 1; 2; 4]%Z) 2)
  = Some [1 # 6; 2 # 5; 5 # 12; - 2 # 5; 1 # 5]%Q /\
  option_map qflow (liang QX (map qz [7; 7; 9; 5; 9; 5]%Z) (map qz [-3; 0; -12; -3; -6; -12]%Z) 2)
  = Some [1 # 6; 2 # 5; 5 # 12; - 2 # 5; 1 # 5]%Q.
Proof. vm_compute. split; reflexivity. Qed.

(** A first series whose tendency is an exact function of the two series (here
    doubling at every step) is refused, although it has a unique fit. *)
Theorem C51_exact_fit_refuted : exists (y1 y2 : list R),
  length y1 = length y2 /\ (3 <= length y1)%nat /\ independent (observations y1 y2 1) /\ liang RO y1 y2 1 = None.
Proof.
  exists (map IZR [1; 2; 4; 8; 16]%Z), (map IZR [1; 0; 4; 1; 2]%Z). repeat split; try (cbn; lia).
  - pose proof (H _ (or_introl eq_refl)) as H1. pose proof (H _ (or_intror (or_introl eq_refl))) as H2.
    pose proof (H _ (or_intror (or_intror (or_introl eq_refl)))) as H3. cbn in H1, H2, H3. lra.
  - pose proof (H _ (or_introl eq_refl)) as H1. pose proof (H _ (or_intror (or_introl eq_refl))) as H2.
    pose proof (H _ (or_intror (or_intror (or_introl eq_refl)))) as H3. cbn in H1, H2, H3. lra.
  - set (y1 := map IZR _). set (y2 := map IZR _).
    destruct (liang RO y1 y2 1) as [r|] eqn:E; [|reflexivity]. exfalso.
    destruct (proj1 (C51_returns y1 y2 1) (ex_intro _ r E)) as (_ & _ & _ & _ & H). apply (H 0 1 0). cbn. lra.
Qed.

(** liang_causality returns the same flow; the significance levels are the
    quantiles of the flows of the surrogates of the two (truncated) series, in
    that order, and every quantile of the normalised flow lies within (-1, 1). *)
Theorem C51_causality : forall sur mq (y1 y2 : list R) npt nsim qs r t s,
  quantile_contract mq -> liang_causality RO sur mq y1 y2 npt nsim qs = Some (r, (t, s)) ->
  liang RO y1 y2 npt = Some r /\
  (exists rs, Forall2 (fun p u => liang RO (fst p) (snd p) npt = Some u)
                (sur (firstn (length y1 - npt) y1) (firstn (length y1 - npt) y2) nsim) rs /\
              t = mq (map T21 rs) qs /\ s = mq (map tau21 rs) qs) /\
  forall v, In v s -> Rabs v < 1.
Proof.
  intros sur mq y1 y2 npt nsim qs r t s Hq H. unfold liang_causality in H. change (T (obase RO)) with R in *.
  destruct (liang RO y1 y2 npt) as [r'|]; [|discriminate]. unfold signif in H. change (T (obase RO)) with R in *.
  set (L := sur _ _ nsim) in H. destruct (noise_flows RO npt L) as [rs|] eqn:N; [|discriminate].
  injection H as -> <- <-. split; [reflexivity|]. split.
  { exists rs. split; [|split; reflexivity]. fold L. revert rs N. induction L as [|p L IH]; intros rs N; cbn in N.
    - injection N as <-. constructor.
    - destruct (liang RO (fst p) (snd p) npt) as [u0|] eqn:E0; [|discriminate].
      destruct (noise_flows RO npt L) as [rs0|]; [|discriminate]. injection N as <-. constructor; [exact E0|]. apply IH. reflexivity. }
  intros v Hv.
  assert (B : forall u, In u rs -> Rabs (tau21 u) < 1).
  { clear Hv. revert rs N. induction L as [|p L IH]; intros rs N u Hu; cbn in N.
    - injection N as <-. destruct Hu.
    - destruct (liang RO (fst p) (snd p) npt) as [u0|] eqn:E0; [|discriminate].
      destruct (noise_flows RO npt L) as [rs0|]; [|discriminate]. injection N as <-. destruct Hu as [<-|Hu].
      + apply (C51_normalised _ _ _ _ E0).
      + apply (IH rs0 eq_refl u Hu). }
  destruct (Hq _ _ _ Hv) as (lo & hi & Hlo & Hhi & Hb).
  apply in_map_iff in Hlo. destruct Hlo as (u & <- & Hu). apply in_map_iff in Hhi. destruct Hhi as (w & <- & Hw).
  pose proof (B u Hu) as Bu. pose proof (B w Hw) as Bw. apply Rabs_def2 in Bu. apply Rabs_def2 in Bw. apply Rabs_def1; lra.
Qed.
(** Ten surrogates that repeat the series of the example, and the quantile that
    returns the first value. *)
Example C51_causality_example : exists r t v,
  quantile_contract (fun data qs => map (fun _ => hd 0 data) (firstn (length data) qs)) /\
  liang_causality RO (fun _ _ n => repeat (w1, w2) n) (fun data qs => map (fun _ => hd 0 data) (firstn (length data) qs)) w1 w2 2 10 [1 / 2]
  = Some (r, (t, [v])).
Proof.
  destruct C51_example_hyp as [r H]. exists r, [T21 r], (tau21 r). split.
  - intros data qs v Hv. apply in_map_iff in Hv. destruct Hv as (q & <- & Hq).
    destruct data as [|x data]; [destruct Hq|]. exists x, x. cbn. repeat split; try (left; reflexivity); lra.
  - unfold liang_causality, signif. change (T (obase RO)) with R in *. rewrite H. cbn [repeat noise_flows fst snd]. change (T (obase RO)) with R in *. rewrite !H. reflexivity.
Qed.

Print Assumptions C51_normalised.
Print Assumptions C51_affine.
Print Assumptions C51_value.
Print Assumptions C51_returns.
Print Assumptions C51_exact_fit_refuted.
Print Assumptions C51_causality.
