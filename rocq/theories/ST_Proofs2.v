(** One field through the synthesis and through the analysis *)
From Coq Require Import Reals List Arith ZArith Lia Bool Lra.
From Verif Require Import Base Buffer VH_Model RS_Spec RS_Dft FF_Model GS_Spec GS_Model GS_Proofs3 GS_Props LG_Spec LG_Props SH_Spec ST_Spec ST_Model ST_Proofs1.
From Verif Require SH_Model SH_Proofs.
Import ListNotations.
Local Open Scope nat_scope.

Lemma sumR_cut n p f : p <= n -> (forall k, p <= k -> k < n -> f k = 0%R) -> sumR n f = sumR p f.
Proof.
  intros H Z. induction n; [replace p with 0 by lia; reflexivity|]. destruct (Nat.eq_dec p (S n)) as [->|D]; [reflexivity|]. cbn [sumR]. rewrite IHn, Z by (intros; try apply Z; lia). ring.
Qed.

(** The workspace holds the functions at the colatitudes th 1 .. nlat and an FFT table *)
Definition prepared (nlat nlon : nat) (th : nat -> R) (s : saved) : Prop :=
  length (s_pmn s) = north nlat * functions nlat nlon /\
  (forall m n i, m < lmax nlat nlon -> m <= n < nlat -> 1 <= i <= north nlat -> legendre nlat (s_pmn s) m n i = Pbar m n (th i)) /\
  exists fuel wa0, nlon <= length wa0 /\ hrffti fuel nlon wa0 = Some (s_wfft s).

Section Field.
Variables nlat nlon N : nat.
Variable th : nat -> R.
Variable s : saved.
Hypothesis H1 : 1 <= nlat.
Hypothesis H2 : 1 <= nlon.
Hypothesis HS : symmetric_colatitudes nlat th.
Hypothesis HP : prepared nlat nlon th s.

Let thl := map th (seq 1 nlat).
Lemma thl_at i : 1 <= i <= nlat -> colatitude thl i = th i.
Proof. intros Hi. unfold colatitude, thl. rewrite (nth_indep _ 0%R (th 0)) by (rewrite map_length, seq_length; lia). rewrite map_nth, seq_nth by lia. f_equal. lia. Qed.
Lemma thl_sym : symmetric_colatitudes nlat (colatitude thl).
Proof. intros i Hi. rewrite !thl_at by lia. apply HS. auto. Qed.
Lemma lm : 1 <= lmax nlat nlon <= nlat.
Proof. clear HS HP. unfold lmax. lia. Qed.
Lemma prepared_facts : zero_at_equator nlat nlon (s_pmn s) /\
  (forall m n i, m < lmax nlat nlon -> m <= n < nlat -> 1 <= i <= nlat -> pfull nlat (s_pmn s) m n i = Pbar m n (th i)) /\
  (forall wts, gaussian nlat wts th -> orthonormal_functions nlat nlon wts (s_pmn s)).
Proof.
  pose proof (halves nlat) as [N1 N2]. destruct HP as (_ & V & _).
  destruct (fun wts => C98_orthonormal nlat nlon thl wts (s_pmn s) H1 thl_sym) with (wts := @nil R) as (A & B & _).
  { intros m n i Hm Hn Hi. rewrite thl_at by lia. apply V; auto. }
  split; [exact A|]. split; [intros m n i Hm Hn Hi; rewrite B by auto; rewrite thl_at by auto; reflexivity|].
  intros wts G. destruct (C98_orthonormal nlat nlon thl wts (s_pmn s) H1 thl_sym) as (_ & _ & O).
  { intros m n i Hm Hn Hi. rewrite thl_at by lia. apply V; auto. }
  apply O. intros k Hk. rewrite <- (G k Hk). apply sumR_ext. intros q Hq. rewrite thl_at by lia. reflexivity.
Qed.
Lemma angle_longitude m j : angle nlon m j = (INR m * longitude nlon j)%R.
Proof. unfold angle, longitude. field. apply not_0_INR. clear HS HP. lia. Qed.

Variables (d : R) (row : list R).
Hypothesis LR : length row = nlon.

Section Synthesis.
Hypothesis HN : N < nlat.
Variable c : list (R * R).
Variables a b : list R.
Hypothesis LA : length a = nlat * nlat.
Hypothesis LB : length b = nlat * nlat.
Hypothesis VAB : forall m n, m < nlat -> n < nlat ->
    val2 nlat a (m + 1) (n + 1) = (if andb (m <=? n) (n <=? N) then 2 * fst (at_ N c m n) else 0)%R /\
    val2 nlat b (m + 1) (n + 1) = (if andb (m <=? n) (n <=? N) then 2 * snd (at_ N c m n) else 0)%R.
Lemma amp_a m i : m < lmax nlat nlon -> 1 <= i <= nlat ->
  amplitude nlat 0 (s_pmn s) (fun m n => val2 nlat a (m + 1) (n + 1)) m i = (2 * sumR (N + 1 - m) (fun r => Pbar m (m + r) (th i) * fst (at_ N c m (m + r))))%R.
Proof.
  intros Hm Hi. destruct prepared_facts as (_ & PF & _). pose proof lm. unfold amplitude. rewrite <- sumR_scal. rewrite (sumR_cut (nlat - m) (N + 1 - m)) by (try lia; intros k K1 K2; cbv zeta; cbn [used]; rewrite (proj1 (VAB m (m + k) ltac:(lia) ltac:(lia))); replace (m + k <=? N) with false by (symmetry; apply Nat.leb_gt; lia); rewrite andb_false_r; ring).
  apply sumR_ext. intros k Hk. cbv zeta. cbn [used]. rewrite (proj1 (VAB m (m + k) ltac:(lia) ltac:(lia))), PF by lia. replace (m + k <=? N) with true by (symmetry; apply Nat.leb_le; lia). replace (m <=? m + k) with true by (symmetry; apply Nat.leb_le; lia). cbn [andb]. ring.
Qed.
Lemma amp_b m i : m < lmax nlat nlon -> 1 <= i <= nlat ->
  amplitude nlat 0 (s_pmn s) (fun m n => val2 nlat b (m + 1) (n + 1)) m i = (2 * sumR (N + 1 - m) (fun r => Pbar m (m + r) (th i) * snd (at_ N c m (m + r))))%R.
Proof.
  intros Hm Hi. destruct prepared_facts as (_ & PF & _). pose proof lm. unfold amplitude. rewrite <- sumR_scal. rewrite (sumR_cut (nlat - m) (N + 1 - m)) by (try lia; intros k K1 K2; cbv zeta; cbn [used]; rewrite (proj2 (VAB m (m + k) ltac:(lia) ltac:(lia))); replace (m + k <=? N) with false by (symmetry; apply Nat.leb_gt; lia); rewrite andb_false_r; ring).
  apply sumR_ext. intros k Hk. cbv zeta. cbn [used]. rewrite (proj2 (VAB m (m + k) ltac:(lia) ltac:(lia))), PF by lia. replace (m + k <=? N) with true by (symmetry; apply Nat.leb_le; lia). replace (m <=? m + k) with true by (symmetry; apply Nat.leb_le; lia). cbn [andb]. ring.
Qed.
Lemma synthesis_field gs : length gs = nlat * nlon ->
  exists g, shsgs1 nlat nlon 0 d row nlat nlon nlat nlat a b (s_pmn s) (s_wfft s) gs = Some g /\ length g = nlat * nlon /\
    forall i j, i < nlat -> j < nlon ->
      val2 nlat g (i + 1) (j + 1) = expansion N (Nat.min N (lmax nlat nlon - 1)) (at_ N c) (th (i + 1)) (longitude nlon j).
Proof.
  intros LG. pose proof lm as LM. destruct prepared_facts as (ZE & PF & _). destruct HP as (LP & _ & fuel & wa0 & LW & HI).
  destruct (C92_synthesis nlat nlon 0 nlat nlon nlat nlat a b (s_pmn s) d row fuel wa0 (s_wfft s) gs) as (g & E & L & V & _); auto; try lia.
  exists g. split; [exact E|]. split; [exact L|]. intros i j Hi Hj. rewrite V by (unfold rows; cbn; lia). replace (j + 1 - 1) with j by lia. unfold harmonic, expansion.
  rewrite amp_a by lia. f_equal.
  - replace (N + 1 - 0) with (N + 1) by lia. rewrite <- Rmult_assoc. replace (1 / 2 * 2)%R with 1%R by field. rewrite Rmult_1_l. reflexivity.
  - rewrite (sumR_cut (lmax nlat nlon - 1) (Nat.min N (lmax nlat nlon - 1))).
    + rewrite <- sumR_scal. apply sumR_ext. intros q Hq. cbv zeta. rewrite amp_a, amp_b by lia. rewrite angle_longitude. replace (N + 1 - S q) with (N - q) by lia.
      rewrite !Rmult_assoc, <- Rmult_minus_distr_l. f_equal. rewrite <- !sumR_scal_r, <- sumR_minus. apply sumR_ext. intros r Hr. ring.
    + lia.
    + intros q Q1 Q2. cbv zeta. rewrite amp_a, amp_b by lia. replace (N + 1 - S q) with 0 by lia. cbn [sumR]. ring.
Qed.
End Synthesis.

(** ** Analysis *)
Lemma analysis_field g a0 b0 : length g = nlat * nlon -> length a0 = nlat * nlat -> length b0 = nlat * nlat -> symmetric_weights nlat (s_wts s) ->
  exists a b, shags1 nlat nlon 0 d row nlat nlon nlat nlat g (s_wts s) (s_pmn s) (s_wfft s) a0 b0 = Some (a, b) /\ length a = nlat * nlat /\ length b = nlat * nlat /\
    (forall m n, m < lmax nlat nlon -> m <= n < nlat ->
       (1 / 2 * val2 nlat a (m + 1) (n + 1), 1 / 2 * val2 nlat b (m + 1) (n + 1))%R
       = projection nlat nlon (fun i => nth i (s_wts s) 0%R) (fun i => th (S i)) (fun i j => val2 nlat g (i + 1) (j + 1)) m n) /\
    (forall m n, lmax nlat nlon <= m < nlat -> n < nlat -> val2 nlat a (m + 1) (n + 1) = val2 nlat a0 (m + 1) (n + 1) /\ val2 nlat b (m + 1) (n + 1) = val2 nlat b0 (m + 1) (n + 1)).
Proof.
  intros LG LA LB SW. pose proof lm as LM. destruct prepared_facts as (ZE & PF & _). destruct HP as (LP & _ & fuel & wa0 & LW & HI).
  destruct (C93_analysis nlat nlon 0 nlat nlon nlat nlat a0 b0 g (s_wts s) (s_pmn s) d row fuel wa0 (s_wfft s)) as (a & b & E & La & Lb & V & _ & J); auto; try lia.
  exists a, b. split; [exact E|]. split; [exact La|]. split; [exact Lb|]. split.
  - intros m n Hm Hn. cbv zeta in V. destruct (V m n Hm Hn) as [V1 V2]. rewrite V1, V2. unfold projection. cbv zeta. unfold quadrature, cosine, sine. cbn [extended].
    assert (NZ : INR nlon <> 0%R) by (apply not_0_INR; lia).
    apply f_equal2.
    + rewrite <- !sumR_scal. apply sumR_ext. intros q Hq. cbv zeta. rewrite PF by lia. replace (q + 1) with (S q) by lia.
      rewrite (sumR_ext nlon _ (fun j => val2 nlat g (S q) (j + 1) * cos (INR m * longitude nlon j))%R) by (intros j Hj; rewrite angle_longitude; reflexivity). field. auto.
    + rewrite <- sumR_opp, <- sumR_scal. apply sumR_ext. intros q Hq. cbv zeta. rewrite PF by lia. replace (q + 1) with (S q) by lia.
      rewrite (sumR_ext nlon _ (fun j => val2 nlat g (S q) (j + 1) * sin (INR m * longitude nlon j))%R) by (intros j Hj; rewrite angle_longitude; reflexivity). field. auto.
  - intros m n Hm Hn. apply J; lia.
Qed.
End Field.
