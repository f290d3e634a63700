(** Synthesis followed by analysis. *)
From Coq Require Import Reals List Arith ZArith Lia Bool Lra.
From Verif Require Import Base Buffer VH_Model RS_Spec RS_Dft FF_Model FF_Model2 GS_Spec GS_Model GS_Proofs1 GS_Proofs2 GS_Proofs3 GS_Proofs4 GS_Proofs5 GS_Proofs6.
Import ListNotations.
Local Open Scope nat_scope.

Section Trip.
Variables nlat nlon mode : nat.
Hypothesis Hmode : mode <= 2.
Hypothesis Hnlat : 1 <= nlat.
Hypothesis Hnlon : 1 <= nlon.
Variable pmn : list R.
Hypothesis HZ : mode <> 0 -> zero_at_equator nlat nlon pmn.
Variable wts : list R.
Variables a b : nat -> nat -> R.
Notation l := (lmax nlat nlon).
Notation amp c m i := (amplitude nlat mode pmn c m i).
Notation har := (harmonic nlat nlon mode pmn a b).

Lemma lmax_facts : 1 <= l /\ l <= nlat /\ 2 * l <= nlon + 2 /\ l - 1 <= nlon / 2.
Proof. rewrite <- l_lmax. pose proof (l_facts nlat nlon Hnlat Hnlon) as (X & Y & Z). split; auto. split; auto. split; auto. unfold l_of. replace (nlon + 2) with (nlon + 1 * 2) by lia. rewrite Nat.div_add by lia. lia. Qed.

Lemma two_m_lt m : m < l -> 2 * m <= nlon.
Proof. pose proof lmax_facts. lia. Qed.

Definition cs (i m : nat) : R * R :=
  if m =? 0 then (amp a 0 i / 2, 0)%R else if 2 * m =? nlon then (amp a m i, amp b m i) else (amp a m i / 2, amp b m i / 2)%R.
Lemma harmonic_series i j : har i j = series nlon (l - 1) (cs i) j.
Proof.
  unfold harmonic, series. pose proof lmax_facts as (_ & _ & _ & H). rewrite Nat.min_l by auto. f_equal.
  - unfold cs. cbn. field.
  - apply sumR_ext. intros k Hk. cbv zeta. unfold cs. destruct (Nat.eqb_spec (S k) 0); [lia|]. destruct (2 * S k =? nlon); cbn [fst snd]; field.
Qed.
Lemma cosine_har i m : m < l -> cosine nlon (fun j => har i j) m = amp a m i.
Proof.
  intros Hm. pose proof (two_m_lt m Hm) as H2. pose proof (INR_pos nlon ltac:(lia)) as NP.
  pose proof (dft_series nlon ltac:(lia) (l - 1) (cs i) m ltac:(lia) H2) as D. unfold dft in D. injection D as D1 _.
  unfold cosine. rewrite (sumR_ext nlon _ (fun j => series nlon (l - 1) (cs i) j * cos (angle nlon m j))%R) by (intros; rewrite harmonic_series; auto).
  replace (sumR nlon (fun i0 => series nlon (l - 1) (cs i) i0 * cos (angle nlon m i0))%R) with (INR nlon * fst (cs i m))%R.
  - unfold cs. destruct (Nat.eqb_spec m 0) as [->|].
    + destruct (Nat.eqb_spec (2 * 0) nlon); [lia|]. cbn [fst]. field. lra.
    + destruct (2 * m =? nlon); cbn [fst]; field; lra.
  - rewrite <- D1. field. lra.
Qed.
Lemma sine_har i m : m < l -> sine nlon (fun j => har i j) m = if orb (m =? 0) (2 * m =? nlon) then 0%R else amp b m i.
Proof.
  intros Hm. pose proof (two_m_lt m Hm) as H2. pose proof (INR_pos nlon ltac:(lia)) as NP.
  pose proof (dft_series nlon ltac:(lia) (l - 1) (cs i) m ltac:(lia) H2) as D. unfold dft in D. pose proof (f_equal snd D) as D1. cbn [snd] in D1. clear D.
  unfold sine. rewrite (sumR_ext nlon _ (fun j => series nlon (l - 1) (cs i) j * sin (angle nlon m j))%R) by (intros; rewrite harmonic_series; auto).
  replace (- (2 / INR nlon) * sumR nlon (fun i0 => series nlon (l - 1) (cs i) i0 * sin (angle nlon m i0)))%R
    with (2 * (- sumR nlon (fun i0 => series nlon (l - 1) (cs i) i0 * sin (angle nlon m i0)) / INR nlon))%R by (field; lra).
  rewrite D1. unfold cs. destruct (Nat.eqb_spec m 0) as [->|]; cbn [orb]; [ring|]. destruct (2 * m =? nlon); cbn [snd orb]; [ring|field].
Qed.

(** The series of the half modes continues itself *)
Lemma amp_mirror c m i : mode <> 0 -> m < l -> north nlat < i -> i <= nlat ->
  amp c m i = ((if mode =? 1 then -1 else 1) * amp c m (nlat + 1 - i)%nat)%R.
Proof.
  intros M0 Hm H1 H2. destruct (halves nlat) as [A1 A2]. unfold amplitude. rewrite <- sumR_scal. apply sumR_ext. intros k Hk. cbv zeta.
  unfold pfull. destruct (Nat.leb_spec i (north nlat)); [lia|]. destruct (Nat.leb_spec (nlat + 1 - i) (north nlat)); [|lia].
  unfold used. replace (m + k - m) with k by lia. destruct mode as [|[|?]]; [lia| |]; cbn [Nat.eqb].
  - destruct (Nat.odd k) eqn:EO; [|ring]. rewrite sgn_odd by (rewrite <- Nat.negb_odd, EO; auto). ring.
  - destruct (Nat.even k) eqn:EO; [|ring]. rewrite sgn_even by auto. ring.
Qed.
Lemma amp_equator_odd c m : mode = 1 -> m < l -> Nat.odd nlat = true -> amp c m (north nlat) = 0%R.
Proof.
  intros M1 Hm HO. assert (M0 : mode <> 0) by lia. unfold amplitude. apply sumR_0. intros k Hk. cbv zeta. unfold used. rewrite M1. replace (m + k - m) with k by lia.
  destruct (Nat.odd k) eqn:EO; [|ring]. unfold pfull. rewrite Nat.leb_refl. rewrite (HZ M0); auto; [ring| |].
  - pose proof lmax_facts. lia.
  - replace (m + k - m) with k by lia. auto.
Qed.
Lemma har_extended i j : 1 <= i <= nlat -> extended nlat mode har i j = har i j.
Proof.
  intros Hi. destruct (halves nlat) as [A1 A2]. pose proof lmax_facts as (L1 & _ & _ & _).
  assert (C : mode = 0 \/ mode = 1 \/ mode = 2) by lia. destruct C as [EM|[EM|EM]]; rewrite EM at 1; unfold extended; [auto| |].
  - destruct (Nat.eqb_spec (2 * i) (nlat + 1)) as [E|E].
    + assert (i = north nlat) by lia. subst i. assert (HO : Nat.odd nlat = true) by (replace nlat with (2 * (nlat / 2) + 1) by lia; apply od).
      unfold harmonic. rewrite !amp_equator_odd by (auto; lia). rewrite sumR_0; [ring|]. intros k Hk. cbv zeta. rewrite !amp_equator_odd by (auto; lia). ring.
    + destruct (Nat.leb_spec i (north nlat)); auto. unfold harmonic. rewrite (amp_mirror a 0 i) by lia. replace (mode =? 1) with true by (rewrite EM; auto).
      rewrite Ropp_plus_distr, <- sumR_opp. f_equal; [ring|]. apply sumR_ext. intros k Hk. cbv zeta.
      rewrite (amp_mirror a (S k) i), (amp_mirror b (S k) i) by lia. replace (mode =? 1) with true by (rewrite EM; auto). ring.
  - destruct (Nat.leb_spec i (north nlat)); auto. unfold harmonic. rewrite (amp_mirror a 0 i) by lia. replace (mode =? 1) with false by (rewrite EM; auto).
    f_equal; [ring|]. apply sumR_ext. intros k Hk. cbv zeta.
    rewrite (amp_mirror a (S k) i), (amp_mirror b (S k) i) by lia. replace (mode =? 1) with false by (rewrite EM; auto). ring.
Qed.

Hypothesis HO : orthonormal_functions nlat nlon wts pmn.
Lemma quad_amp c m n : m < l -> m <= n < nlat -> quadrature nlat wts pmn m n (fun i => amp c m i) = if used mode m n then c m n else 0%R.
Proof.
  intros Hm Hn. unfold quadrature, amplitude. cbv zeta.
  rewrite (sumR_ext nlat _ (fun q => sumR (nlat - m) (fun k => (if used mode m (m + k) then c m (m + k)%nat else 0) * (nth q wts 0 * pfull nlat pmn m n (S q) * pfull nlat pmn m (m + k) (S q))))%R).
  2:{ intros q Hq. rewrite <- sumR_scal. apply sumR_ext. intros. ring. }
  rewrite sumR_swap. rewrite (sumR_ext (nlat - m) _ (fun k => (if used mode m (m + k) then c m (m + k)%nat else 0) * (if n =? m + k then 1 else 0))%R).
  2:{ intros k Hk. rewrite sumR_scal. f_equal. rewrite <- (HO m n (m + k)) by lia. auto. }
  rewrite (sumR_one _ _ (n - m)); [|lia|].
  - replace (m + (n - m)) with n by lia. rewrite Nat.eqb_refl. ring.
  - intros k Hk Hne. destruct (Nat.eqb_spec n (m + k)); [lia|ring].
Qed.
Lemma trip_cos m n : m < l -> m <= n < nlat ->
  quadrature nlat wts pmn m n (fun i => cosine nlon (fun j => extended nlat mode har i j) m) = if used mode m n then a m n else 0%R.
Proof.
  intros Hm Hn. rewrite <- (quad_amp a m n Hm Hn). apply quad_ext. intros i Hi. rewrite <- (cosine_har i m Hm). unfold cosine. f_equal. apply sumR_ext. intros. rewrite har_extended by auto. auto.
Qed.
Lemma trip_sin m n : m < l -> m <= n < nlat ->
  quadrature nlat wts pmn m n (fun i => sine nlon (fun j => extended nlat mode har i j) m) = if andb (used mode m n) (negb (orb (m =? 0) (2 * m =? nlon))) then b m n else 0%R.
Proof.
  intros Hm Hn.
  rewrite (quad_ext nlat wts pmn m n _ (fun i => if orb (m =? 0) (2 * m =? nlon) then 0%R else amp b m i)).
  - destruct (orb (m =? 0) (2 * m =? nlon)).
    + rewrite andb_false_r. unfold quadrature. apply sumR_0. intros. cbv zeta. ring.
    + rewrite andb_true_r. apply quad_amp; auto.
  - intros i Hi. rewrite <- (sine_har i m Hm). unfold sine. f_equal. apply sumR_ext. intros. rewrite har_extended by auto. auto.
Qed.
End Trip.
