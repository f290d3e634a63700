(** Initialisation, round trip, point values and errors *)
From Coq Require Import Reals List Arith ZArith Lia Bool Lra.
From Verif Require Import Base Buffer VH_Model RS_Spec RS_Dft FF_Model GS_Spec GS_Model GS_Proofs3 GS_Props LG_Spec LG_Model LG_Proofs4 LG_Props GQ_Spec GQ_Model GQ_Props SH_Spec ST_Spec ST_Model ST_Proofs1 ST_Proofs2 ST_Proofs3.
From Verif Require SH_Model SH_Proofs SH_Proofs3 SH_Props FF_Proofs9.
Import ListNotations.
Local Open Scope nat_scope.

(** The arrays shagsi works on have the lengths allocated for them *)
Definition memory_ok (nlat nlon : nat) (m : memory) : Prop :=
  nlon <= length (m_wfft m) /\ length (m_theta m) = nlat /\ length (m_wts m) = nlat /\ length (m_tab m) = nlat * north nlat /\
  nlat / 2 + 1 <= length (m_work m) /\ distinct (m_km m) /\ length (m_pmn m) = nlat * (north nlat * 3) /\ length (m_pmnf m) = north nlat * functions nlat nlon.

Lemma initialise_ok nlat nlon fuel dz rsphere m : 3 <= nlat -> 4 <= nlon -> (0 < rsphere)%R -> (0 < dz)%R -> 2 * nlon + 5 <= fuel -> memory_ok nlat nlon m ->
  exists s th, initialise fuel dz (Z.of_nat nlon) (Z.of_nat nlat) rsphere m = Done s /\
    gauss_points nlat (sqrt dz * sqrt (sqrt dz)) th (fun i => nth (i - 1) (s_wts s) 0%R) /\
    symmetric_colatitudes nlat th /\ symmetric_weights nlat (s_wts s) /\ prepared nlat nlon th s.
Proof.
  intros H1 H2 HR HD HF (M1 & M2 & M3 & M4 & M5 & M6 & M7 & M8).
  destruct (FF_Proofs9.hrffti_total 0%R nlon fuel (m_wfft m) ltac:(lia) M1 HF) as (wa & fac & EH & _).
  destruct (C101_points nlat dz (m_theta m) (m_wts m) H1 HD M2 M3) as (th & wt & EG & LT & LW & GP).
  pose proof (halves nlat) as [N1 N2].
  destruct (C97_all_orders nlat nlon th (lmax nlat nlon * (lmax nlat nlon - 1) / 2 + (nlat - lmax nlat nlon) * (lmax nlat nlon - 1)) (m_tab m) (m_work m) (m_km m) (m_pmn m) (m_pmnf m)) as (f & EF & LF & VF); auto; try lia.
  exists (mk_saved wt (wa, fac) f), (fun i => nth (i - 1) th 0%R). split.
  - unfold initialise. destruct (Rlt_dec 0 rsphere); [|contradiction]. destruct (Z.ltb_spec (Z.of_nat nlon) 4); [lia|]. destruct (Z.ltb_spec (Z.of_nat nlat) 3); [lia|].
    unfold shagsi. pose proof (C99_python (Z.of_nat nlat) (Z.of_nat nlon) ltac:(lia) ltac:(lia)) as C1.
    assert (C2 : shagsp_checks (Z.of_nat nlat) (Z.of_nat nlon) (py_lshags (Z.of_nat nlat) (Z.of_nat nlon)) (py_ldwork_init (Z.of_nat nlat)) = 0%Z) by (destruct (C99_codes (Z.of_nat nlat) (Z.of_nat nlon) (py_lshags (Z.of_nat nlat) (Z.of_nat nlon)) (py_lwork_init (Z.of_nat nlat)) (py_ldwork_init (Z.of_nat nlat))) as (_ & _ & _ & C2); apply C2; exact C1).
    unfold safely. rewrite C1, C2. cbn [Z.eqb].
    rewrite !Nat2Z.id, EH. cbn [run after]. rewrite EG. cbn [run after Nat.eqb negb]. rewrite (l_lmax nlat nlon). rewrite (l_lmax nlat nlon) in EF. rewrite EF. reflexivity.
  - cbn [s_wts]. split; [exact GP|]. destruct GP as (w & SC & SW & _ & _ & WT). split; [exact SC|]. split.
    + split; [exact LW|]. intros q Hq. cbv zeta in WT. pose proof (WT (nlat - q) ltac:(lia)) as W1. pose proof (WT (q + 1) ltac:(lia)) as W2. cbv beta in W1, W2.
      replace (nlat - q - 1) with (nlat - 1 - q) in W1 by lia. replace (q + 1 - 1) with q in W2 by lia. rewrite W1, W2. replace (nlat - q) with (nlat + 1 - (q + 1)) by lia. rewrite SW by lia. reflexivity.
    + split; [exact LF|]. split; [intros mm n i Hm Hn Hi; cbn [s_pmn]; apply VF; auto|]. exists fuel, (m_wfft m). auto.
Qed.

Section RoundTrip.
Variables nlat nlon : nat.
Variable th : nat -> R.
Variable s : saved.
Hypothesis H1 : 3 <= nlat.
Hypothesis H2 : 4 <= nlon.
Hypothesis HS : symmetric_colatitudes nlat th.
Hypothesis HP : prepared nlat nlon th s.
Hypothesis SW : symmetric_weights nlat (s_wts s).
Hypothesis HG : gaussian nlat (s_wts s) th.
Variables (d : R) (row : list R).
Hypothesis LR : length row = nlon.

Lemma round_trip N N' ntrunc fresh1 fresh2 x extra : N < nlat -> (Z.of_nat (tri N) < 2 ^ 31)%Z -> shape x = tri N :: extra -> total extra <> 0 ->
  truncation nlat ntrunc N' ->
  (forall k, k < total extra -> length (fresh1 k) = nlat * nlon) ->
  (forall k, k < total extra -> length (fst (fresh2 k)) = nlat * nlat /\ length (snd (fresh2 k)) = nlat * nlat) ->
  exists y z, spectogrd nlat nlon s d row fresh1 x = Done y /\ grdtospec nlat nlon s d row fresh2 y ntrunc = Done z /\
    shape z = tri N' :: extra /\ length (elements z) = tri N' * total extra /\
    forall k m n, k < total extra -> m <= n <= N' -> m < lmax nlat nlon ->
      coefficient N' (total extra) (elements z) k m n = if n <=? N then visible nlon m (coefficient N (total extra) (elements x) k m n) else (0, 0)%R.
Proof.
  intros HN HT ES NZ TR LF LF2. pose proof (proj2 TR) as HN'.
  destruct (spectogrd_ok nlat nlon th s H1 H2 HS HP d row LR N fresh1 x extra HN HT ES NZ LF) as (fs & E1 & LFS & V1).
  set (y := restore_grid_shape nlat nlon (total extra) fs extra) in *.
  destruct (grdtospec_ok nlat nlon th s H1 H2 HS HP d row LR N' ntrunc fresh2 y extra TR eq_refl NZ SW LF2) as (cs & E2 & LCS & V2).
  exists y, (restore_spectral_shape (tri N') (total extra) cs extra). split; [exact E1|]. split; [exact E2|]. split; [reflexivity|]. split; [cbn [elements restore_spectral_shape]; rewrite map_length, seq_length; reflexivity|].
  intros k m n Hk Hmn Hm. unfold coefficient at 1. rewrite restore_spectral by (auto; apply SH_Proofs.index_lt; auto).
  destruct (V1 k Hk) as (LK & (a & b & VAB & LA & LB & EK) & _). destruct (V2 k Hk) as (_ & (a' & b' & EK2 & VC) & _). change (at_ N' (nth k cs []) m n = if n <=? N then visible nlon m (coefficient N (total extra) (elements x) k m n) else (0, 0)%R). rewrite VC by auto.
  unfold y in EK2. rewrite field_restore in EK2 by auto.
  destruct (prepared_facts nlat nlon th s ltac:(lia) ltac:(lia) HS HP) as (ZE & _ & ORT). destruct HP as (LP & _ & fuel & wa0 & LW & HI). destruct (LF2 k Hk) as [L1 L2]. pose proof (lm nlat nlon ltac:(lia) ltac:(lia)) as LM.
  destruct (C94_round_trip nlat nlon 0 nlat nlon nlat nlat a b (fresh1 k) (fst (fresh2 k)) (snd (fresh2 k)) (s_wts s) (s_pmn s) d row fuel wa0 (s_wfft s)) as (gs & a2 & b2 & G1 & G2 & G3); auto; try lia.
  rewrite EK in G1. injection G1 as <-. rewrite EK2 in G2. injection G2 as <- <-. destruct (G3 m n Hm ltac:(lia)) as [-> ->]. cbn [used andb]. destruct (VAB m n ltac:(lia) ltac:(lia)) as [-> ->]. replace (m <=? n) with true by (symmetry; apply Nat.leb_le; lia). cbn [andb].
  unfold visible, real_order. destruct (n <=? N); destruct (orb (m =? 0) (2 * m =? nlon)); cbn [negb]; apply f_equal2; field.
Qed.
Lemma identity N fresh1 fresh2 x extra : N < lmax nlat nlon -> (Z.of_nat (tri N) < 2 ^ 31)%Z -> shape x = tri N :: extra -> total extra <> 0 -> length (elements x) = tri N * total extra ->
  (forall k m n, k < total extra -> m <= n <= N -> visible nlon m (coefficient N (total extra) (elements x) k m n) = coefficient N (total extra) (elements x) k m n) ->
  (forall k, k < total extra -> length (fresh1 k) = nlat * nlon) ->
  (forall k, k < total extra -> length (fst (fresh2 k)) = nlat * nlat /\ length (snd (fresh2 k)) = nlat * nlat) ->
  exists y, spectogrd nlat nlon s d row fresh1 x = Done y /\ grdtospec nlat nlon s d row fresh2 y (Some (Z.of_nat N)) = Done x.
Proof.
  intros HN HT ES NZ LX VX LF LF2. pose proof (lm nlat nlon ltac:(lia) ltac:(lia)) as LM.
  destruct (round_trip N N (Some (Z.of_nat N)) fresh1 fresh2 x extra) as (y & z & E1 & E2 & SZ & LZ & V); auto; [lia|split; [auto|lia]|].
  exists y. split; [exact E1|]. rewrite E2. f_equal. destruct z as [sz ez], x as [sx ex]. cbn [shape elements] in *. f_equal; [congruence|]. apply nth_ext with (0, 0)%R (0, 0)%R; [congruence|]. intros p Hp. rewrite LZ in Hp.
  set (nt := total extra) in *. pose proof (Nat.div_mod p nt NZ) as DM. pose proof (Nat.mod_upper_bound p nt NZ) as MB. assert (HQ : p / nt < tri N) by (apply Nat.div_lt_upper_bound; [auto|lia]).
  destruct (nth_error (pairs N) (p / nt)) as [[m n]|] eqn:EP; [|apply nth_error_None in EP; rewrite SH_Proofs.pairs_length in EP; lia].
  destruct (SH_Proofs.index_unique _ _ _ _ EP) as [EI B]. specialize (V (p mod nt) m n MB B ltac:(lia)). replace (n <=? N) with true in V by (symmetry; apply Nat.leb_le; lia). rewrite VX in V by auto. unfold coefficient in V. rewrite <- EI in V. replace (p / nt * nt + p mod nt) with p in V by lia. exact V.
Qed.
End RoundTrip.

(** ** The series as one sum over the stored coefficients *)
Lemma fr_app (l l' : list R) : fold_right Rplus 0%R (l ++ l') = (fold_right Rplus 0 l + fold_right Rplus 0 l')%R.
Proof. induction l; cbn [app fold_right]; [ring|]. rewrite IHl. ring. Qed.
Lemma fr_seq (g : nat -> R) n : forall a, fold_right Rplus 0%R (map g (seq a n)) = sumR n (fun k => g (a + k)).
Proof. induction n; intros a; [reflexivity|]. rewrite seq_S, map_app, fr_app, IHn. cbn [map fold_right sumR]. ring. Qed.
Lemma fr_flat (g : nat -> list R) n : forall a, fold_right Rplus 0%R (flat_map g (seq a n)) = sumR n (fun k => fold_right Rplus 0%R (g (a + k))).
Proof. induction n; intros a; [reflexivity|]. rewrite seq_S, flat_map_app, fr_app, IHn. cbn [flat_map sumR]. rewrite app_nil_r. reflexivity. Qed.
Lemma sumR_head n f : sumR (S n) f = (f 0%nat + sumR n (fun k => f (S k)))%R.
Proof. induction n; cbn [sumR]; [ring|]. cbn [sumR] in IHn. rewrite IHn. ring. Qed.
Lemma map_flat {A B C} (f : B -> C) (g : A -> list B) l : map f (flat_map g l) = flat_map (fun x => map f (g x)) l.
Proof. induction l; cbn; [reflexivity|]. rewrite map_app, IHl. reflexivity. Qed.
Lemma combine_pairs N (c : list (R * R)) (F : (R * R) * (nat * nat) -> R) : length c = tri N ->
  map F (combine c (pairs N)) = map (fun p => F (at_ N c (fst p) (snd p), p)) (pairs N).
Proof.
  intros L. apply SH_Proofs.nth_error_ext_all. intros k. rewrite !nth_error_map. destruct (nth_error (pairs N) k) as [[m n]|] eqn:E.
  - destruct (SH_Proofs.index_unique _ _ _ _ E) as [EI B]. assert (EC : nth_error c k = Some (at_ N c m n)) by (unfold at_; rewrite <- EI; apply nth_error_nth'; rewrite L, EI; apply SH_Proofs.index_lt; auto).
    assert (CC : nth_error (combine c (pairs N)) k = Some (at_ N c m n, (m, n))).
    { revert EC E. generalize (at_ N c m n) as v. generalize (pairs N) as l. clear. revert c. induction k; intros [|y c] [|p l] v; cbn; try discriminate; [congruence|apply IHk]. }
    rewrite CC. reflexivity.
  - cbn [option_map]. rewrite (proj2 (nth_error_None _ _)); [reflexivity|]. apply nth_error_None in E. rewrite combine_length. lia.
Qed.
Lemma expansion_list N (c : list (R * R)) t x : length c = tri N ->
  expansion N N (at_ N c) t x = fold_right Rplus 0%R (map (fun e : (R * R) * (nat * nat) =>
        let '((re, im), (m, n)) := e in
        (Pbar m n t * (if (m =? 0)%nat then re else 2 * (re * cos (INR m * x) - im * sin (INR m * x))))%R) (combine c (pairs N))).
Proof.
  intros L. rewrite combine_pairs by auto. unfold pairs. rewrite map_flat, fr_flat, (Nat.add_1_r N), sumR_head. unfold expansion. f_equal.
  - rewrite map_map, fr_seq. replace (S N - (0 + 0)) with (N + 1) by lia. apply sumR_ext. intros n Hn. cbn [fst snd Nat.add]. destruct (at_ N c 0 n). reflexivity.
  - rewrite <- sumR_scal. apply sumR_ext. intros q Hq. cbv zeta. rewrite map_map, fr_seq. replace (S N - (0 + S q)) with (N - q) by lia. rewrite <- sumR_scal. apply sumR_ext. intros r Hr. cbn [fst snd Nat.add]. destruct (at_ N c (S q) (S (q + r))). cbn [Nat.eqb fst snd]. ring.
Qed.
