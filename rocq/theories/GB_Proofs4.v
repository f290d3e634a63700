(** The kernels with a sound eigenvalue solver. *)
From Coq Require Import Reals List Lra Lia Arith.
From Verif Require Import Base Buffer Loops VH_Model VH_Proofs GB_Model GB_Spec GB_Real GB_Proofs1 GB_Proofs2 GB_Proofs3.
Import ListNotations.
Local Open Scope R_scope.
Local Open Scope nat_scope.

Section Spectrum.
Variables (N : nat) (c w beta : nat -> R) (u : list R).
Hypothesis HN : 1 <= N.
Hypothesis Hu : length u = N.
Variable cf : coefs R.
Hypothesis Hcf : coefs_are N cf (diag_of N c w beta (at1 u))
      (fun n => at1 u (n + 1) * c n / w (n + 1)%nat)%R (fun n => at1 u n * c n / w n)%R
      (fun n => - (c (n - 1)%nat + c n) / w n)%R (fun n => c n / w (n + 1)%nat)%R (fun n => c n / w n)%R.
Hypothesis Hw : forall n, 1 <= n <= N -> w n <> 0%R.
Variables (tiny : R) (qz : list (list R) -> list (list R) -> option (list (R * R * R))).
Hypothesis Htiny : (0 <= tiny)%R.

Lemma assembled' k : exists A B,
  matrix (length u) (a_entry Rops u cf k) = Some A /\ matrix (length u) (b_entry Rops cf k) = Some B /\
  length A = N /\ (k = 0%R -> zero_matrix A) /\
  forall x n, 1 <= n <= N -> mv A x n = opA N c w beta (at1 u) k x n /\ mv B x n = opB N c w k x n.
Proof. eapply assembled; eauto; intros; reflexivity. Qed.

Lemma spectrum_some factor count : exists l, spectrum Rops tiny qz u cf factor count = Some l /\ length l = count.
Proof.
  unfold spectrum. destruct (mapM_some _ _ (fun k =>
    let* a := matrix (length u) (a_entry Rops u cf (fmul Rops (fz Rops (Z.of_nat k - 1)) factor)) in
    let* b := matrix (length u) (b_entry Rops cf (fmul Rops (fz Rops (Z.of_nat k - 1)) factor)) in
    Some (generalized_eig_max_imag Rops tiny qz a b)) (seq 1 count)) as [l E].
  - intros k _. destruct (assembled' (fmul Rops (fz Rops (Z.of_nat k - 1)) factor)) as [A [B [EA [EB _]]]]. rewrite EA, EB. cbn. eauto.
  - exists l. split; [exact E|]. apply mapM_length in E. rewrite seq_length in E. auto.
Qed.

Lemma spectrum_sample factor count l v : solver_sound qz -> spectrum Rops tiny qz u cf factor count = Some l -> In (Some v) l ->
  exists k s, 1 <= k <= count /\ let kv := (IZR (Z.of_nat k - 1) * factor)%R in
    eigenvalue N (opA N c w beta (at1 u) kv) (opB N c w kv) s v /\ (solver_zero qz -> kv = 0%R -> v = 0%R).
Proof.
  intros HS E I. unfold spectrum in E. apply In_nth_error in I. destruct I as [i Hi].
  assert (Li := mapM_length _ _ _ _ _ E). rewrite seq_length in Li.
  assert (Bi : i < count) by (rewrite <- Li; apply nth_error_Some; congruence).
  assert (Hs : nth_error (seq 1 count) i = Some (S i)) by (rewrite (nth_error_nth' _ 0) by (rewrite seq_length; auto); rewrite seq_nth by auto; reflexivity).
  destruct (mapM_nth _ _ _ _ _ _ _ E Hs) as [y [Y2 Y1]]. rewrite Hi in Y1. inversion Y1; subst y. clear Y1.
  cbv zeta in Y2. change (fmul Rops (fz Rops (Z.of_nat (S i) - 1)) factor) with (IZR (Z.of_nat (S i) - 1) * factor)%R in Y2.
  set (kv := (IZR (Z.of_nat (S i) - 1) * factor)%R) in *.
  destruct (assembled' kv) as [A [B [EA [EB [LA [ZA M]]]]]]. rewrite EA, EB in Y2. cbn [bind] in Y2. inversion Y2 as [G]. clear Y2.
  unfold generalized_eig_max_imag in G. destruct (qz A B) as [es|] eqn:Q; [|discriminate].
  apply max_valid_some in G. destruct G as [G _]. apply in_map_iff in G. destruct G as [[[ar ai] be] [G I]].
  unfold imag_sample in G. cbn [fleb fopp fdiv Rops] in G.
  destruct (Rle_dec be tiny) as [L1|L1]; destruct (Rle_dec (- tiny) be) as [L2|L2]; cbn [andb] in G; try discriminate;
    (assert (Hbe : be <> 0%R) by lra; inversion G as [V]; exists (S i), (ar / be)%R; split; [lia|]; cbv zeta; fold kv; split;
     [ assert (X := HS A B es Q ar ai be I Hbe); rewrite LA in X; exact (proj1 (eigenvalue_ext N _ _ _ _ _ _ M) X)
     | intros HZ K0; rewrite (HZ A B es Q (ZA K0) ar ai be I); unfold Rdiv; ring ]).
Qed.
End Spectrum.

(** * Barotropic *)
Lemma wavestep : wavenumber_step Rops = (1 / 10000000)%R. Proof. reflexivity. Qed.
Lemma kv_nonzero k f : 1 < k -> f <> 0%R -> (IZR (Z.of_nat k - 1) * f)%R <> 0%R.
Proof. intros H Hf. apply Rmult_integral_contrapositive. split; auto. apply not_0_IZR. lia. Qed.

Section Barot.
Variables (lat u : list R) (tiny : R) (qz : list (list R) -> list (list R) -> option (list (R * R * R))).
Hypothesis Hlat : lat_ok lat.
Hypothesis HL : 3 <= length lat.
Hypothesis Hu : length u = length lat.
Hypothesis Htiny : (0 <= tiny)%R.

Lemma barot_runs : exists growth, barot_kernel tiny qz lat u = Some (finalize_barot_growth Rops growth) /\ length growth = 200 /\
  (solver_sound qz -> forall v, In (Some v) growth -> exists k s, 1 <= k <= 200 /\ let kv := (IZR (Z.of_nat k - 1) * (1 / 10000000))%R in
    eigenvalue (length lat) (opA (length lat) (lat_c lat) (lat_w lat) (lat_beta lat) (at1 u) kv) (opB (length lat) (lat_c lat) (lat_w lat) kv) s v).
Proof.
  unfold barot_kernel, dbarot_growth_rate_1d. destruct (Nat.ltb_spec (length lat) 3); [lia|].
  rewrite barot_geometry_is by auto. cbn [bind]. destruct (barot_coefs_are lat u Hlat HL Hu) as [cf [E C]]. rewrite E. cbn [bind].
  assert (W : forall n, 1 <= n <= length lat -> lat_w lat n <> 0%R) by (intros; apply Rgt_not_eq, lat_w_pos; auto).
  destruct (spectrum_some (length lat) (lat_c lat) (lat_w lat) (lat_beta lat) u ltac:(lia) Hu cf C W tiny qz (wavenumber_step Rops) nwavenumbers) as [l [El Ll]].
  exists l. rewrite El. cbn [bind]. split; [reflexivity|]. split; [exact Ll|]. intros HS v Hv.
  destruct (spectrum_sample (length lat) (lat_c lat) (lat_w lat) (lat_beta lat) u ltac:(lia) Hu cf C W tiny qz Htiny _ _ _ v HS El Hv) as [k [s [Hk [X _]]]].
  exists k, s. split; [exact Hk|]. cbv zeta. exact X.
Qed.
Lemma barot_eigen_bound M k s v : (0 <= M)%R ->
  (forall n, 1 <= n < length lat -> ((at1 u (S n) - at1 u n) * (at1 u (S n) - at1 u n) * lat_c lat n <= M * M * lat_w lat n)%R) ->
  eigenvalue (length lat) (opA (length lat) (lat_c lat) (lat_w lat) (lat_beta lat) (at1 u) k) (opB (length lat) (lat_c lat) (lat_w lat) k) s v ->
  (Rabs v <= M / 2)%R.
Proof.
  intros HM HS E. destruct (Req_dec k 0) as [->|Hk].
  - assert (V : v = 0%R). { eapply rest_op; [| |exact E]; intros n Hn; [apply lat_w_pos|apply lat_c_pos]; auto. }
    rewrite V, Rabs_R0. lra.
  - eapply shear_bound_op; [| |exact Hk|exact HM|exact HS|exact E]; intros n Hn; [apply lat_w_pos; auto|apply Rlt_le, lat_c_pos; auto].
Qed.
Lemma barot_eigen_real U k s v :
  (forall n, 1 <= n <= length lat -> (pvgrad (length lat) (lat_c lat) (lat_w lat) (lat_beta lat) (at1 u) n * (at1 u n - U) <= 0)%R) ->
  eigenvalue (length lat) (opA (length lat) (lat_c lat) (lat_w lat) (lat_beta lat) (at1 u) k) (opB (length lat) (lat_c lat) (lat_w lat) k) s v -> v = 0%R.
Proof.
  intros HU E. destruct (Req_dec k 0) as [->|Hk].
  - eapply rest_op; [| |exact E]; intros n Hn; [apply lat_w_pos|apply lat_c_pos]; auto.
  - destruct (Req_dec v 0) as [|Hv]; auto. exfalso.
    assert (W : forall n, 1 <= n <= length lat -> (0 < lat_w lat n)%R) by (intros; apply lat_w_pos; auto).
    assert (C : forall n, n <= length lat -> (0 <= lat_c lat n)%R) by (intros; apply Rlt_le, lat_c_pos; auto).
    destruct (fjortoft_op _ _ _ W C _ _ _ _ _ Hk E Hv U) as [n [Hn X]]. specialize (HU n Hn). lra.
Qed.
End Barot.

(** * Baroclinic *)
Section Baroc.
Variables (u theta p t : list R) (f beta tiny : R) (qz : list (list R) -> list (list R) -> option (list (R * R * R))).
Variables (window mode count : Z) (len : R).
Hypothesis Hcol : column_ok theta p t.
Hypothesis HL : 3 <= length p.
Hypothesis Hu : length u = length p.
Hypothesis Hth : length theta = length p.
Hypothesis Ht : length t = length p.
Hypothesis Htiny : (0 <= tiny)%R.
Hypothesis Hwin : (1 <= window)%Z.
Hypothesis Hcount : (2 <= count)%Z.
Hypothesis Hmode : mode = 1%Z \/ (mode = 2%Z /\ (0 < len)%R).

Definition kfactor : R := if (mode =? 1)%Z then (1 / 10000000)%R else (2 * PI / len)%R.
Lemma kfactor_pos : (0 < kfactor)%R.
Proof.
  unfold kfactor. destruct Hmode as [->|[-> X]]; cbn; [lra|]. assert (Y := PI_RGT_0). apply Rmult_lt_0_compat; [lra|apply Rinv_0_lt_compat; auto].
Qed.
Lemma baroc_runs : exists growth, baroc_kernel tiny qz u theta p t f beta window mode count len = finalize_baroc_growth Rops growth window /\ length growth = Z.to_nat count /\
  (solver_sound qz -> forall v, In (Some v) growth -> exists k s, 1 <= k <= Z.to_nat count /\ let kv := (IZR (Z.of_nat k - 1) * kfactor)%R in
    eigenvalue (length p) (opA (length p) (lev_c theta p t f) (lev_w p) (fun _ => beta) (at1 u) kv) (opB (length p) (lev_c theta p t f) (lev_w p) kv) s v /\
    (solver_zero qz -> kv = 0%R -> v = 0%R)).
Proof.
  unfold baroc_kernel, dbaroc_growth_rate_1d. rewrite Hu. destruct (Nat.ltb_spec (length p) 3); [lia|].
  destruct (Z.ltb_spec window 1); [lia|]. destruct (Z.ltb_spec count 2); [lia|].
  assert (M1 : negb (mode =? 1)%Z && negb (mode =? 2)%Z = false) by (destruct Hmode as [->|[-> _]]; reflexivity). rewrite M1.
  assert (M2 : (mode =? 2)%Z && fleb Rops len (fz Rops 0) = false).
  { destruct Hmode as [->|[-> X]]; [reflexivity|]. cbn [fleb Rops]. cbn. destruct (Rle_dec len 0); [lra|reflexivity]. }
  rewrite M2. rewrite baroc_column_is by auto. cbn [bind]. destruct (baroc_coefs_are theta p t f beta u Hcol HL Hu) as [cf [E C]]. rewrite E. cbn [bind].
  assert (W : forall n, 1 <= n <= length p -> lev_w p n <> 0%R) by (intros; apply Rgt_not_eq, (lev_w_pos theta p t); auto).
  assert (KF : (if (mode =? 1)%Z then wavenumber_step Rops else fdiv Rops (fmul Rops (fz Rops 2) PI) len) = kfactor) by (unfold kfactor; destruct (mode =? 1)%Z; reflexivity).
  rewrite KF. destruct (spectrum_some (length p) (lev_c theta p t f) (lev_w p) (fun _ => beta) u ltac:(lia) Hu cf C W tiny qz kfactor (Z.to_nat count)) as [l [El Ll]].
  exists l. rewrite El. cbn [bind]. split; [reflexivity|]. split; [exact Ll|]. intros HS v Hv.
  exact (spectrum_sample (length p) (lev_c theta p t f) (lev_w p) (fun _ => beta) u ltac:(lia) Hu cf C W tiny qz Htiny _ _ _ v HS El Hv).
Qed.
End Baroc.

Lemma lev_c_nonneg theta p t f n : column_stable theta p t -> n <= length p -> (0 <= lev_c theta p t f n)%R.
Proof.
  intros [_ H] Hn. unfold lev_c. destruct (Nat.eqb_spec n 0); [lra|]. destruct (Nat.eqb_spec n (length p)); [lra|].
  apply Rmult_le_pos; [exact (Rle_0_sqr f)|apply Rlt_le, Rinv_0_lt_compat, H; lia].
Qed.
Lemma stable_ok theta p t : column_stable theta p t -> column_ok theta p t.
Proof. intros [A B]. split; auto. intros n Hn. apply Rgt_not_eq, B; auto. Qed.

(** * Every array access is within its array, whatever the numbers *)
Definition lens (N : nat) (c : coefs R) : Prop :=
  length (ad c) = N /\ length (al c) = N - 1 /\ length (au c) = N - 1 /\ length (bd c) = N /\ length (bl c) = N - 1 /\ length (bu c) = N - 1.
Lemma rd_some_at (A : Type) (l : list A) n : 1 <= n <= length l -> exists x, rd l n = Some x.
Proof. intros H. destruct n; [lia|]. cbn. destruct (nth_error l n) eqn:E; eauto. apply nth_error_None in E. lia. Qed.
Ltac step := match goal with |- context [rd ?l ?n] => let x := fresh "x" in let E := fresh "E" in destruct (rd_some_at _ l n) as [x E]; [lia|rewrite E; cbn [bind]] end.
Lemma mapM_seq_some (A : Type) (g : nat -> option A) m : (forall n, 1 <= n <= m -> exists y, g n = Some y) -> exists r, mapM g (seq 1 m) = Some r /\ length r = m.
Proof.
  intros H. destruct (mapM_some _ _ g (seq 1 m)) as [r E].
  - intros n Hn. apply in_seq in Hn. apply H. lia.
  - exists r. split; auto. apply mapM_length in E. rewrite seq_length in E. auto.
Qed.
Lemma barot_coefs_some lat u : 3 <= length lat -> length u = length lat -> exists cf, barot_coefs Rops (barot_geo lat) u = Some cf /\ lens (length lat) cf.
Proof.
  intros L Hu. unfold barot_coefs. rewrite Hu. set (N := length lat) in *. cbv zeta.
  assert (Ldy : length (dy (barot_geo lat)) = N - 1) by (cbn; rewrite map_length, seq_length; reflexivity).
  assert (Ldy2 : length (dy2 (barot_geo lat)) = N - 2) by (cbn; rewrite map_length, seq_length; reflexivity).
  assert (Lb : length (beta_arr (barot_geo lat)) = N) by (cbn; rewrite map_length, seq_length; reflexivity).
  generalize dependent (barot_geo lat). intros g Ldy Ldy2 Lb.
  destruct (mapM_seq_some _ (barot_ad Rops g u) N) as [r1 [E1 L1]].
  { intros n Hn. unfold barot_ad. rewrite Hu. fold N. do 2 step. destruct (Nat.eqb_spec n 1); [do 2 step; eauto|].
    destruct (Nat.eqb_spec n N); [do 2 step; eauto|do 5 step; eauto]. }
  assert (LO : forall num, (forall n, 1 <= n <= N -> exists v, num n = Some v) -> exists r, mapM (barot_low Rops g N num) (seq 1 (N - 1)) = Some r /\ length r = N - 1).
  { intros num Hn. apply mapM_seq_some. intros n Hb. unfold barot_low. destruct (Hn (n + 1) ltac:(lia)) as [v ->]. cbn [bind]. step.
    destruct (Nat.eqb_spec (n + 1) N); [eauto|step; eauto]. }
  assert (UP : forall num, (forall n, 1 <= n <= N -> exists v, num n = Some v) -> exists r, mapM (barot_up Rops g num) (seq 1 (N - 1)) = Some r /\ length r = N - 1).
  { intros num Hn. apply mapM_seq_some. intros n Hb. unfold barot_up. destruct (Hn n ltac:(lia)) as [v ->]. cbn [bind]. step.
    destruct (Nat.eqb_spec n 1); [eauto|step; eauto]. }
  destruct (mapM_seq_some _ (barot_bd Rops g N) N) as [r4 [E4 L4]].
  { intros n Hn. unfold barot_bd. destruct (Nat.eqb_spec n 1); [step; eauto|]. destruct (Nat.eqb_spec n N); [step; eauto|]. do 3 step. eauto. }
  assert (RU : forall n, 1 <= n <= N -> exists v, rd u n = Some v) by (intros; apply rd_some_at; lia).
  destruct (LO (rd u) RU) as [r2 [E2 L2]]. destruct (UP (rd u) RU) as [r3 [E3 L3]].
  destruct (LO (fun _ => Some (fz Rops 1)) ltac:(eauto)) as [r5 [E5 L5]]. destruct (UP (fun _ => Some (fz Rops 1)) ltac:(eauto)) as [r6 [E6 L6]].
  rewrite E1. cbn [bind]. rewrite E2. cbn [bind]. rewrite E3. cbn [bind]. rewrite E4. cbn [bind]. rewrite E5. cbn [bind]. rewrite E6. cbn [bind].
  eexists. split; [reflexivity|]. unfold lens. cbn. auto 10.
Qed.
Lemma baroc_coefs_some theta p t f beta u : 3 <= length p -> length u = length p ->
  exists cf, baroc_coefs Rops (baroc_col theta p t f beta) u = Some cf /\ lens (length p) cf.
Proof.
  intros L Hu. unfold baroc_coefs. rewrite Hu. set (N := length p) in *. cbv zeta.
  assert (Lw : length (dz2 (baroc_col theta p t f beta)) = N) by (cbn; rewrite map_length, seq_length; reflexivity).
  assert (Ls : length (nz (baroc_col theta p t f beta)) = N - 1) by (cbn; rewrite map_length, seq_length; reflexivity).
  generalize dependent (baroc_col theta p t f beta). intros g Lw Ls.
  destruct (mapM_seq_some _ (baroc_ad Rops g u) N) as [r1 [E1 L1]].
  { intros n Hn. unfold baroc_ad. rewrite Hu. fold N. do 2 step. destruct (Nat.eqb_spec n 1); [do 2 step; eauto|].
    destruct (Nat.eqb_spec n N); [do 2 step; eauto|do 4 step; eauto]. }
  destruct (mapM_seq_some _ (baroc_bd Rops g N) N) as [r4 [E4 L4]].
  { intros n Hn. unfold baroc_bd. step. destruct (Nat.eqb_spec n 1); [step; eauto|]. destruct (Nat.eqb_spec n N); [step; eauto|]. do 2 step. eauto. }
  assert (OF : forall num sh, sh <= 1 -> (forall n, 1 <= n <= N -> exists v, num n = Some v) -> exists r, mapM (fun m => baroc_off Rops g num (m + sh) m) (seq 1 (N - 1)) = Some r /\ length r = N - 1).
  { intros num sh Hs Hn. apply mapM_seq_some. intros n Hb. unfold baroc_off. destruct (Hn (n + sh) ltac:(lia)) as [v ->]. cbn [bind]. do 2 step. eauto. }
  assert (Z : forall (num : nat -> option R) l, mapM (fun m => baroc_off Rops g num m m) l = mapM (fun m => baroc_off Rops g num (m + 0) m) l).
  { intros num l. apply mapM_ext_in. intros x _. rewrite Nat.add_0_r. reflexivity. }
  set (uf := fun n => let* v := rd u n in Some (fmul Rops v (f2 g))).
  assert (RU : forall n, 1 <= n <= N -> exists v, uf n = Some v). { intros n Hn. unfold uf. step. eauto. }
  destruct (OF uf 1 ltac:(lia) RU) as [r2 [E2 L2]]. destruct (OF uf 0 ltac:(lia) RU) as [r3 [E3 L3]].
  destruct (OF (fun _ => Some (f2 g)) 1 ltac:(lia) ltac:(eauto)) as [r5 [E5 L5]]. destruct (OF (fun _ => Some (f2 g)) 0 ltac:(lia) ltac:(eauto)) as [r6 [E6 L6]].
  rewrite E1. cbn [bind]. rewrite E2. cbn [bind]. rewrite Z, E3. cbn [bind]. rewrite E4. cbn [bind]. rewrite E5. cbn [bind]. rewrite Z, E6. cbn [bind].
  eexists. split; [reflexivity|]. unfold lens. cbn. auto 10.
Qed.
Lemma spectrum_inbounds tiny qz u cf factor count : lens (length u) cf -> exists l, spectrum Rops tiny qz u cf factor count = Some l.
Proof.
  intros [A1 [A2 [A3 [A4 [A5 A6]]]]]. unfold spectrum.
  assert (M : forall e, (forall i j, 1 <= i <= length u -> 1 <= j <= length u -> exists v : R, e i j = Some v) -> exists m, matrix (length u) e = Some m).
  { intros e H. unfold matrix. apply mapM_some. intros i Hi. apply in_seq in Hi. apply mapM_some. intros j Hj. apply in_seq in Hj. apply H; lia. }
  apply mapM_some. intros k _. cbv zeta. set (kv := fmul Rops _ factor).
  destruct (M (a_entry Rops u cf kv)) as [a Ea].
  { intros i j Hi Hj. unfold a_entry. destruct (Nat.eqb_spec i j); [do 2 step; eauto|]. destruct (Nat.eqb_spec i (j + 1)); [step; eauto|]. destruct (Nat.eqb_spec j (i + 1)); [step; eauto|eauto]. }
  destruct (M (b_entry Rops cf kv)) as [b Eb].
  { intros i j Hi Hj. unfold b_entry. destruct (Nat.eqb_spec i j); [step; eauto|]. destruct (Nat.eqb_spec i (j + 1)); [step; eauto|]. destruct (Nat.eqb_spec j (i + 1)); [step; eauto|eauto]. }
  rewrite Ea, Eb. cbn. eauto.
Qed.
