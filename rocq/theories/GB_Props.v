(** C69-C70: the assembled problem and its stability criteria.
    The pencil at wavenumber [k] is the one the kernels hand to the QZ solver
    (growth_rate_kernels.f90:441-448 and 593-600). *)
From Coq Require Import Reals List Lra Lia Arith.
From Verif Require Import Base Buffer Loops VH_Model VH_Proofs GB_Model GB_Spec GB_Real GB_Proofs1 GB_Proofs2 GB_Proofs3 GB_Proofs4 GB_Grids.
Import ListNotations.
Local Open Scope R_scope.
Local Open Scope nat_scope.

Definition barot_pencil (lat u : list R) (k : R) (A B : list (list R)) : Prop :=
  exists g cf, barot_geometry Rops cos (PI / 180)%R lat = Some g /\ barot_coefs Rops g u = Some cf /\
    matrix (length u) (a_entry Rops u cf k) = Some A /\ matrix (length u) (b_entry Rops cf k) = Some B.
Definition baroc_pencil (u theta p t : list R) (f beta k : R) (A B : list (list R)) : Prop :=
  exists g cf, baroc_column Rops theta p t f beta = Some g /\ baroc_coefs Rops g u = Some cf /\
    matrix (length u) (a_entry Rops u cf k) = Some A /\ matrix (length u) (b_entry Rops cf k) = Some B.
(** a latitude profile, a column *)
Definition profile_ok (lat u : list R) : Prop := lat_ok lat /\ 3 <= length lat /\ length u = length lat.
Definition column_of (good : list R -> list R -> list R -> Prop) (u theta p t : list R) : Prop :=
  good theta p t /\ 3 <= length p /\ length u = length p /\ length theta = length p /\ length t = length p.
(** the gradient of potential vorticity of the two problems *)
Definition lat_q (lat u : list R) (n : nat) : R := pvgrad (length lat) (lat_c lat) (lat_w lat) (lat_beta lat) (at1 u) n.
Definition lev_q (u theta p t : list R) (f beta : R) (n : nat) : R := pvgrad (length p) (lev_c theta p t f) (lev_w p) (fun _ => beta) (at1 u) n.

(** * C69 *)
Theorem barot_assembled lat u k : profile_ok lat u -> exists A B, barot_pencil lat u k A B /\
  forall x n, 1 <= n <= length lat ->
    mv A x n = opA (length lat) (lat_c lat) (lat_w lat) (lat_beta lat) (at1 u) k x n /\
    mv B x n = opB (length lat) (lat_c lat) (lat_w lat) k x n.
Proof.
  intros [H [L Hu]]. destruct (barot_coefs_are lat u H L Hu) as [cf [E C]].
  assert (W : forall n, 1 <= n <= length lat -> lat_w lat n <> 0%R) by (intros; apply Rgt_not_eq, lat_w_pos; auto).
  destruct (assembled' (length lat) (lat_c lat) (lat_w lat) (lat_beta lat) u ltac:(lia) Hu cf C W k) as [A [B [EA [EB [LA [ZA M]]]]]].
  exists A, B. split; [|exact M]. exists (barot_geo lat), cf. rewrite barot_geometry_is by auto. auto.
Qed.
Theorem baroc_assembled u theta p t f beta k : column_of column_ok u theta p t -> exists A B, baroc_pencil u theta p t f beta k A B /\
  forall x n, 1 <= n <= length p ->
    mv A x n = opA (length p) (lev_c theta p t f) (lev_w p) (fun _ => beta) (at1 u) k x n /\
    mv B x n = opB (length p) (lev_c theta p t f) (lev_w p) k x n.
Proof.
  intros [H [L [Hu [Hth Ht]]]]. destruct (baroc_coefs_are theta p t f beta u H L Hu) as [cf [E C]].
  assert (W : forall n, 1 <= n <= length p -> lev_w p n <> 0%R) by (intros; apply Rgt_not_eq, (lev_w_pos theta p t); auto).
  destruct (assembled' (length p) (lev_c theta p t f) (lev_w p) (fun _ => beta) u ltac:(lia) Hu cf C W k) as [A [B [EA [EB [LA [ZA M]]]]]].
  exists A, B. split; [|exact M]. exists (baroc_col theta p t f beta), cf. rewrite baroc_column_is by auto. auto.
Qed.
(** the pencil is a function of the profile *)
Lemma barot_pencil_unique lat u k A B A' B' : barot_pencil lat u k A B -> barot_pencil lat u k A' B' -> A = A' /\ B = B'.
Proof. intros [g [c [E1 [E2 [E3 E4]]]]] [g' [c' [F1 [F2 [F3 F4]]]]]. split; congruence. Qed.
Lemma baroc_pencil_unique u theta p t f beta k A B A' B' : baroc_pencil u theta p t f beta k A B -> baroc_pencil u theta p t f beta k A' B' -> A = A' /\ B = B'.
Proof. intros [g [c [E1 [E2 [E3 E4]]]]] [g' [c' [F1 [F2 [F3 F4]]]]]. split; congruence. Qed.
Lemma barot_eigen lat u k A B s t : profile_ok lat u -> barot_pencil lat u k A B ->
  eigenvalue (length lat) (mv A) (mv B) s t <->
  eigenvalue (length lat) (opA (length lat) (lat_c lat) (lat_w lat) (lat_beta lat) (at1 u) k) (opB (length lat) (lat_c lat) (lat_w lat) k) s t.
Proof.
  intros H P. destruct (barot_assembled lat u k H) as [A' [B' [P' M]]]. destruct (barot_pencil_unique _ _ _ _ _ _ _ P P') as [-> ->]. apply eigenvalue_ext. exact M.
Qed.
Lemma baroc_eigen u theta p t f beta k A B s v : column_of column_ok u theta p t -> baroc_pencil u theta p t f beta k A B ->
  eigenvalue (length p) (mv A) (mv B) s v <->
  eigenvalue (length p) (opA (length p) (lev_c theta p t f) (lev_w p) (fun _ => beta) (at1 u) k) (opB (length p) (lev_c theta p t f) (lev_w p) k) s v.
Proof.
  intros H P. destruct (baroc_assembled u theta p t f beta k H) as [A' [B' [P' M]]]. destruct (baroc_pencil_unique _ _ _ _ _ _ _ _ _ _ _ P P') as [-> ->]. apply eigenvalue_ext. exact M.
Qed.

(** no read outside an array, for any numbers and any solver *)
Theorem barot_in_bounds tiny qz lat u : length u = length lat -> barot_kernel tiny qz lat u <> None.
Proof.
  intros Hu. unfold barot_kernel, dbarot_growth_rate_1d. destruct (Nat.ltb_spec (length lat) 3) as [|L]; [discriminate|].
  rewrite barot_geometry_is by auto. cbn [bind]. destruct (barot_coefs_some lat u L Hu) as [cf [E C]]. rewrite E. cbn [bind]. rewrite <- Hu in C.
  destruct (spectrum_inbounds tiny qz u cf (wavenumber_step Rops) nwavenumbers C) as [l El]. rewrite El. discriminate.
Qed.
Theorem baroc_in_bounds tiny qz u theta p t f beta window mode count len :
  length u = length p -> length theta = length p -> length t = length p ->
  baroc_kernel tiny qz u theta p t f beta window mode count len <> None.
Proof.
  intros Hu Hth Ht. unfold baroc_kernel, dbaroc_growth_rate_1d. rewrite Hu. destruct (Nat.ltb_spec (length p) 3) as [|L]; [discriminate|].
  destruct (window <? 1)%Z; [discriminate|]. destruct (count <? 2)%Z; [discriminate|].
  destruct (negb (mode =? 1)%Z && negb (mode =? 2)%Z); [discriminate|]. destruct ((mode =? 2)%Z && _); [discriminate|].
  rewrite baroc_column_is by auto. cbn [bind]. destruct (baroc_coefs_some theta p t f beta u L Hu) as [cf [E C]]. rewrite E. cbn [bind]. rewrite <- Hu in C.
  destruct (spectrum_inbounds tiny qz u cf (if (mode =? 1)%Z then wavenumber_step Rops else fdiv Rops (fmul Rops (fz Rops 2) PI) len) (Z.to_nat count) C) as [l El]. rewrite El. cbn [bind].
  destruct (finalize_baroc_is l window) as [[_ X]|[i [m [_ [_ [_ X]]]]]]; rewrite X; discriminate.
Qed.
Example barot_profile_case : profile_ok lat3 [10; -5; 20]%R.
Proof. split; [exact lat3_ok|]. split; [cbn; lia|reflexivity]. Qed.
Example baroc_column_case : column_of column_stable [30; 15; 5]%R th3 p3 t3.
Proof. split; [exact col3_stable|]. cbn. auto with arith. Qed.

(** * C70 *)
(** Fjortoft: a growing or decaying mode needs, for every reference speed U, a
    point where the gradient of potential vorticity and u - U have the same sign *)
Theorem barot_fjortoft lat u k A B s t U : profile_ok lat u -> barot_pencil lat u k A B ->
  eigenvalue (length lat) (mv A) (mv B) s t -> t <> 0%R ->
  exists n, 1 <= n <= length lat /\ (0 < lat_q lat u n * (at1 u n - U))%R.
Proof.
  intros H P E Ht. apply (barot_eigen lat u k A B s t H P) in E. destruct H as [H [L Hu]].
  destruct (some_pos (fun n => lat_q lat u n * (at1 u n - U))%R (length lat)) as [|N]; auto. exfalso. apply Ht.
  apply (barot_eigen_real lat u H L U k s t); auto.
Qed.
Theorem baroc_fjortoft u theta p t f beta k A B s v U : column_of column_stable u theta p t -> baroc_pencil u theta p t f beta k A B ->
  k <> 0%R -> eigenvalue (length p) (mv A) (mv B) s v -> v <> 0%R ->
  exists n, 1 <= n <= length p /\ (0 < lev_q u theta p t f beta n * (at1 u n - U))%R.
Proof.
  intros [H [L [Hu [Hth Ht]]]] P Hk E Hv.
  apply (baroc_eigen u theta p t f beta k A B s v) in E; auto. 2:{ split; auto. apply stable_ok; auto. }
  eapply fjortoft_op; [| |exact Hk|exact E|exact Hv].
  - intros n Hn. apply (lev_w_pos theta p t); auto. apply stable_ok; auto.
  - intros n Hn. apply lev_c_nonneg; auto.
Qed.
(** Rayleigh: the gradient of potential vorticity changes sign *)
Theorem barot_rayleigh lat u k A B s t : profile_ok lat u -> barot_pencil lat u k A B ->
  eigenvalue (length lat) (mv A) (mv B) s t -> t <> 0%R ->
  (exists n, 1 <= n <= length lat /\ (0 < lat_q lat u n)%R) /\ (exists n, 1 <= n <= length lat /\ (lat_q lat u n < 0)%R).
Proof.
  intros H P E Ht. split.
  - destruct (lower_bound (at1 u) (length lat)) as [U HU]. destruct (barot_fjortoft lat u k A B s t U H P E Ht) as [n [Hn X]].
    exists n. split; auto. specialize (HU n Hn). destruct (Rle_dec (lat_q lat u n) 0) as [Y|Y]; [|lra].
    assert (0 <= (- lat_q lat u n) * (at1 u n - U))%R by (apply Rmult_le_pos; lra). lra.
  - destruct (upper_bound (at1 u) (length lat)) as [U HU]. destruct (barot_fjortoft lat u k A B s t U H P E Ht) as [n [Hn X]].
    exists n. split; auto. specialize (HU n Hn). destruct (Rle_dec 0 (lat_q lat u n)) as [Y|Y]; [|lra].
    assert (0 <= lat_q lat u n * (U - at1 u n))%R by (apply Rmult_le_pos; lra). lra.
Qed.
Theorem baroc_rayleigh u theta p t f beta k A B s v : column_of column_stable u theta p t -> baroc_pencil u theta p t f beta k A B ->
  k <> 0%R -> eigenvalue (length p) (mv A) (mv B) s v -> v <> 0%R ->
  (exists n, 1 <= n <= length p /\ (0 < lev_q u theta p t f beta n)%R) /\ (exists n, 1 <= n <= length p /\ (lev_q u theta p t f beta n < 0)%R).
Proof.
  intros [H [L [Hu [Hth Ht]]]] P Hk E Hv.
  apply (baroc_eigen u theta p t f beta k A B s v) in E; auto. 2:{ split; auto. apply stable_ok; auto. }
  eapply rayleigh_op; [| |exact Hk|exact E|exact Hv].
  - intros n Hn. apply (lev_w_pos theta p t); auto. apply stable_ok; auto.
  - intros n Hn. apply lev_c_nonneg; auto.
Qed.
(** the growth rate is at most half the largest scaled shear: |du| / sqrt(gap * width)
    on the latitude grid, f |du| / sqrt(static stability * width) on the pressure grid *)
Theorem barot_shear_bound lat u k A B s t M : profile_ok lat u -> barot_pencil lat u k A B -> (0 <= M)%R ->
  (forall n, 1 <= n < length lat -> ((at1 u (S n) - at1 u n) * (at1 u (S n) - at1 u n) / gap lat n <= M * M * lat_w lat n)%R) ->
  eigenvalue (length lat) (mv A) (mv B) s t -> (Rabs t <= M / 2)%R.
Proof.
  intros H P HM HS E. apply (barot_eigen lat u k A B s t H P) in E. destruct H as [H [L Hu]].
  eapply barot_eigen_bound; eauto. intros n Hn. rewrite lat_c_in by auto. apply HS. auto.
Qed.
Theorem baroc_shear_bound u theta p t f beta k A B s v M : column_of column_stable u theta p t -> baroc_pencil u theta p t f beta k A B ->
  k <> 0%R -> (0 <= M)%R ->
  (forall n, 1 <= n < length p -> (f * f * ((at1 u (S n) - at1 u n) * (at1 u (S n) - at1 u n)) / static theta p t n <= M * M * lev_w p n)%R) ->
  eigenvalue (length p) (mv A) (mv B) s v -> (Rabs v <= M / 2)%R.
Proof.
  intros [H [L [Hu [Hth Ht]]]] P Hk HM HS E.
  apply (baroc_eigen u theta p t f beta k A B s v) in E; auto. 2:{ split; auto. apply stable_ok; auto. }
  eapply shear_bound_op; [| |exact Hk|exact HM| |exact E].
  - intros n Hn. apply (lev_w_pos theta p t); auto. apply stable_ok; auto.
  - intros n Hn. apply lev_c_nonneg; auto.
  - intros n Hn. rewrite lev_c_in by auto. specialize (HS n Hn). unfold Rdiv in *. lra.
Qed.

(** ** The kernels with a sound solver *)
Theorem barot_stable_zero tiny qz lat u U : profile_ok lat u -> (0 <= tiny)%R -> solver_sound qz ->
  (forall n, 1 <= n <= length lat -> (lat_q lat u n * (at1 u n - U) <= 0)%R) ->
  barot_kernel tiny qz lat u = Some (inl 0%R) \/ barot_kernel tiny qz lat u = Some (inr 200%Z).
Proof.
  intros [H [L Hu]] Ht HS HU. destruct (barot_runs lat u tiny qz H L Hu Ht) as [g [E [_ S]]]. specialize (S HS). rewrite E.
  unfold finalize_barot_growth. destruct (max_valid_cases g) as [[X _]|[m [X [I _]]]]; rewrite X; [right; reflexivity|left].
  destruct (S m I) as [k [s [_ Y]]]. cbv zeta in Y. rewrite (barot_eigen_real lat u H L U _ _ _ HU Y). reflexivity.
Qed.
Theorem barot_growth_bounded tiny qz lat u M g : profile_ok lat u -> (0 <= tiny)%R -> solver_sound qz -> (0 <= M)%R ->
  (forall n, 1 <= n < length lat -> ((at1 u (S n) - at1 u n) * (at1 u (S n) - at1 u n) / gap lat n <= M * M * lat_w lat n)%R) ->
  barot_kernel tiny qz lat u = Some (inl g) -> (Rabs g <= M / 2)%R.
Proof.
  intros [H [L Hu]] Ht HS HM HB. destruct (barot_runs lat u tiny qz H L Hu Ht) as [l [E [_ S]]]. specialize (S HS). rewrite E.
  unfold finalize_barot_growth. destruct (max_valid_cases l) as [[X _]|[m [X [I _]]]]; rewrite X; intros G; [discriminate|]. injection G as ->.
  destruct (S g I) as [k [s [_ Y]]]. cbv zeta in Y. eapply barot_eigen_bound; eauto. intros n Hn. rewrite lat_c_in by auto. apply HB. auto.
Qed.
(** the arguments the Python layer passes *)
Definition arguments_ok (window mode count : Z) (len : R) : Prop :=
  (1 <= window)%Z /\ (2 <= count)%Z /\ (mode = 1%Z \/ (mode = 2%Z /\ (0 < len)%R)).
Lemma baroc_sample_bound u theta p t f beta kv s v M : column_of column_stable u theta p t -> (0 <= M)%R ->
  (forall n, 1 <= n < length p -> (f * f * ((at1 u (S n) - at1 u n) * (at1 u (S n) - at1 u n)) / static theta p t n <= M * M * lev_w p n)%R) ->
  eigenvalue (length p) (opA (length p) (lev_c theta p t f) (lev_w p) (fun _ => beta) (at1 u) kv) (opB (length p) (lev_c theta p t f) (lev_w p) kv) s v ->
  (kv = 0%R -> v = 0%R) -> (- (M / 2) <= v <= M / 2)%R.
Proof.
  intros H HM HB E Z. destruct (Req_dec kv 0) as [K|K]; [rewrite (Z K); lra|].
  destruct (baroc_assembled u theta p t f beta kv) as [A [B [P _]]]. { destruct H as [H ?]. split; auto. apply stable_ok; auto. }
  enough (X : (Rabs v <= M / 2)%R) by (revert X; unfold Rabs; destruct (Rcase_abs v); lra). eapply baroc_shear_bound; eauto. apply (baroc_eigen u theta p t f beta kv A B s v); auto. destruct H as [H ?]. split; auto. apply stable_ok; auto.
Qed.
Theorem baroc_growth_bounded tiny qz u theta p t f beta window mode count len M g :
  column_of column_stable u theta p t -> arguments_ok window mode count len -> (0 <= tiny)%R -> solver_sound qz -> solver_zero qz -> (0 <= M)%R ->
  (forall n, 1 <= n < length p -> (f * f * ((at1 u (S n) - at1 u n) * (at1 u (S n) - at1 u n)) / static theta p t n <= M * M * lev_w p n)%R) ->
  baroc_kernel tiny qz u theta p t f beta window mode count len = Some (inl g) -> (Rabs g <= M / 2)%R.
Proof.
  intros C [Wn [Ct Md]] Ht HS HZ HM HB. assert (C' := C). destruct C' as [H [L [Hu [Hth Htt]]]].
  destruct (baroc_runs u theta p t f beta tiny qz window mode count len (stable_ok _ _ _ H) L Hu Hth Htt Ht Wn Ct Md) as [l [E [_ S]]]. specialize (S HS).
  rewrite E. destruct (finalize_baroc_is l window) as [[_ X]|[i [m [_ [_ [[I _] X]]]]]]; rewrite X; intros G; [discriminate|]. injection G as ->.
  apply Rabs_le. apply (smooth_range l window (- (M / 2)) (M / 2)).
  - intros v Hv. destruct (S v Hv) as [k [s [_ [Y Z]]]]. eapply baroc_sample_bound; eauto.
  - assert (X2 : forall m0 (k : list (option R)), In (Some g) (firstn m0 k) -> In (Some g) k) by (induction m0 as [|m0 IH]; intros [|a k] Y; cbn in *; try tauto; destruct Y; auto).
    exact (X2 _ _ I).
Qed.

(** ** Cases *)
Lemma lat3_gap n : n = 1 \/ n = 2 -> (gap lat3 n = earth * deg * 60 * cos (PI / 6))%R.
Proof.
  assert (D : (deg * 30 = PI / 6)%R) by (unfold deg; field).
  intros [->| ->]; unfold gap, at1, lat3; cbn [length Nat.add Nat.sub nth].
  - replace (deg * ((0 + -60) / 2))%R with (- (deg * 30))%R by field. rewrite cos_neg, D. f_equal. ring.
  - replace (deg * ((60 + 0) / 2))%R with (deg * 30)%R by field. rewrite D. f_equal. ring.
Qed.
(** the motionless atmosphere: the solver that knows the antisymmetric vector reports a real eigenvalue at every wavenumber *)
Example barot_stable_case : let u := [0; 0; 0]%R in profile_ok lat3 u /\ solver_sound (probe anti3) /\
  (forall n, 1 <= n <= length lat3 -> (lat_q lat3 u n * (at1 u n - 0) <= 0)%R) /\ barot_kernel 0 (probe anti3) lat3 u = Some (inl 0%R).
Proof.
  cbv zeta. assert (P : profile_ok lat3 [0; 0; 0]%R) by (split; [exact lat3_ok|split; [cbn; lia|reflexivity]]).
  assert (HS := probe_sound anti3 anti3_1).
  assert (Z : forall n, at1 [0; 0; 0]%R n = 0%R). { intros n. unfold at1. destruct (n - 1) as [|[|[|[|]]]]; reflexivity. }
  assert (Q : forall n, 1 <= n <= length lat3 -> (lat_q lat3 [0; 0; 0]%R n * (at1 [0; 0; 0]%R n - 0) <= 0)%R) by (intros n Hn; rewrite Z; lra).
  split; [exact P|]. split; [exact HS|]. split; [exact Q|].
  destruct (barot_stable_zero 0 (probe anti3) lat3 [0; 0; 0]%R 0 P (Rle_refl 0) HS Q) as [E|E]; [exact E|]. exfalso.
  (* the first sample is valid *)
  unfold barot_kernel, dbarot_growth_rate_1d in E. change (length lat3 <? 3) with false in E. cbv iota in E.
  rewrite barot_geometry_is in E by (cbn; lia). cbn [bind] in E.
  destruct P as [H [L Hu]]. destruct (barot_coefs_are lat3 [0; 0; 0]%R H L Hu) as [cf [E1 C]]. rewrite E1 in E. cbn [bind] in E.
  assert (W : forall n, 1 <= n <= length lat3 -> lat_w lat3 n <> 0%R) by (intros; apply Rgt_not_eq, lat_w_pos; auto).
  destruct (spectrum Rops 0%R (probe anti3) [0; 0; 0]%R cf (wavenumber_step Rops) nwavenumbers) as [l|] eqn:Sp; [|discriminate]. cbn [bind] in E.
  assert (NS : max_valid Rops l = None). { unfold finalize_barot_growth in E. destruct (max_valid Rops l); [discriminate|reflexivity]. }
  apply max_valid_none in NS.
  unfold spectrum in Sp. destruct (mapM_nth _ _ _ _ _ 0 1 Sp eq_refl) as [y [Y1 Y2]]. cbv zeta in Y1.
  set (kv := fmul Rops (fz Rops (Z.of_nat 1 - 1)) (wavenumber_step Rops)) in *.
  destruct (assembled' (length lat3) (lat_c lat3) (lat_w lat3) (lat_beta lat3) [0; 0; 0]%R ltac:(cbn; lia) Hu cf C W kv) as [A [B [EA [EB [LA [ZA M]]]]]].
  rewrite EA, EB in Y1. cbn [bind] in Y1. injection Y1 as <-.
  set (hh := (earth * deg * 60 * cos (PI / 6))%R). assert (G1 := lat3_gap 1 ltac:(auto)). assert (G2 := lat3_gap 2 ltac:(auto)). fold hh in G1, G2.
  assert (Hh : hh <> 0%R) by (rewrite <- G1; apply Rgt_not_eq, gap_pos; auto; cbn; lia).
  assert (K0 : kv = 0%R) by (unfold kv, wavenumber_step; cbn; lra).
  assert (CC : forall n, n <= 3 -> lat_c lat3 n = (/ hh)%R).
  { intros n Hn. assert (n = 0 \/ n = 1 \/ n = 2 \/ n = 3) as [->|[->|[->| ->]]] by lia; unfold lat_c; cbn [Nat.eqb length lat3 Nat.sub]; rewrite ?G1, ?G2; reflexivity. }
  assert (MA : forall n, 1 <= n <= 3 -> mv A anti3 n = 0%R). { intros n Hn. destruct (M anti3 n ltac:(cbn; lia)) as [X _]. rewrite X, K0. apply opA_0. }
  assert (MB : forall n, 1 <= n <= 3 -> mv B anti3 n = (- (2 / (hh * hh)) * anti3 n)%R).
  { intros n Hn. destruct (M anti3 n ltac:(cbn; lia)) as [_ X]. rewrite X, K0. unfold opB, lap.
    assert (n = 1 \/ n = 2 \/ n = 3) as [->|[->| ->]] by lia.
    - rewrite !CC by lia. rewrite lat_w_1, G1. clearbody hh. unfold ext. cbn. field. auto.
    - rewrite !CC by lia. assert (W2 := W 2 ltac:(cbn; lia)). set (w2 := lat_w lat3 2) in *. clearbody w2. unfold ext. cbn. field. auto.
    - rewrite !CC by lia. change (lat_w lat3 3) with (gap lat3 2). rewrite G2. unfold ext. cbn. field. auto. }
  apply (NS 0%R). apply nth_error_In with (n := 0). rewrite Y2. f_equal. unfold generalized_eig_max_imag, probe. rewrite LA. cbn [length lat3 Nat.leb andb].
  assert (PA : propb (mv A anti3) anti3 3 = true) by (apply propb_spec; intros i Hi; rewrite !MA by lia; ring).
  assert (PB : propb (mv B anti3) anti3 3 = true) by (apply propb_spec; intros i Hi; rewrite !MB by lia; cbn; ring).
  rewrite PA, PB. cbn [andb map max_valid fold_left max_step imag_sample fleb fopp fdiv Rops]. rewrite MB by lia. cbn [anti3].
  assert (0 < 2 / (hh * hh))%R. { apply Rmult_lt_0_compat; [lra|]. apply Rinv_0_lt_compat. apply Rlt_0_sqr in Hh. exact Hh. }
  destruct (Rle_dec (- (2 / (hh * hh)) * 1) 0); [|lra]. destruct (Rle_dec (- 0) (- (2 / (hh * hh)) * 1)); [lra|]. cbn. f_equal. unfold Rdiv. ring.
Qed.
(** the bound of a sheared profile *)
Example barot_bound_case : let u := [0; 10; 0]%R in profile_ok lat3 u /\
  (forall n, 1 <= n < length lat3 -> ((at1 u (S n) - at1 u n) * (at1 u (S n) - at1 u n) / gap lat3 n <= 1 * 1 * lat_w lat3 n)%R).
Proof.
  cbv zeta. split; [split; [exact lat3_ok|split; [cbn; lia|reflexivity]]|]. intros n Hn. cbn [length lat3] in Hn.
  set (hh := (earth * deg * 60 * cos (PI / 6))%R). assert (G1 := lat3_gap 1 ltac:(auto)). assert (G2 := lat3_gap 2 ltac:(auto)). fold hh in G1, G2.
  assert (Hc : (1 / 2 <= cos (PI / 6))%R). { rewrite cos_PI6. assert (X := Rlt_sqrt3_0). assert (1 <= sqrt 3)%R. { rewrite <- sqrt_1. apply sqrt_le_1; lra. } lra. }
  assert (PI3 : (3 < PI)%R) by (assert (X := PI2_3_2); lra).
  assert (ED : (3 * 30000 < earth * deg)%R) by (unfold earth, deg; lra).
  assert (BH : (100 <= hh)%R).
  { unfold hh. apply Rle_trans with (90000 * 60 * (1 / 2))%R; [lra|]. apply Rmult_le_compat; lra. }
  assert (SQ : (100 / hh <= hh)%R) by (apply (Rmult_le_reg_r hh); [lra|]; unfold Rdiv; rewrite Rmult_assoc, Rinv_l by lra; apply Rle_trans with (100 * hh)%R; [lra|apply Rmult_le_compat_r; lra]).
  assert (CS : (cos (PI / 6) <= 1)%R) by (destruct (COS_bound (PI / 6)); auto).
  assert (W2 : (hh <= lat_w lat3 2)%R).
  { unfold lat_w, at1, lat3, hh. cbn [Nat.eqb length Nat.add Nat.sub nth]. replace ((60 - -60) / 2)%R with 60%R by field.
    rewrite <- (Rmult_1_r (earth * deg * 60)%R) at 2. rewrite Rmult_assoc. rewrite (Rmult_assoc (earth * deg)). apply Rmult_le_compat_l; [lra|]. lra. }
  assert (n = 1 \/ n = 2) as [->| ->] by lia; unfold at1; cbn [nth Nat.sub Nat.add].
  - rewrite lat_w_1, G1. replace ((10 - 0) * (10 - 0))%R with 100%R by ring. lra.
  - rewrite G2. replace ((0 - 10) * (0 - 10))%R with 100%R by ring. lra.
Qed.
(** a sheared statically stable column *)
Example baroc_bound_case : let u := [30; 15; 5]%R in let f := (1 / 10000)%R in column_of column_stable u th3 p3 t3 /\ arguments_ok 5 1 200 0 /\
  (forall n, 1 <= n < length p3 -> (f * f * ((at1 u (S n) - at1 u n) * (at1 u (S n) - at1 u n)) / static th3 p3 t3 n <= 1 * 1 * lev_w p3 n)%R) /\
  (0 < lev_q u th3 p3 t3 f (16 / 1000000000000) 1)%R.
Proof.
  cbv zeta. split; [exact baroc_column_case|]. split; [split; [lia|split; [lia|left; reflexivity]]|]. split.
  - intros n Hn. cbn [length p3] in Hn. assert (n = 1 \/ n = 2) as [->| ->] by lia; unfold static, lev_w, at1, p3, th3, t3; cbn; lra.
  - unfold lev_q, pvgrad, lap, ext, lev_c, lev_w, static, at1, p3, th3, t3; cbn. lra.
Qed.

Print Assumptions barot_assembled.
Print Assumptions baroc_assembled.
Print Assumptions barot_in_bounds.
Print Assumptions baroc_in_bounds.
Print Assumptions barot_fjortoft.
Print Assumptions baroc_fjortoft.
Print Assumptions barot_rayleigh.
Print Assumptions baroc_rayleigh.
Print Assumptions barot_shear_bound.
Print Assumptions baroc_shear_bound.
Print Assumptions barot_stable_zero.
Print Assumptions barot_growth_bounded.
Print Assumptions baroc_growth_bounded.
