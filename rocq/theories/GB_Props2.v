(** C71-C72: symmetries of the spectrum and its reduction. *)
From Coq Require Import Reals List Lra Lia Arith.
From Verif Require Import Base Buffer Loops VH_Model VH_Proofs GB_Model GB_Spec GB_Real GB_Proofs1 GB_Proofs2 GB_Proofs3 GB_Proofs4 GB_Grids GB_Props.
Import ListNotations.
Local Open Scope R_scope.
Local Open Scope nat_scope.

(** * C71 *)
Theorem barot_conjugate lat u k A B s t : profile_ok lat u -> barot_pencil lat u k A B ->
  eigenvalue (length lat) (mv A) (mv B) s t -> eigenvalue (length lat) (mv A) (mv B) s (- t).
Proof. intros H P E. rewrite (barot_eigen lat u k A B) in *; auto. apply conjugate_op. exact E. Qed.
Theorem baroc_conjugate u theta p t f beta k A B s v : column_of column_ok u theta p t -> baroc_pencil u theta p t f beta k A B ->
  eigenvalue (length p) (mv A) (mv B) s v -> eigenvalue (length p) (mv A) (mv B) s (- v).
Proof. intros H P E. rewrite (baroc_eigen u theta p t f beta k A B) in *; auto. apply conjugate_op. exact E. Qed.
(** adding U to the wind moves every eigenvalue by k U *)
Definition faster (U : R) (u : list R) : list R := map (fun v => v + U)%R u.
Lemma at1_faster U u n : 1 <= n <= length u -> at1 (faster U u) n = (at1 u n + U)%R.
Proof. intros H. unfold at1, faster. rewrite (nth_indep _ 0%R (0 + U)%R) by (rewrite map_length; lia). apply (map_nth (fun v => v + U)%R). Qed.
Theorem baroc_galilean u theta p t f beta k A B A' B' U s v : column_of column_ok u theta p t ->
  baroc_pencil u theta p t f beta k A B -> baroc_pencil (faster U u) theta p t f beta k A' B' ->
  eigenvalue (length p) (mv A') (mv B') (s + k * U) v <-> eigenvalue (length p) (mv A) (mv B) s v.
Proof.
  intros H P P'. rewrite (baroc_eigen u theta p t f beta k A B s v H P).
  rewrite (baroc_eigen (faster U u) theta p t f beta k A' B'); auto.
  2:{ destruct H as [H [L [Hu X]]]. split; auto. split; auto. split; auto. unfold faster. rewrite map_length. exact Hu. }
  destruct H as [H [L [Hu X]]].
  rewrite <- (galilean_op (length p) (lev_c theta p t f) (lev_w p) (fun _ => beta) (at1 u) k U s v).
  - apply eigenvalue_ext. intros x n Hn. apply op_ext; auto. intros i Hi. split; auto. split; auto. apply at1_faster. lia.
  - reflexivity.
  - unfold lev_c. rewrite Nat.eqb_refl. destruct (length p =? 0); reflexivity.
Qed.
(** at k = 0 the baroclinic pencil is singular: every complex number is an eigenvalue *)
Theorem baroc_zero_wavenumber_singular u theta p t f beta A B s v : column_of column_ok u theta p t -> baroc_pencil u theta p t f beta 0 A B ->
  eigenvalue (length p) (mv A) (mv B) s v.
Proof.
  intros H P. rewrite (baroc_eigen u theta p t f beta 0 A B s v H P). apply singular_op.
  - destruct H; lia.
  - reflexivity.
  - unfold lev_c. rewrite Nat.eqb_refl. destruct (length p =? 0); reflexivity.
Qed.
(** the other hemisphere *)
Definition flip (lat : list R) : list R := rev (map Ropp lat).
Lemma at1_rev l n : 1 <= n <= length l -> at1 (rev l) n = at1 l (length l + 1 - n).
Proof. intros H. unfold at1. rewrite rev_nth by lia. f_equal. lia. Qed.
Lemma at1_flip l n : 1 <= n <= length l -> at1 (flip l) n = (- at1 l (length l + 1 - n))%R.
Proof.
  intros H. unfold flip. rewrite at1_rev by (rewrite map_length; lia). rewrite map_length. unfold at1.
  rewrite (nth_indep _ 0%R (- 0)%R) by (rewrite map_length; lia). apply map_nth.
Qed.
Lemma flip_len l : length (flip l) = length l.
Proof. unfold flip. rewrite rev_length, map_length. reflexivity. Qed.
Lemma flip_ok lat : lat_ok lat -> lat_ok (flip lat).
Proof.
  intros [A B]. split; rewrite flip_len; intros n Hn.
  - rewrite !at1_flip by lia. specialize (A (length lat - n) ltac:(lia)).
    replace (length lat + 1 - n) with (length lat - n + 1) by lia. replace (length lat + 1 - (n + 1)) with (length lat - n) by lia. lra.
  - rewrite at1_flip by lia. specialize (B (length lat + 1 - n) ltac:(lia)). lra.
Qed.
Lemma gap_flip lat n : 1 <= n < length lat -> gap (flip lat) n = gap lat (length lat - n).
Proof.
  intros H. unfold gap. rewrite !at1_flip by lia.
  replace (length lat + 1 - n) with (length lat - n + 1) by lia. replace (length lat + 1 - (n + 1)) with (length lat - n) by lia.
  set (a := at1 lat (length lat - n)). set (b := at1 lat (length lat - n + 1)).
  replace (deg * ((- a + - b) / 2))%R with (- (deg * ((b + a) / 2)))%R by field. rewrite cos_neg. ring.
Qed.
Lemma lat_c_flip lat n : 3 <= length lat -> n <= length lat -> lat_c (flip lat) n = mirrorc (length lat) (lat_c lat) n.
Proof.
  intros L H. unfold mirrorc, lat_c. rewrite flip_len. f_equal.
  destruct (Nat.eqb_spec n 0) as [->|N0].
  - rewrite gap_flip by lia. replace (length lat - 0) with (length lat) by lia. rewrite Nat.eqb_refl. destruct (Nat.eqb_spec (length lat) 0); [lia|]. reflexivity.
  - destruct (Nat.eqb_spec n (length lat)) as [->|NN].
    + replace (length lat - length lat) with 0 by lia. cbn [Nat.eqb]. rewrite gap_flip by lia. f_equal. lia.
    + destruct (Nat.eqb_spec (length lat - n) 0); [lia|]. destruct (Nat.eqb_spec (length lat - n) (length lat)); [lia|]. apply gap_flip. lia.
Qed.
Lemma lat_w_flip lat n : 3 <= length lat -> 1 <= n <= length lat -> lat_w (flip lat) n = mirror (length lat) (lat_w lat) n.
Proof.
  intros L H. unfold mirror, lat_w. rewrite flip_len.
  destruct (Nat.eqb_spec n 1) as [->|N0].
  - destruct (Nat.eqb_spec (length lat + 1 - 1) 1); [lia|]. destruct (Nat.eqb_spec (length lat + 1 - 1) (length lat)); [|lia]. apply gap_flip. lia.
  - destruct (Nat.eqb_spec n (length lat)) as [->|NN].
    + replace (length lat + 1 - length lat) with 1 by lia. cbn [Nat.eqb]. rewrite gap_flip by lia. f_equal. lia.
    + destruct (Nat.eqb_spec (length lat + 1 - n) 1); [lia|]. destruct (Nat.eqb_spec (length lat + 1 - n) (length lat)); [lia|].
      rewrite !at1_flip by lia. replace (length lat + 1 - (n + 1)) with (length lat + 1 - n - 1) by lia. replace (length lat + 1 - (n - 1)) with (length lat + 1 - n + 1) by lia.
      f_equal. lra.
Qed.
Lemma lat_beta_flip lat n : 1 <= n <= length lat -> lat_beta (flip lat) n = mirror (length lat) (lat_beta lat) n.
Proof.
  intros H. unfold mirror, lat_beta. rewrite at1_flip by auto. rewrite Ropp_mult_distr_r_reverse, cos_neg. reflexivity.
Qed.
Lemma flip_rest lat u k s t : 3 <= length lat -> length u = length lat ->
  eigenvalue (length lat) (opA (length lat) (lat_c lat) (lat_w lat) (lat_beta lat) (at1 u) k) (opB (length lat) (lat_c lat) (lat_w lat) k) s t ->
  eigenvalue (length lat) (opA (length lat) (lat_c (flip lat)) (lat_w (flip lat)) (lat_beta (flip lat)) (at1 (rev u)) k) (opB (length lat) (lat_c (flip lat)) (lat_w (flip lat)) k) s t.
Proof.
  intros L Hu E. apply mirror_op in E. revert E. apply eigenvalue_ext. intros x n Hn. apply op_ext; auto.
  - intros i Hi. apply lat_c_flip; auto.
  - intros i Hi. split; [apply lat_w_flip; auto|]. split; [apply lat_beta_flip; auto|].
    unfold mirror. rewrite at1_rev by lia. rewrite Hu. reflexivity.
Qed.
Lemma flip_flip lat : flip (flip lat) = lat.
Proof. unfold flip. rewrite map_rev, rev_involutive, map_map. rewrite <- (map_id lat) at 2. apply map_ext. intros; ring. Qed.
Theorem barot_mirror lat u k A B A' B' s t : profile_ok lat u ->
  barot_pencil lat u k A B -> barot_pencil (flip lat) (rev u) k A' B' ->
  eigenvalue (length lat) (mv A') (mv B') s t <-> eigenvalue (length lat) (mv A) (mv B) s t.
Proof.
  intros H P P'. assert (H' : profile_ok (flip lat) (rev u)).
  { destruct H as [H [L Hu]]. split; [apply flip_ok; auto|]. rewrite flip_len, rev_length. auto. }
  rewrite (barot_eigen lat u k A B s t H P). assert (X := barot_eigen (flip lat) (rev u) k A' B' s t H' P'). rewrite flip_len in X. rewrite X. clear X.
  destruct H as [H [L Hu]]. split; [|apply flip_rest; auto].
  intros E. assert (Y := flip_rest (flip lat) (rev u) k s t). rewrite flip_len, flip_flip, rev_involutive in Y. apply Y; auto. rewrite rev_length. auto.
Qed.
Example barot_mirror_case : flip [-30; 0; 60]%R = [-60; 0; 30]%R /\ profile_ok [-30; 0; 60]%R [1; 2; 4]%R.
Proof.
  split. { unfold flip. cbn. repeat f_equal; lra. }
  split; [|split; [cbn; lia|reflexivity]]. split; intros n Hn; cbn [length] in Hn.
  - assert (n = 1 \/ n = 2) as [->| ->] by lia; unfold at1; cbn; lra.
  - assert (n = 1 \/ n = 2 \/ n = 3) as [->|[->| ->]] by lia; unfold at1; cbn; lra.
Qed.

(** * C72 *)
(** one wavenumber: the largest imaginary part alfi / beta among the eigenvalues with |beta| above the threshold,
    of either sign; no value when the solver fails or no eigenvalue qualifies *)
Theorem eigenvalue_reduction tiny qz a b :
  (forall m, generalized_eig_max_imag Rops tiny qz a b = Some m <->
     exists es, qz a b = Some es /\ (exists ar ai be, In (ar, ai, be) es /\ (tiny < Rabs be)%R /\ m = (ai / be)%R) /\
       forall ar ai be, In (ar, ai, be) es -> (tiny < Rabs be)%R -> (ai / be <= m)%R) /\
  (generalized_eig_max_imag Rops tiny qz a b = None <->
     forall es, qz a b = Some es -> forall ar ai be, In (ar, ai, be) es -> (Rabs be <= tiny)%R).
Proof.
  assert (S : forall ar ai be, imag_sample Rops tiny (ar, ai, be) = if Rlt_dec tiny (Rabs be) then Some (ai / be)%R else None).
  { intros ar ai be. unfold imag_sample. cbn [fleb fopp fdiv Rops]. 
    destruct (Rle_dec be tiny) as [L1|L1]; destruct (Rle_dec (- tiny) be) as [L2|L2]; destruct (Rlt_dec tiny (Rabs be)) as [L3|L3]; cbn [andb]; auto;
      exfalso; revert L3; unfold Rabs; destruct (Rcase_abs be); lra. }
  assert (I : forall es v, In (Some v) (map (imag_sample Rops tiny) es) <-> exists ar ai be, In (ar, ai, be) es /\ (tiny < Rabs be)%R /\ v = (ai / be)%R).
  { intros es v. rewrite in_map_iff. split.
    - intros [[[ar ai] be] [E H]]. rewrite S in E. destruct (Rlt_dec tiny (Rabs be)); [|discriminate]. injection E as <-. exists ar, ai, be. auto.
    - intros [ar [ai [be [H [L ->]]]]]. exists (ar, ai, be). split; auto. rewrite S. destruct (Rlt_dec tiny (Rabs be)); [auto|contradiction]. }
  unfold generalized_eig_max_imag. split.
  - intros m. destruct (qz a b) as [es|]; [|split; [discriminate|intros [es [X _]]; discriminate]].
    rewrite max_valid_some. unfold is_max. rewrite I. split.
    + intros [X Y]. exists es. split; auto. split; auto. intros ar ai be H L. apply Y, I. exists ar, ai, be. auto.
    + intros [es' [X [Y Z]]]. injection X as <-. split; auto. intros v Hv. apply I in Hv. destruct Hv as [ar [ai [be [H [L ->]]]]]. eauto.
  - destruct (qz a b) as [es|]; [|split; auto; intros _ es X; discriminate].
    rewrite max_valid_none. unfold no_sample. split.
    + intros X es' Y ar ai be H. injection Y as <-. apply Rnot_lt_le. intros L. apply (X (ai / be)%R), I. exists ar, ai, be. auto.
    + intros X v Hv. apply I in Hv. destruct Hv as [ar [ai [be [H [L ->]]]]]. specialize (X es eq_refl ar ai be H). lra.
Qed.
(** both signs of beta, one eigenvalue below the threshold *)
Example eigenvalue_reduction_case : let qz (_ _ : list (list R)) := Some [(0, 3, 1); (0, -8, -2); (0, 9, 0)]%R in
  generalized_eig_max_imag Rops (1 / 10)%R qz [] [] = Some 4%R.
Proof.
  apply (proj1 (eigenvalue_reduction (1 / 10)%R _ [] [])). eexists. split; [reflexivity|]. split.
  - exists 0%R, (-8)%R, (-2)%R. split; [cbn; auto|]. split; [rewrite Rabs_left; lra|lra].
  - intros ar ai be [E|[E|[E|[]]]] L; injection E as <- <- <-; [lra|lra|]. rewrite Rabs_R0 in L. lra.
Qed.
Theorem barot_reduction growth :
  (forall m, finalize_barot_growth Rops growth = inl m <-> is_max growth m) /\
  (forall e, finalize_barot_growth Rops growth = inr e <-> e = 200%Z /\ no_sample growth).
Proof.
  unfold finalize_barot_growth. split.
  - intros m. rewrite <- max_valid_some. destruct (max_valid Rops growth); split; congruence.
  - intros e. rewrite <- max_valid_none. destruct (max_valid Rops growth); split.
    + discriminate.
    + intros [_ X]; discriminate.
    + intros X; injection X as <-; auto.
    + intros [-> _]; reflexivity.
Qed.
(** [window] samples centred on each one (one more when [window] is even), those that exist *)
Theorem running_mean values window : exists out, apply_centered_running_mean Rops values window = Some out /\ length out = length values /\
  ((window <= 1)%Z -> out = values) /\
  ((1 < window)%Z -> forall i, i < length values -> nth_error out i = Some (mean (around values i (Z.to_nat (window / 2))))).
Proof.
  exists (smooth values window). split; [apply running_mean_is|]. unfold smooth. destruct (Z.leb_spec window 1).
  - split; [reflexivity|]. split; [auto|lia].
  - split; [rewrite map_length, seq_length; reflexivity|]. split; [lia|]. intros _ i Hi.
    rewrite nth_error_map, (nth_error_nth' _ 0) by (rewrite seq_length; auto). rewrite seq_nth by auto. reflexivity.
Qed.
Theorem running_mean_within values window out lo hi : apply_centered_running_mean Rops values window = Some out ->
  (forall v, In (Some v) values -> (lo <= v <= hi)%R) -> forall v, In (Some v) out -> (lo <= v <= hi)%R.
Proof. rewrite running_mean_is. intros X H. injection X as <-. apply smooth_range. exact H. Qed.
(** the reduction of the baroclinic spectrum *)
Theorem baroc_reduction growth window used : apply_centered_running_mean Rops growth window = Some used ->
  (forall g, finalize_baroc_growth Rops growth window = Some (inl g) <->
     exists i, decreases used i /\ (forall j, i < j -> ~ decreases used j) /\ is_max (firstn (S i) used) g) /\
  (forall e, finalize_baroc_growth Rops growth window = Some (inr e) <-> e = 300%Z /\ forall i, ~ decreases used i).
Proof.
  rewrite running_mean_is. intros X. injection X as <-.
  destruct (finalize_baroc_is growth window) as [[N E]|[i [m [D [A [M E]]]]]]; rewrite E; split.
  - intros g. split; [discriminate|]. intros [i [D _]]. destruct (N i D).
  - intros e. split; [intros X; injection X as <-; auto|]. intros [-> _]. reflexivity.
  - intros g. split.
    + intros X. injection X as <-. exists i. auto.
    + intros [j [D' [A' M']]]. assert (j = i) as ->. { destruct (Nat.lt_trichotomy i j) as [Y|[Y|Y]]; auto; [destruct (A j Y D')|destruct (A' i Y D)]. }
      rewrite (is_max_unique _ _ _ M M'). reflexivity.
  - intros e. split; [discriminate|]. intros [_ X]. destruct (X i D).
Qed.
Theorem baroc_reduction_runs growth window : finalize_baroc_growth Rops growth window <> None /\ finalize_baroc_growth Rops growth window <> Some (inr 301%Z).
Proof. destruct (finalize_baroc_is growth window) as [[_ X]|[i [m [_ [_ [_ X]]]]]]; rewrite X; split; discriminate. Qed.
Example reduction_case : let g := [None; Some 1; Some 3; Some 2; Some 5]%R in
  finalize_barot_growth Rops g = inl 5%R /\ finalize_baroc_growth Rops g 1 = Some (inl 3%R).
Proof.
  cbv zeta. split.
  - apply barot_reduction. split; [cbn; auto 10|]. intros v H. cbn in H. destruct H as [H|[H|[H|[H|[H|[]]]]]]; try discriminate; injection H as <-; lra.
  - destruct (baroc_reduction [None; Some 1; Some 3; Some 2; Some 5]%R 1 _ (running_mean_is _ _)) as [X _]. apply X. exists 2. unfold smooth. cbn [Z.leb Z.compare Pos.compare Pos.compare_cont]. split; [|split].
    + exists 3%R, 2%R. split; [reflexivity|]. split; [reflexivity|lra].
    + intros j Hj D. assert (Y := decreases_bound _ _ D). cbn in Y. assert (j = 3) as -> by lia. destruct D as [a [b [Ea [Eb L]]]]. cbn in Ea, Eb. injection Ea as <-. injection Eb as <-. lra.
    + split; [cbn; auto|]. intros v H. cbn in H. destruct H as [H|[H|[H|[]]]]; try discriminate; injection H as <-; lra.
Qed.
Example running_mean_case : forall out, apply_centered_running_mean Rops [None; Some 1; Some 3; Some 2]%R 3 = Some out -> nth_error out 0 = Some (Some 1%R) /\ nth_error out 2 = Some (Some 2%R).
Proof.
  intros out E. destruct (running_mean [None; Some 1; Some 3; Some 2]%R 3) as [o [E' [_ [_ H]]]]. rewrite E in E'. injection E' as <-. specialize (H ltac:(lia)).
  rewrite !H by (cbn; lia). change (Z.to_nat (3 / 2)) with 1. unfold mean, around. cbn [Nat.sub Nat.add firstn skipn present suml length]. split; do 2 f_equal; cbn; lra.
Qed.

(** a statically stable column whose flow satisfies Fjortoft's condition has no turning
    point: the kernel fails with 300, for every wavenumber grid and every window *)
Lemma zero_smooth growth window : (forall v, In (Some v) growth -> v = 0%R) -> forall i, ~ decreases (smooth growth window) i.
Proof.
  intros H i [a [b [Ha [Hb W]]]].
  assert (S : forall v, In (Some v) (smooth growth window) -> (0 <= v <= 0)%R) by (apply smooth_range; intros v Hv; rewrite (H v Hv); lra).
  assert (A := S a (nth_error_In _ _ Ha)). assert (B := S b (nth_error_In _ _ Hb)). lra.
Qed.
Theorem baroc_stable_fails tiny qz u theta p t f beta window mode count len U :
  column_of column_stable u theta p t -> arguments_ok window mode count len -> (0 <= tiny)%R -> solver_sound qz -> solver_zero qz ->
  (forall n, 1 <= n <= length p -> (lev_q u theta p t f beta n * (at1 u n - U) <= 0)%R) ->
  baroc_kernel tiny qz u theta p t f beta window mode count len = Some (inr 300%Z).
Proof.
  intros C [Wn [Ct Md]] Ht HS HZ HU. assert (C' := C). destruct C' as [H [L [Hu [Hth Htt]]]].
  destruct (baroc_runs u theta p t f beta tiny qz window mode count len (stable_ok _ _ _ H) L Hu Hth Htt Ht Wn Ct Md) as [l [E [_ S]]]. specialize (S HS).
  rewrite E. destruct (baroc_reduction l window _ (running_mean_is _ _)) as [_ X]. apply X. split; [reflexivity|]. apply zero_smooth.
  intros v Hv. destruct (S v Hv) as [k [s [_ [Y Z]]]]. cbv zeta in Y, Z. set (kv := (IZR (Z.of_nat k - 1) * kfactor mode len)%R) in *.
  destruct (Req_dec kv 0) as [K|K]; [exact (Z HZ K)|]. destruct (Req_dec v 0) as [|V]; auto. exfalso.
  destruct (baroc_assembled u theta p t f beta kv) as [A [B [P _]]]; [split; [apply stable_ok; auto|auto]|].
  destruct (baroc_fjortoft u theta p t f beta kv A B s v U C P K) as [n [Hn Q]]; auto.
  - apply (baroc_eigen u theta p t f beta kv A B s v); auto. split; [apply stable_ok; auto|auto].
  - specialize (HU n Hn). lra.
Qed.
(** uniform flow on a stable column *)
Example baroc_stable_case : let u := [10; 10; 10]%R in column_of column_stable u th3 p3 t3 /\ arguments_ok 5 2 200 1000 /\
  solver_sound (probe (fun _ => 1%R)) /\ solver_zero (probe (fun _ => 1%R)) /\
  (forall n, 1 <= n <= length p3 -> (lev_q u th3 p3 t3 (1 / 10000) (16 / 1000000000000) n * (at1 u n - 10) <= 0)%R).
Proof.
  cbv zeta. split; [split; [exact col3_stable|cbn; auto with arith]|]. split; [split; [lia|split; [lia|right; split; [reflexivity|lra]]]|].
  split; [apply probe_sound; lra|]. split; [apply probe_zero|]. intros n Hn. cbn [length p3] in Hn.
  assert (at1 [10; 10; 10]%R n = 10%R) as -> by (assert (n = 1 \/ n = 2 \/ n = 3) as [->|[->| ->]] by lia; reflexivity). lra.
Qed.

Print Assumptions barot_conjugate.
Print Assumptions baroc_conjugate.
Print Assumptions baroc_galilean.
Print Assumptions baroc_zero_wavenumber_singular.
Print Assumptions barot_mirror.
Print Assumptions barot_reduction.
Print Assumptions running_mean.
Print Assumptions running_mean_within.
Print Assumptions baroc_reduction.
Print Assumptions baroc_reduction_runs.
Print Assumptions baroc_stable_fails.
Print Assumptions eigenvalue_reduction.
