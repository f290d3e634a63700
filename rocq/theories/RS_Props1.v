(** Properties C75 (packing, checks and tables), C76 (synthesis) and C77
    (analysis) of the packed reduced-Gaussian transforms. *)
From Coq Require Import Reals List Arith Lia Lra Bool ZArith.
From Verif Require Import Base Buffer VH_Model VH_Proofs SH_Spec SH_Model SH_Proofs SH_Proofs2 SH_Proofs4 SH_Props.
From Verif Require Import RS_Model RS_Model2 RS_Spec RS_Dft RS_Proofs1 RS_Proofs2 RS_Proofs3 RS_Proofs4 RS_Proofs5 RS_Proofs6 RS_Proofs7 RS_Proofs8 RS_Table.
Import ListNotations.
Local Open Scope nat_scope.
Local Notation C := RS_Model.C.

(** ** C75: packing *)
(** nm = spectral_offset(m) + (n - m) + 1 numbers the orders and degrees in the
    documented triangular order, without gaps. *)
Theorem C75_spectral_order : forall T,
  length (pairs T) = tri T /\
  (forall m n, m <= n <= T -> nth_error (pairs T) (spectral_offset m T + (n - m)) = Some (m, n)) /\
  (forall k, k < tri T -> exists m n, m <= n <= T /\ k = spectral_offset m T + (n - m)).
Proof.
  intros T. split; [apply pairs_length|]. split.
  - intros m n H. rewrite offset_index by exact H. apply nth_pairs. exact H.
  - intros k Hk. destruct (nth_error (pairs T) k) as [[m n]|] eqn:E; [|apply nth_error_None in E; rewrite pairs_length in E; lia].
    destruct (index_unique T m n k E) as [E2 B]. exists m, n. split; [exact B|]. rewrite offset_index by exact B. exact E2.
Qed.
(** The rows tile the packed grid: offset(j) is the total of the rows before
    it, and every packed position belongs to exactly one point of one row. *)
Theorem C75_rows_tile : forall pl,
  (forall j, 1 <= j <= length pl -> rd (offsets pl) j = Some (row_start pl j)) /\
  (forall q, q < list_sum pl -> exists j i, 1 <= j <= length pl /\ i < row_len pl j /\ q = row_start pl j + i /\
     forall j' i', 1 <= j' <= length pl -> i' < row_len pl j' -> q = row_start pl j' + i' -> j' = j /\ i' = i) /\
  (forall j i, 1 <= j <= length pl -> i < row_len pl j -> row_start pl j + i < list_sum pl).
Proof.
  intros pl. split; [intros j Hj; apply offsets_rd; lia|]. split.
  - intros q Hq. destruct (row_find pl q Hq) as [j (Hj & H1 & H2)]. exists j, (q - row_start pl j). split; [exact Hj|]. split; [lia|]. split; [lia|].
    intros j' i' Hj' Hi' E. assert (j' = j); [|subst; lia].
    destruct (Nat.lt_trichotomy j j') as [L|[L|L]]; [|lia|].
    + pose proof (row_disjoint pl j j' ltac:(lia) L ltac:(lia)). lia.
    + pose proof (row_disjoint pl j' j ltac:(lia) L ltac:(lia)). lia.
  - intros j i Hj Hi. pose proof (row_end pl j Hj). lia.
Qed.
Example C75_rows_ex : offsets [4; 6; 4] = [0; 4; 10; 14] /\ row_start [4; 6; 4] 3 + 1 = 11 /\ list_sum [4; 6; 4] = 14 /\ spectral_offset 2 5 = 11.
Proof. repeat split; reflexivity. Qed.

(** *** The checks: error code 0 exactly for consistent arguments *)
Theorem C75_codes : forall pl pos rpos nmdim ngptot ntrunc nt cache alloc component, length pos = length pl ->
  (grdtospec_code pl ngptot ntrunc nt cache alloc = 0%Z <-> sizes_ok pl ngptot ntrunc nt /\ cache = 0%Z /\ alloc = 0%Z) /\
  (spectogrd_code pl nmdim ngptot ntrunc nt cache = 0%Z <-> sizes_ok pl ngptot ntrunc nt /\ nmdim = ((ntrunc + 1) * (ntrunc + 2) / 2)%Z /\ cache = 0%Z) /\
  (getgrad_code pl pos rpos nmdim ngptot ntrunc nt cache = 0%Z <->
     sizes_ok pl ngptot ntrunc nt /\ (forall b, In b pos -> b = true) /\ rpos = true /\ nmdim = ((ntrunc + 1) * (ntrunc + 2) / 2)%Z /\ cache = 0%Z) /\
  (getvrtdivspec_code pl pos rpos ngptot ntrunc nt cache alloc = 0%Z <->
     sizes_ok pl ngptot ntrunc nt /\ (forall b, In b pos -> b = true) /\ rpos = true /\ cache = 0%Z /\ alloc = 0%Z) /\
  (getvecspec_code component pl pos rpos ngptot ntrunc nt cache alloc = 0%Z <->
     sizes_ok pl ngptot ntrunc nt /\ (forall b, In b pos -> b = true) /\ rpos = true /\ (component = 1 \/ component = 2)%Z /\ cache = 0%Z /\ alloc = 0%Z).
Proof.
  intros. split; [apply grdtospec_code_0|]. split; [apply spectogrd_code_0|]. split; [apply getgrad_code_0; assumption|].
  split; [apply getvrtdivspec_code_0; assumption|apply getvecspec_code_0; assumption].
Qed.
Example C75_codes_ex : sizes_ok [4; 6; 4]%Z 14 2 1 /\ spectogrd_code [4; 6; 4]%Z 6 14 2 1 0 = 0%Z /\ spectogrd_code [4; 0; 4]%Z 6 8 2 1 0 = 4%Z /\
  getgrad_code [4; 6; 4]%Z [true; false; true] true 6 14 2 1 0 = 5%Z.
Proof. split; [|repeat split; reflexivity]. unfold sizes_ok. cbn. repeat split; try lia. Qed.

(** *** The Legendre setup succeeds exactly for truncations of at least 2 *)
Theorem C75_setup : forall nlat ntrunc, (legendre_basis_code nlat ntrunc 0 0 = 0 <-> 3 <= nlat /\ 2 <= ntrunc <= nlat - 1)%Z.
Proof. apply legendre_basis_code_0. Qed.
(** So the claim that every truncation accepted by _validate_ntrunc can be set
    up is false: 0 and 1 pass the validation and fail with error code 4. *)
Theorem C75_setup_refuted : exists nlat ntrunc, (3 <= nlat)%Z /\ RS_Model2.validate_ntrunc nlat (Some ntrunc) = Some ntrunc /\ legendre_basis_code nlat ntrunc 0 0 = 4%Z.
Proof. exists 64%Z, 1%Z. vm_compute. repeat split; discriminate. Qed.
Theorem C75_setup_low : forall nlat ntrunc, (3 <= nlat -> 0 <= ntrunc <= 1 ->
  RS_Model2.validate_ntrunc nlat (Some ntrunc) = Some ntrunc /\ legendre_basis_code nlat ntrunc 0 0 <> 0)%Z.
Proof.
  intros nlat ntrunc H1 H2. split.
  - unfold RS_Model2.validate_ntrunc. destruct (Z.ltb_spec ntrunc 0), (Z.ltb_spec (nlat - 1) ntrunc); try lia. reflexivity.
  - intros E. apply legendre_basis_code_0 in E. lia.
Qed.

(** *** Parity of the tables that the mirror paths rely on *)
Theorem C75_table_parity : forall nlat T pmn theta, 1 <= nlat -> middle_zero nlat T pmn ->
  (forall j, 1 <= j <= nlat -> theta (nlat + 1 - j) = (PI - theta j)%R) ->
  let basis := legendre_basis nlat T pmn in let dbasis := legendre_derivative nlat T theta basis in
  sized nlat (tri T) basis /\ sized nlat (tri T) dbasis /\ has_parity T nlat 1 basis /\ has_parity T nlat (-1) dbasis.
Proof.
  intros nlat T pmn theta HN MZ HT basis dbasis.
  assert (SB : sized nlat (tri T) basis) by apply table_sized.
  assert (PB : has_parity T nlat 1 basis) by (apply basis_parity; assumption).
  split; [exact SB|]. split; [|split; [exact PB|apply derivative_parity; assumption]].
  apply (table_sized nlat T (fun j m n => derivative_entry m n (theta j) (nth (spectral_offset m T + n - m + 1 - 1) (nth (j - 1) basis []) 0%R) (nth (spectral_offset m T + n - m + 1 - 2) (nth (j - 1) basis []) 0%R))).
Qed.
(** what the derivative table holds: (n cos(theta) P_n - c P_(n-1)) / sin(theta) *)
Theorem C75_table_values : forall nlat T pmn theta j m n, 1 <= j <= nlat -> m <= n <= T ->
  let basis := legendre_basis nlat T pmn in
  (j <= (nlat + 1) / 2 -> entry T basis j m n = pmn m n j) /\
  (1 <= m \/ 1 <= n -> entry T (legendre_derivative nlat T theta basis) j m n =
     ((INR n * cos (theta j) * entry T basis j m n
       - (if m <? n then sqrt (INR ((2 * n + 1) * (n * n - m * m)) / INR (2 * n - 1)) * entry T basis j m (n - 1) else 0)) / sin (theta j))%R).
Proof.
  intros nlat T pmn theta j m n Hj Hn basis. split.
  - intros H. unfold basis, legendre_basis. rewrite table_entry by lia. unfold basis_value, late. destruct (Nat.leb_spec j ((nlat + 1) / 2)); [reflexivity|lia].
  - intros H. rewrite derivative_table by (try apply table_sized; lia). unfold derivative_entry. destruct (Nat.eqb_spec n 0); [lia|].
    destruct (Nat.ltb_spec m n); unfold Rdiv; ring.
Qed.
Example C75_table_ex : middle_zero 3 2 (fun m n j => entry 2 table3 j m n).
Proof.
  intros m n Hn HE _. order m; degree Hn; try discriminate; unfold entry, index, table3, legendre_at, late; cbn -[Rplus Rmult Rdiv Ropp IZR c01 c12]; ring.
Qed.

(** ** C76: synthesis *)
(** Value at point i of row j: the Fourier series whose coefficients are the
    Legendre sums, on both paths, whatever the work rows and the output held. *)
Theorem C76_spectogrd : forall pl T basis junk spec out, synthesis_ok pl T basis junk -> length spec = tri T -> length out = list_sum pl ->
  exists g, spectogrd backward junk pl T spec basis out = Some g /\ length g = list_sum pl /\
    forall j i, 1 <= j <= length pl -> i < row_len pl j -> point pl g j i = series (row_len pl j) T (leg T spec basis j) i.
Proof. intros. apply spectogrd_ok; assumption. Qed.
Lemma synthesised_unique pl T basis spec g g' : synthesised pl T basis spec g -> synthesised pl T basis spec g' -> g = g'.
Proof.
  intros [L P] [L' P']. apply nth_ext with (d := 0%R) (d' := 0%R); [lia|]. intros q Hq. rewrite L in Hq.
  destruct (row_find pl q Hq) as [j (Hj & H1 & H2)]. specialize (P j (q - row_start pl j) Hj ltac:(lia)). specialize (P' j (q - row_start pl j) Hj ltac:(lia)).
  unfold point in *. replace (row_start pl j + (q - row_start pl j)) with q in * by lia. congruence.
Qed.
(** Nothing of the previous contents survives, and the paired routine gives the
    two single results. *)
Theorem C76_contents_free : forall pl T basis junk junk' spec out out', synthesis_ok pl T basis junk -> synthesis_ok pl T basis junk' ->
  length spec = tri T -> length out = list_sum pl -> length out' = list_sum pl ->
  spectogrd backward junk pl T spec basis out = spectogrd backward junk' pl T spec basis out'.
Proof.
  intros pl T basis junk junk' spec out out' H H' Hs Ho Ho'.
  destruct (spectogrd_ok pl T basis junk H spec out Hs Ho) as [g [E G]]. destruct (spectogrd_ok pl T basis junk' H' spec out' Hs Ho') as [g' [E' G']].
  rewrite E, E'. f_equal. apply (synthesised_unique pl T basis spec); assumption.
Qed.
Theorem C76_pair : forall pl T basis junk junk2 sa sb out, synthesis_ok pl T basis junk -> synthesis_ok pl T basis junk2 ->
  length sa = tri T -> length sb = tri T -> length (fst out) = list_sum pl -> length (snd out) = list_sum pl ->
  exists ga gb, spectogrd_pair backward junk junk2 pl T sa sb basis out = Some (ga, gb) /\
    spectogrd backward junk pl T sa basis (fst out) = Some ga /\ spectogrd backward junk2 pl T sb basis (snd out) = Some gb.
Proof.
  intros pl T basis junk junk2 sa sb out H H2 Ha Hb Ho1 Ho2.
  destruct (spectogrd_pair_ok pl T basis junk H junk2 (so_junk _ _ _ _ H2) sa sb out Ha Hb Ho1 Ho2) as [[ga gb] (E & G1 & G2)]. cbn [fst snd] in *.
  destruct (spectogrd_ok pl T basis junk H sa (fst out) Ha Ho1) as [g [E1 G1']]. destruct (spectogrd_ok pl T basis junk2 H2 sb (snd out) Hb Ho2) as [g' [E2 G2']].
  exists ga, gb. split; [exact E|]. rewrite E1, E2. split; f_equal; eapply synthesised_unique; eassumption.
Qed.
(** Full series of the spectrum at longitude 2 pi i / N, every wave counted *)
Definition full_series (N M : nat) (c : nat -> R * R) (i : nat) : R :=
  (fst (c 0%nat) + sumR M (fun k => 2 * (fst (c (S k)) * cos (angle N (S k) i) - snd (c (S k)) * sin (angle N (S k) i))))%R.
(** Rows longer than 2T carry the values of the series itself; shorter rows do
    not: the waves beyond N/2 are left out and the wave N/2 counts once. *)
Theorem C76_pointwise_partial : forall pl T basis junk spec out, synthesis_ok pl T basis junk -> length spec = tri T -> length out = list_sum pl ->
  exists g, spectogrd backward junk pl T spec basis out = Some g /\
    forall j i, 1 <= j <= length pl -> i < row_len pl j -> 2 * T < row_len pl j -> point pl g j i = full_series (row_len pl j) T (leg T spec basis j) i.
Proof.
  intros pl T basis junk spec out H Hs Ho. destruct (spectogrd_ok pl T basis junk H spec out Hs Ho) as [g [E [_ P]]]. exists g. split; [exact E|].
  intros j i Hj Hi HT. rewrite P by assumption. unfold series, full_series. f_equal.
  assert (M : Nat.min T (row_len pl j / 2) = T) by (assert (T <= row_len pl j / 2) by (apply Nat.div_le_lower_bound; lia); lia). rewrite M.
  apply sumR_ext. intros k Hk. cbv zeta. destruct (Nat.eqb_spec (2 * S k) (row_len pl j)); [lia|]. reflexivity.
Qed.
Definition wave22 : list C := [(0, 0); (0, 0); (0, 0); (0, 0); (0, 0); (1, 0)]%R.
Lemma wave22_ok : synthesis_ok [4; 4; 4] 2 table3 (fun _ => repeat 0%R 4).
Proof.
  split.
  - intros j Hj. destruct (rows3 j Hj) as [E|[E|E]]; subst j; cbn; lia.
  - apply sized3.
  - intros j k Hk. cbn [length] in Hk. rewrite repeat_length. destruct (rows3 k Hk) as [E|[E|E]]; subst k; cbn; lia.
  - intros _. apply parity3.
Qed.
Theorem C76_pointwise_refuted : exists pl T basis junk spec out g j i, synthesis_ok pl T basis junk /\ length spec = tri T /\ length out = list_sum pl /\
  spectogrd backward junk pl T spec basis out = Some g /\ 1 <= j <= length pl /\ i < row_len pl j /\ 4 <= row_len pl j /\ T <= length pl - 1 /\
  point pl g j i <> full_series (row_len pl j) T (leg T spec basis j) i.
Proof.
  destruct (C76_spectogrd [4; 4; 4] 2 table3 (fun _ => repeat 0%R 4) wave22 (repeat 0%R 12) wave22_ok eq_refl eq_refl) as [g (E & L & P)].
  exists [4; 4; 4], 2, table3, (fun _ => repeat 0%R 4), wave22, (repeat 0%R 12), g, 2, 0. split; [exact wave22_ok|].
  do 3 (split; [reflexivity || exact E|]). split; [cbn; lia|]. split; [cbn; lia|]. split; [cbn; lia|]. split; [cbn; lia|].
  rewrite (P 2 0) by (cbn; lia). unfold series, full_series.
  assert (L2 : leg 2 wave22 table3 2 2 = (c22, 0)%R) by (unfold leg, over_n, coef, entry, index, wave22, table3, legendre_at; cbn -[Rplus Rmult Rdiv Ropp IZR c00 c01 c02 c11 c12 c22]; f_equal; ring).
  assert (L1 : leg 2 wave22 table3 2 1 = (0, 0)%R) by (unfold leg, over_n, coef, entry, index, wave22, table3, legendre_at; cbn -[Rplus Rmult Rdiv Ropp IZR c00 c01 c02 c11 c12 c22]; f_equal; ring).
  change (row_len [4; 4; 4] 2) with 4. change (Nat.min 2 (4 / 2)) with 2. cbn [sumR Nat.mul Nat.eqb Nat.add]. rewrite L1, L2. cbn [fst snd].
  unfold angle. cbn [INR]. rewrite !Rmult_0_r. unfold Rdiv. rewrite !Rmult_0_l, cos_0.
  assert (0 < c22)%R by (apply sqrt_lt_R0; lra). lra.
Qed.

(** ** C77: analysis *)
Theorem C77_analysis : forall pl T grid weights basis oc os, analysis_ok pl T grid weights basis -> length oc = length pl -> length os = length pl ->
  exists spec, grdtospec forward pl T grid weights basis oc os = Some spec /\ length spec = tri T /\
    forall m n, m <= n <= T ->
      coef T spec m n = (over_rows pl m (fun j => fst (row_dft pl grid j m) * (row_value weights j * entry T basis j m n))%R,
                         over_rows pl m (fun j => snd (row_dft pl grid j m) * (row_value weights j * entry T basis j m n))%R).
Proof. intros. apply grdtospec_ok; assumption. Qed.

(** Analysis after synthesis multiplies each order by the Gram matrix of the
    rows that resolve it; the sine part only sees the rows longer than 2m and
    is lost at order 0. *)
Theorem C77_gram : forall pl T weights basis junk spec out oc os, synthesis_ok pl T basis junk -> length spec = tri T -> length out = list_sum pl ->
  length weights = length pl -> length oc = length pl -> length os = length pl ->
  exists g spec', spectogrd backward junk pl T spec basis out = Some g /\ grdtospec forward pl T g weights basis oc os = Some spec' /\ length spec' = tri T /\
    forall m n, m <= n <= T ->
      fst (coef T spec' m n) = over_n T m (fun n' => fst (coef T spec m n') * over_rows pl m (fun j => row_value weights j * entry T basis j m n * entry T basis j m n'))%R /\
      snd (coef T spec' m n) = over_n T m (fun n' => snd (coef T spec m n') *
         over_rows pl m (fun j => if orb (m =? 0)%nat (2 * m =? row_len pl j)%nat then 0 else row_value weights j * entry T basis j m n * entry T basis j m n'))%R.
Proof.
  intros pl T weights basis junk spec out oc os H Hs Ho Hw Hc Hd.
  destruct (spectogrd_ok pl T basis junk H spec out Hs Ho) as [g [E G]].
  assert (A : analysis_ok pl T g weights basis) by (split; [apply (so_rows _ _ _ _ H)|apply G|exact Hw|apply (so_basis _ _ _ _ H)]).
  destruct (grdtospec_ok pl T g weights basis oc os A Hc Hd) as [spec' (E' & L' & V)]. exists g, spec'. split; [exact E|]. split; [exact E'|]. split; [exact L'|].
  intros m n Hn. rewrite (V m n Hn), (gram_form pl T weights basis spec g (so_rows _ _ _ _ H) G m n Hn). split; reflexivity.
Qed.
(** With the orthonormal table and rows longer than 2T the round trip is the
    identity up to the imaginary parts of order 0. *)
Theorem C77_roundtrip : forall pl T weights basis junk spec out oc os, synthesis_ok pl T basis junk -> length spec = tri T -> length out = list_sum pl ->
  length weights = length pl -> length oc = length pl -> length os = length pl -> full_rows pl T -> orthonormal T (length pl) weights basis ->
  exists g spec', spectogrd backward junk pl T spec basis out = Some g /\ grdtospec forward pl T g weights basis oc os = Some spec' /\ length spec' = tri T /\
    forall m n, m <= n <= T -> coef T spec' m n = real_part_at_0 m (coef T spec m n).
Proof.
  intros pl T weights basis junk spec out oc os H Hs Ho Hw Hc Hd F O.
  destruct (C77_gram pl T weights basis junk spec out oc os H Hs Ho Hw Hc Hd) as [g [spec' (E & E' & L & V)]]. exists g, spec'. do 3 (split; [assumption|]).
  intros m n Hn. destruct (V m n Hn) as [V1 V2]. rewrite (surjective_pairing (coef T spec' m n)), V1, V2. unfold real_part_at_0. f_equal.
  - transitivity (over_n T m (fun n' => fst (coef T spec m n') * (if (n =? n')%nat then 1 else 0))%R).
    + apply over_n_ext. intros n' Hn'. rewrite <- (proj1 (gram_full pl T weights basis m n n' F O Hn Hn')). reflexivity.
    + rewrite (over_n_one T m n (fun n' => fst (coef T spec m n')) 1%R Hn). ring.
  - transitivity (over_n T m (fun n' => snd (coef T spec m n') * (if (n =? n')%nat then (if (m =? 0)%nat then 0 else 1) else 0))%R).
    + apply over_n_ext. intros n' Hn'. f_equal. etransitivity; [exact (proj2 (gram_full pl T weights basis m n n' F O Hn Hn'))|]. destruct (m =? 0), (n =? n'); reflexivity.
    + rewrite (over_n_one T m n (fun n' => snd (coef T spec m n'))  _ Hn). destruct (m =? 0); ring.
Qed.
Lemma synthesis3 junk : work_rows [6; 8; 6] junk -> synthesis_ok [6; 8; 6] 2 table3 junk.
Proof.
  intros W. split; [|apply sized3|exact W|intros _; apply parity3].
  intros j Hj. destruct (rows3 j Hj) as [E|[E|E]]; subst j; cbn; lia.
Qed.
Example C77_roundtrip_ex : synthesis_ok [6; 8; 6] 2 table3 (fun _ => repeat 7%R 8) /\ full_rows [6; 8; 6] 2 /\ orthonormal 2 3 weights3 table3 /\ length wave22 = tri 2.
Proof.
  split.
  - apply synthesis3. intros j k Hk. rewrite repeat_length. destruct (rows3 k Hk) as [E|[E|E]]; subst k; cbn; lia.
  - split; [|split; [exact orthonormal3|reflexivity]]. intros j Hj. destruct (rows3 j Hj) as [E|[E|E]]; subst j; cbn; lia.
Qed.

(** Smoothing: the synthesis of the analysed coefficients times smooth(n+1) *)
Theorem C77_specsmooth : forall pl grid smooth weights basis junk oc os fresh out, let T := length pl - 1 in
  1 <= length pl -> analysis_ok pl T grid weights basis -> synthesis_ok pl T basis junk -> length oc = length pl -> length os = length pl ->
  length fresh = tri T -> (Z.of_nat (tri T) < 2 ^ 31)%Z -> length out = list_sum pl ->
  (length smooth <> length pl -> specsmooth forward backward junk pl grid smooth weights basis oc os fresh out = Some None) /\
  (length smooth = length pl -> exists spec sm g, grdtospec forward pl T grid weights basis oc os = Some spec /\ length sm = tri T /\
     (forall m n, m <= n <= T -> coef T sm m n = (nth n smooth 0 * fst (coef T spec m n), nth n smooth 0 * snd (coef T spec m n))%R) /\
     specsmooth forward backward junk pl grid smooth weights basis oc os fresh out = Some (Some g) /\ synthesised pl T basis sm g).
Proof.
  intros pl grid smooth weights basis junk oc os fresh out T H1 A S HC HS HF H31 HO. split.
  - intros N. unfold specsmooth. destruct (Nat.eqb_spec (length smooth) (length pl)); [lia|reflexivity].
  - intros L. unfold specsmooth. rewrite L, Nat.eqb_refl. cbn [negb]. cbv zeta. fold T.
    destruct (grdtospec_ok pl T grid weights basis oc os A HC HS) as [spec (E & LS & _)].
    assert (M : multsmoothfact RR smooth spec fresh = Some (pointwise T (fun m n c => cscale RR (nth n smooth (rz RR 0)) c) spec)).
    { apply (C52_smoothing RR T smooth spec fresh); [split; assumption|unfold RS_Model.C in *; cbn in *; lia|unfold T; cbn in *; lia]. }
    set (sm := pointwise T (fun m n c => cscale RR (nth n smooth (rz RR 0)) c) spec) in *.
    assert (LSM : length sm = tri T) by (unfold sm; apply pointwise_length; unfold RS_Model.C in *; cbn in *; lia).
    destruct (spectogrd_ok pl T basis junk S sm out LSM HO) as [g [EG G]].
    exists spec, sm, g. split; [exact E|]. split; [exact LSM|]. split.
    + intros m n Hn. unfold sm. rewrite (coef_pointwise T spec) by (assumption || exact LS). reflexivity.
    + split; [|exact G]. rewrite E. cbn [bind]. rewrite M. cbn [bind]. unfold T in EG. fold T in EG. rewrite EG. reflexivity.
Qed.
Example C77_specsmooth_ex : analysis_ok [6; 8; 6] 2 (repeat 1%R 20) weights3 table3 /\ length [1; 0.5; 0.25]%R = length [6; 8; 6] /\ (Z.of_nat (tri 2) < 2 ^ 31)%Z.
Proof.
  split; [split|split; [reflexivity|reflexivity]]; try reflexivity; [|apply sized3].
  intros j Hj. destruct (rows3 j Hj) as [E|[E|E]]; subst j; cbn; lia.
Qed.

Print Assumptions C75_spectral_order.
Print Assumptions C75_rows_tile.
Print Assumptions C75_codes.
Print Assumptions C75_setup.
Print Assumptions C75_setup_refuted.
Print Assumptions C75_setup_low.
Print Assumptions C75_table_parity.
Print Assumptions C75_table_values.
Print Assumptions C76_spectogrd.
Print Assumptions C76_contents_free.
Print Assumptions C76_pair.
Print Assumptions C76_pointwise_partial.
Print Assumptions C76_pointwise_refuted.
Print Assumptions C77_analysis.
Print Assumptions C77_gram.
Print Assumptions C77_roundtrip.
Print Assumptions C77_specsmooth.
