(** C52: the triangular spectral storage of skyborn.spharm. *)
From Coq Require Import Lia Arith ZArith List Bool Field_theory Reals Lra RealField.
From Verif Require Import Base Buffer VH_Model VH_Proofs SH_Model SH_Spec SH_Proofs SH_Proofs2 SH_Proofs3 SH_Proofs4 SH_Proofs5 SH_Proofs6 SH_Proofs7 TG_Proofs.
Import ListNotations.
Local Open Scope Z_scope.

(** ** Arithmetic instances *)
Definition RR_laws : rlaws RR.
Proof.
  refine {| rl_inv := (Rinv : RR -> RR) |}.
  - exact Rfield.
  - intros a b. apply plus_IZR.
  - intros n H. apply (not_0_IZR n H).
Defined.
Definition QR_laws sq : rlaws (QR sq).
Proof.
  refine {| rl_inv := (Qcinv : QR sq -> QR sq) |}.
  - exact Qcft.
  - intros a b. apply qz_add.
  - intros n H E. apply H. apply qz_inj. exact E.
Defined.
Definition Rzero (x : R) : bool := if Req_EM_T x 0 then true else false.
Lemma Rzero_spec (x : R) : Rzero x = true <-> x = 0%R.
Proof. unfold Rzero. destruct (Req_EM_T x 0); split; congruence. Qed.
Lemma RR_sqrt_ok : sqrt_ok RR.
Proof.
  intros n Hn. cbn [RR rsqrt rmul rsub rz T]. split.
  - intro H. apply R_sqrt.sqrt_eq_0 in H.
    + apply Rmult_integral in H. destruct H as [H|H].
      * apply eq_IZR in H. lia.
      * assert (E : IZR n = 1%R) by (cbn in *; lra). apply eq_IZR in E. exact E.
    + apply Rmult_le_pos; [apply IZR_le; lia|]. apply IZR_le in Hn. cbn in *; lra.
  - intros ->. replace (1 * (1 - 1))%R with 0%R by ring. apply R_sqrt.sqrt_0.
Qed.
(** A rational stand-in for the square root, only to run examples. *)
Definition QX : rl := QR (fun x => x).

(** ** The storage order *)

(** Positions 0 .. (N+1)(N+2)/2-1 correspond one to one to the pairs (m, n) with
    0 <= m <= n <= N; the position of (m, n) is [index N m n]. *)
Theorem C52_storage_bijection : forall N,
  length (pairs N) = tri N /\ 2 * Z.of_nat (tri N) = (Z.of_nat N + 1) * (Z.of_nat N + 2) /\
  (forall k, (k < tri N)%nat -> exists m n, nth_error (pairs N) k = Some (m, n) /\ (m <= n <= N)%nat /\ k = index N m n) /\
  (forall m n, (m <= n <= N)%nat -> (index N m n < tri N)%nat /\ nth_error (pairs N) (index N m n) = Some (m, n)) /\
  (forall m n m' n', (m <= n <= N)%nat -> (m' <= n' <= N)%nat -> index N m n = index N m' n' -> (m, n) = (m', n')).
Proof.
  intro N. split; [apply pairs_length|]. split; [pose proof (tri2 N); lia|]. split; [|split].
  - intros k Hk. destruct (nth_error (pairs N) k) as [[m n]|] eqn:E.
    + exists m, n. destruct (index_unique _ _ _ _ E) as [-> B]. repeat split; try lia.
    + apply nth_error_None in E. rewrite pairs_length in E. lia.
  - intros m n B. split; [apply index_lt; exact B|apply nth_pairs; exact B].
  - intros m n m' n' B B' E. pose proof (nth_pairs _ _ _ B) as H. rewrite E, (nth_pairs _ _ _ B') in H. congruence.
Qed.
Example C52_storage_ex :
  pairs 2 = [(0, 0); (0, 1); (0, 2); (1, 1); (1, 2); (2, 2)]%nat /\ index 42 1 1 = 43%nat /\ tri 42 = 946%nat.
Proof. vm_compute. repeat split; reflexivity. Qed.

(** The loop nest of every kernel performs its body once for each (m, n), in
    storage order, with [nm] the (one-based) position of (m, n). *)
Theorem C52_loops_visit_storage_order : forall N,
  tri_loop (Z.of_nat N) (fun m => m) (fun m n nm l => Some (l ++ [(m, n, nm)])) []
  = Some (map (fun k => let p := nth k (pairs N) (0, 0)%nat in
                        (Z.of_nat (fst p) + 1, Z.of_nat (snd p) + 1, Z.of_nat k + 1)) (seq 0 (tri N))).
Proof.
  intro N. rewrite tri_loop_visits.
  assert (G : forall l k acc, foldM (visit (list (Z * Z * Z)) (fun m n nm l0 => Some (l0 ++ [(m, n, nm)]))) (enum k l) acc
     = Some (acc ++ map (fun j => let p := nth (j - k) l (0, 0)%nat in
                        (Z.of_nat (fst p) + 1, Z.of_nat (snd p) + 1, Z.of_nat j + 1)) (seq k (length l)))).
  { induction l as [|p l IH]; intros k acc; [cbn; rewrite app_nil_r; reflexivity|].
    rewrite enum_cons. cbn [foldM]. unfold visit at 1. cbn [bind fst snd]. rewrite IH, <- app_assoc.
    cbn [length seq map app]. rewrite Nat.sub_diag. cbn [nth]. do 3 f_equal.
    apply map_ext_in. intros j Hj. apply in_seq in Hj. replace (j - k)%nat with (S (j - S k)) by lia. reflexivity. }
  rewrite G. cbn [app]. f_equal. rewrite pairs_length. apply map_ext. intro j. rewrite Nat.sub_0_r. reflexivity.
Qed.

(** getspecindx lists the same pairs in the same order. *)
Theorem C52_getspecindx : forall N,
  getspecindx (Z.of_nat N)
  = Some (map (fun p => Z.of_nat (fst p)) (pairs N), map (fun p => Z.of_nat (snd p)) (pairs N)).
Proof. exact getspecindx_pairs. Qed.
Example C52_getspecindx_ex : getspecindx 2 = Some ([0; 0; 0; 1; 1; 2], [0; 1; 2; 1; 2; 2]) /\ getspecindx (-1) = None.
Proof. vm_compute. split; reflexivity. Qed.

(** ** The truncation recovered from the number of coefficients *)
Theorem C52_truncation_exact_arithmetic : forall n, 0 <= n ->
  (-1.5 + 0.5 * R_sqrt.sqrt (9 - 8 * (1 - IZR (nmdim_of n))) = IZR n)%R.
Proof. exact trunc_real. Qed.
(** With IEEE single (Fortran) and double (Python) rounding, for every
    truncation whose number of coefficients is a 32-bit integer. *)
Theorem C52_truncation_rounded : forall n, 0 <= n -> nmdim_of n < 2 ^ 31 ->
  trunc32 (nmdim_of n) = Some n /\ trunc64 (nmdim_of n) = Some n.
Proof. exact trunc_tri. Qed.
Example C52_truncation_ex : nmdim_of 1279 = 819840 /\ trunc32 819840 = Some 1279.
Proof. vm_compute. split; reflexivity. Qed.
(** Lengths that are not of the form (n+1)(n+2)/2: both precisions give the
    largest truncation that fits.  Missing: lengths from 2^21 up, where the
    single-precision kernels can be wrong (below). *)
Theorem C52_truncation_any_length_partial : forall nm, 0 <= nm < 2 ^ 21 ->
  exists t, trunc32 nm = Some t /\ trunc64 nm = Some t /\ -1 <= t /\ nmdim_of t <= nm < nmdim_of (t + 1).
Proof. exact trunc_any. Qed.
Example C52_truncation_any_ex : trunc32 5 = Some 1 /\ trunc32 0 = Some (-1) /\ nmdim_of 1 = 3 /\ nmdim_of 2 = 6.
Proof. vm_compute. repeat split; reflexivity. Qed.
(** The double-precision formula of the Python check has no such limit. *)
Theorem C52_truncation_any_length_double : forall nm, 0 <= nm < 2 ^ 31 ->
  exists t, trunc64 nm = Some t /\ -1 <= t /\ nmdim_of t <= nm < nmdim_of (t + 1).
Proof. exact SH_Float.trunc64_any. Qed.
Example C52_truncation_double_ex : trunc64 10619135 = Some 4606 /\ nmdim_of 4606 = 10614528.
Proof. vm_compute. split; reflexivity. Qed.
(** It fails for large lengths: one coefficient short of truncation 4607 the
    Fortran kernels recover 4607 (the Python check recovers 4606), and then
    read one element past the end. *)
Theorem C52_truncation_fits_refuted : exists nm t, 0 <= nm < 2 ^ 31 /\ trunc32 nm = Some t /\ trunc64 nm <> Some t /\ nm < nmdim_of t.
Proof.
  exists 10619135, 4607. destruct trunc32_too_large as (H1 & H2 & H3).
  split; [lia|]. split; [exact H1|]. split; [rewrite H2; discriminate|]. rewrite H3. lia.
Qed.

(** ** Scalar spectra *)
Section Scalar.
Variable A : rl.
Variable LW : rlaws A.
Notation C := (T A * T A)%type.
Definition ok_len (d : list C) (N : nat) : Prop := length d = tri N /\ Z.of_nat (tri N) < 2 ^ 31.
Lemma trunc_ok d N : ok_len d N -> trunc32 (Z.of_nat (length d)) = Some (Z.of_nat N).
Proof.
  intros [H1 H2]. rewrite H1, <- nmdim_tri_Z. apply trunc_tri; [lia|]. rewrite nmdim_tri_Z. exact H2.
Qed.

(** The coefficient of (m, n) goes to row m+1 and column n+1 (doubled), the rest
    of both matrices is zero. *)
Theorem C52_onedtotwod : forall N nlat (d : list C), ok_len d N -> Z.of_nat N + 1 <= nlat ->
  exists a b, onedtotwod A nlat d = Some (a, b) /\
    length a = (Z.to_nat nlat * Z.to_nat nlat)%nat /\ length b = (Z.to_nat nlat * Z.to_nat nlat)%nat /\
    is_matrix N nlat (rd2 nlat a) (rz A 0) (fun m n c => rmul A (rz A 2) (fst c)) d /\
    is_matrix N nlat (rd2 nlat b) (rz A 0) (fun m n c => rmul A (rz A 2) (snd c)) d.
Proof.
  intros N nlat d Hd HN. unfold onedtotwod. rewrite (trunc_ok d N Hd). cbn [bind].
  apply onedtotwod_result; [destruct Hd; lia|exact HN].
Qed.
(** Vector to matrices and back. *)
Theorem C52_roundtrip : forall N nlat (d : list C), ok_len d N -> Z.of_nat N + 1 <= nlat ->
  exists a b, onedtotwod A nlat d = Some (a, b) /\ twodtooned A nlat (Z.of_nat N) a b = Some d.
Proof.
  intros N nlat d Hd HN. unfold onedtotwod. rewrite (trunc_ok d N Hd). cbn [bind].
  apply roundtrip_12; [exact LW|exact (proj1 Hd)|exact HN].
Qed.
(** Matrices to vector and back: the triangle is unchanged, the rest is zero. *)
Theorem C52_roundtrip_matrices : forall N nlat (a b : list A),
  length a = (Z.to_nat nlat * Z.to_nat nlat)%nat -> length b = (Z.to_nat nlat * Z.to_nat nlat)%nat ->
  Z.of_nat N + 1 <= nlat -> Z.of_nat (tri N) < 2 ^ 31 ->
  exists d a' b', twodtooned A nlat (Z.of_nat N) a b = Some d /\ length d = tri N /\
    onedtotwod A nlat d = Some (a', b') /\
    (forall m n, 1 <= m <= n -> n <= Z.of_nat N + 1 -> rd2 nlat a' m n = rd2 nlat a m n /\ rd2 nlat b' m n = rd2 nlat b m n) /\
    (forall m n, 1 <= m <= nlat -> 1 <= n <= nlat -> ~ (m <= n <= Z.of_nat N + 1) ->
       rd2 nlat a' m n = Some (rz A 0) /\ rd2 nlat b' m n = Some (rz A 0)).
Proof.
  intros N nlat a b Ha Hb HN H31.
  destruct (roundtrip_21 A LW N nlat a b Ha Hb HN) as (d & a' & b' & E1 & E2 & E3 & R).
  exists d, a', b'. split; [exact E1|]. split; [exact E2|]. split; [|exact R].
  unfold onedtotwod. rewrite (trunc_ok d N) by (split; assumption). exact E3.
Qed.

(** For any spectrum accepted by the Python check (whatever its length below
    2^21) the conversion stays inside its arrays. *)
Theorem C52_validated_is_safe : forall nlat (d : list C) t, 1 <= nlat -> Z.of_nat (length d) < 2 ^ 21 ->
  validate_spectral_data nlat (Z.of_nat (length d)) = Some t ->
  onedtotwod A nlat d <> None /\
  (forall r junk, length junk = length d -> lap A r d junk <> None) /\
  (forall smooth junk, length junk = length d -> Z.of_nat (length smooth) = nlat -> multsmoothfact A smooth d junk <> None).
Proof.
  intros nlat d t Hl H16 HV.
  destruct (trunc_any (Z.of_nat (length d)) ltac:(lia)) as (t' & E32 & E64 & Hge & Hfit).
  unfold validate_spectral_data in HV. rewrite E64 in HV.
  destruct (Z.ltb_spec (nlat - 1) t') as [|Hle]; [discriminate|]. injection HV as <-.
  unfold onedtotwod, lap, multsmoothfact. rewrite E32. cbn [bind].
  destruct (Z.eq_dec t' (-1)) as [->|Hne].
  - repeat split; intros; unfold onedtotwod_at, lap_at, multsmoothfact_at; rewrite tri_loop_empty; discriminate.
  - assert (exists N, t' = Z.of_nat N) as [N ->] by (exists (Z.to_nat t'); lia).
    assert (Hd : (tri N <= length d)%nat) by (rewrite nmdim_tri_Z in Hfit; lia).
    repeat split.
    + destruct (onedtotwod_result A N nlat d Hd ltac:(lia)) as (a & b & E & _). rewrite E; discriminate.
    + intros r junk Hj. rewrite lap_result by lia. discriminate.
    + intros smooth junk Hj Hs. rewrite smooth_result by lia. discriminate.
Qed.

(** ** Laplacian *)
Theorem C52_laplacian : forall N r (d junk : list C), ok_len d N -> length junk = length d ->
  lap A r d junk = Some (pointwise N (fun m n c =>
     cscale A (rmul A (rmul A (ropp A (rz A (Z.of_nat n + 1))) (rsub A (rz A (Z.of_nat n + 1)) (rz A 1)))
                 (rdiv A (rz A 1) (rmul A r r))) c) d).
Proof.
  intros N r d junk Hd Hj. unfold lap. rewrite (trunc_ok d N Hd). cbn [bind]. destruct Hd as [Hd _].
  rewrite lap_result by lia. rewrite skipn_all2 by lia. rewrite app_nil_r. reflexivity.
Qed.
(** The inverse Laplacian undoes the Laplacian, and conversely, for every mode
    but the global mean, which is set to zero. *)
Theorem C52_inverse_laplacian : forall N r (d j1 j2 : list C), r <> rz A 0 -> ok_len d N ->
  length j1 = length d -> length j2 = length d ->
  (exists l, lap A r d j1 = Some l /\ invlap A r l j2 = Some (czero A :: tl d)) /\
  (exists l, invlap A r d j1 = Some l /\ lap A r l j2 = Some (czero A :: tl d)).
Proof.
  intros N r d j1 j2 Hr Hd H1 H2. pose proof (proj1 Hd) as Hl. unfold lap, invlap. rewrite (trunc_ok d N Hd). cbn [bind]. split.
  - destruct (invlap_lap A LW N r d j1 j2 Hr Hl ltac:(lia) ltac:(lia)) as (l & E1 & L & E2).
    exists l. split; [exact E1|]. rewrite (trunc_ok l N) by (split; [exact L|exact (proj2 Hd)]). exact E2.
  - destruct (lap_invlap A LW N r d j1 j2 Hr Hl ltac:(lia) ltac:(lia)) as (l & E1 & L & E2).
    exists l. split; [exact E1|]. rewrite (trunc_ok l N) by (split; [exact L|exact (proj2 Hd)]). exact E2.
Qed.

(** ** Smoothing: every coefficient of degree n is multiplied by smooth(n+1). *)
Theorem C52_smoothing : forall N smooth (d junk : list C), ok_len d N -> length junk = length d ->
  (N + 1 <= length smooth)%nat ->
  multsmoothfact A smooth d junk = Some (pointwise N (fun m n c => cscale A (nth n smooth (rz A 0)) c) d).
Proof.
  intros N smooth d junk Hd Hj Hs. unfold multsmoothfact. rewrite (trunc_ok d N Hd). cbn [bind]. destruct Hd as [Hd _].
  rewrite smooth_result by lia. rewrite skipn_all2 by lia. rewrite app_nil_r. reflexivity.
Qed.
(** regrid never leaves its arrays when no truncation beyond the target grid is
    requested together with smoothing. *)
Theorem C52_regrid_safe : forall nlat_in nlat_out ntrunc smooth (spec junk : Z -> list C),
  1 <= nlat_in -> 1 <= nlat_out -> nmdim_of (nlat_in - 1) < 2 ^ 31 ->
  (forall n, 0 <= n <= nlat_in - 1 -> Z.of_nat (length (spec n)) = nmdim_of n /\ length (junk n) = length (spec n)) ->
  (match smooth, ntrunc with Some _, Some n => n <= nlat_out - 1 | _, _ => True end) ->
  regrid_spec A nlat_in nlat_out ntrunc smooth spec junk <> None.
Proof.
  intros nlat_in nlat_out ntrunc smooth spec junk H1 H2 H31 Hspec Hs. unfold regrid_spec. cbv zeta.
  destruct (match smooth with Some s => _ | None => true end) eqn:Esz; cbn [negb]; [|discriminate].
  set (nt := match ntrunc with None => _ | Some n => n end).
  unfold validate_ntrunc. destruct ((nt <? 0) || (nlat_in - 1 <? nt))%bool eqn:EV; [discriminate|].
  apply orb_false_iff in EV. destruct EV as [V1 V2]. apply Z.ltb_ge in V1, V2.
  destruct (Hspec nt ltac:(lia)) as [HL HJ].
  destruct smooth as [s|]; cbn [bind]; [|destruct (validate_spectral_data _ _); discriminate].
  apply Z.eqb_eq in Esz.
  assert (Hnt : nt <= nlat_out - 1) by (unfold nt; destruct ntrunc; lia).
  assert (exists N, nt = Z.of_nat N) as [N EN] by (exists (Z.to_nat nt); lia).
  rewrite EN in *. rewrite nmdim_tri_Z in HL.
  assert (Hok : ok_len (spec (Z.of_nat N)) N).
  { split; [lia|]. rewrite <- nmdim_tri_Z. refine (Z.le_lt_trans _ _ _ _ H31).
    unfold nmdim_of. apply Z.div_le_mono; nia. }
  unfold multsmoothfact. rewrite (trunc_ok _ N Hok). cbn [bind]. destruct Hok as [Hok _].
  rewrite smooth_result by lia. cbn [bind]. destruct (validate_spectral_data _ _); discriminate.
Qed.
End Scalar.

Definition qv (n : Z) : Qc * Qc := (qz n, qz (- n)).
Definition run_round (nlat n : Z) (d : list (Qc * Qc)) : option (list (Q * Q)) :=
  let* ab := onedtotwod QX nlat d in
  let* r := twodtooned QX nlat n (fst ab) (snd ab) in
  Some (map (fun c : Qc * Qc => (this (fst c), this (snd c))) r).
Example C52_roundtrip_ex : ok_len QX (map qv [1; 2; 3; 4; 5; 6]) 2 /\
  run_round 3 2 (map qv [1; 2; 3; 4; 5; 6])
  = Some (map (fun c : Qc * Qc => (this (fst c), this (snd c))) (map qv [1; 2; 3; 4; 5; 6])).
Proof. split; [split; [reflexivity|vm_compute; reflexivity]|vm_compute; reflexivity]. Qed.
Example C52_onedtotwod_ex :
  (let* ab := onedtotwod QX 3 (map qv [1; 2; 3; 4; 5; 6]) in Some (map this (fst ab : list Qc)))
  = Some (map this (map qz [2; 0; 0; 4; 8; 0; 6; 10; 12])).
Proof. vm_compute. reflexivity. Qed.
(** Without the Python check the kernel would leave its arrays. *)
Example C52_too_few_latitudes : onedtotwod QX 2 (map qv [1; 2; 3; 4; 5; 6]) = None /\
  validate_spectral_data 2 6 = None /\ validate_spectral_data 3 6 = Some 2.
Proof. vm_compute. repeat split; reflexivity. Qed.
Example C52_inverse_laplacian_ex :
  (let* l := lap QX (qz 2) (map qv [7; 2; 3; 4; 5; 6]) (map qv [0; 0; 0; 0; 0; 0]) in
   let* i := invlap QX (qz 2) l (map qv [9; 9; 9; 9; 9; 9]) in
   Some (map (fun c : Qc * Qc => this (fst c)) l, map (fun c : Qc * Qc => this (fst c)) i))
  = Some (map this (map qz [0; -1]) ++ this (Q2Qc (-9 # 2)) :: map this (map qz [-2]) ++ map this [Q2Qc (-15 # 2); qz (-9)],
          map this (map qz [0; 2; 3; 4; 5; 6])).
Proof. vm_compute. reflexivity. Qed.
Example C52_smoothing_ex :
  (let* l := multsmoothfact QX (map qz [1; 10; 100]) (map qv [7; 2; 3; 4; 5; 6]) (map qv [0; 0; 0; 0; 0; 0]) in
   Some (map (fun c : Qc * Qc => this (fst c)) l))
  = Some (map this (map qz [7; 20; 300; 40; 500; 600])).
Proof. vm_compute. reflexivity. Qed.
Example C52_validated_ex : validate_spectral_data 3 5 = Some 1 /\ onedtotwod QX 3 (map qv [1; 2; 3; 4; 5]) <> None.
Proof. vm_compute. split; [reflexivity|discriminate]. Qed.
Example C52_regrid_ex : forall r,
  r = regrid_spec QX 3 2 None (Some (map qz [1; 10])) (fun n => map qv (firstn (Z.to_nat (nmdim_of n)) [1; 2; 3; 4; 5; 6]))
        (fun n => repeat (qv 0) (Z.to_nat (nmdim_of n))) ->
  match r with Some (Some l) => map (fun c : Qc * Qc => this (fst c)) l = map this (map qz [1; 20; 30]) | _ => False end.
Proof. intros r ->. vm_compute. reflexivity. Qed.

(** Findings.  The Laplacian of a spectrum whose length is not triangular is
    accepted and leaves the tail of the result uninitialised. *)
Theorem C52_result_determined_refuted : exists (d j1 j2 : list (Qc * Qc)) nlat,
  let proj := option_map (map (fun c : Qc * Qc => this (fst c))) in
  validate_spectral_data nlat (Z.of_nat (length d)) <> None /\
  length j1 = length d /\ length j2 = length d /\
  lap QX (qz 1) d j1 <> None /\ lap QX (qz 1) d j2 <> None /\
  proj (lap QX (qz 1) d j1) <> proj (lap QX (qz 1) d j2).
Proof.
  exists (map qv [1; 2; 3; 4]), (map qv [0; 0; 0; 0]), (map qv [9; 9; 9; 9]), 5.
  repeat split; vm_compute; try reflexivity; discriminate.
Qed.
(** An empty spectrum passes the check and the inverse Laplacian writes to
    element 1 of an array of size 0. *)
Theorem C52_invlap_in_bounds_refuted : exists (d : list (Qc * Qc)) nlat,
  validate_spectral_data nlat (Z.of_nat (length d)) <> None /\ invlap QX (qz 1) d d = None.
Proof. exists [], 3. vm_compute. split; [discriminate|reflexivity]. Qed.
(** regrid with smoothing and a truncation above the target grid's reads past
    the end of the smoothing vector before the error is raised. *)
Theorem C52_regrid_safe_refuted : exists nlat_in nlat_out ntrunc smooth (spec junk : Z -> list (Qc * Qc)),
  (forall n, 0 <= n <= nlat_in - 1 -> Z.of_nat (length (spec n)) = nmdim_of n /\ length (junk n) = length (spec n)) /\
  regrid_spec QX nlat_in nlat_out ntrunc smooth spec junk = None.
Proof.
  exists 3, 2, (Some 2), (Some (map qz [1; 1])), (fun n => repeat (qv 1) (Z.to_nat (nmdim_of n))), (fun n => repeat (qv 0) (Z.to_nat (nmdim_of n))).
  split; [|vm_compute; reflexivity].
  intros n Hn. assert (C : n = 0 \/ n = 1 \/ n = 2) by lia.
  destruct C as [->|[->| ->]]; rewrite !repeat_length; vm_compute; split; reflexivity.
Qed.

(** ** Vorticity and divergence *)
(** The combined conversions are the two single ones. *)
Theorem C52_vrtdiv_is_vrt_and_div : forall (A : rl) ntrunc nlat r,
  (forall v d, onedtotwod_vrtdiv_at A ntrunc nlat r v d
   = match onedtotwod_div_at A ntrunc nlat r d, onedtotwod_vrt_at A ntrunc nlat r v with
     | Some b, Some c => Some (b, c) | _, _ => None end) /\
  (forall br bi cr ci, twodtooned_vrtdiv A nlat ntrunc r br bi cr ci
   = match twodtooned_vrt A nlat ntrunc r cr ci, twodtooned_div A nlat ntrunc r br bi with
     | Some v, Some d => Some (v, d) | _, _ => None end).
Proof. intros A ntrunc nlat r. split; intros; [apply vrtdiv_in_pair|apply vrtdiv_out_pair]. Qed.

Lemma both (X Y : Type) (o1 : option X) (o2 : option Y) x y : o1 = Some x -> o2 = Some y ->
  match o1, o2 with Some a, Some b => Some (a, b) | _, _ => None end = Some (x, y).
Proof. intros -> ->. reflexivity. Qed.
(** With non-finite values tracked ([ext]; real numbers otherwise): the two
    conversions are inverse to each other on every mode but (0, 0), which is
    never finite after [onedtotwod_vrtdiv]. *)
Theorem C52_vrtdiv_roundtrip : forall N nlat r (v d : list (R * R)), r <> 0%R ->
  ok_len RR v N -> length d = length v -> Z.of_nat N + 1 <= nlat ->
  let E := ext RR Rzero in
  exists br bi cr ci,
    onedtotwod_vrtdiv E nlat (Some r) (fin RR Rzero v) (fin RR Rzero d) = Some ((br, bi), (cr, ci)) /\
    rd2 nlat br 1 1 = Some None /\ rd2 nlat cr 1 1 = Some None /\
    twodtooned_vrtdiv E nlat (Z.of_nat N) (Some r) br bi cr ci
      = Some ((None, None) :: tl (fin RR Rzero v), (None, None) :: tl (fin RR Rzero d)).
Proof.
  intros N nlat r v d Hr Hv Hd HN E. pose proof (proj1 Hv) as Hl.
  destruct (vrt_roundtrip RR RR_laws Rzero Rzero_spec RR_sqrt_ok N nlat r v Hr Hl HN) as (cr & ci & Ec & Bc).
  destruct (div_roundtrip RR RR_laws Rzero Rzero_spec RR_sqrt_ok N nlat r d Hr (eq_trans Hd Hl) HN) as (br & bi & Eb & Bb).
  exists br, bi, cr, ci. split.
  - unfold onedtotwod_vrtdiv.
    assert (Ht : trunc32 (Z.of_nat (length (fin RR Rzero v))) = Some (Z.of_nat N)) by (rewrite fin_length; exact (trunc_ok RR v N Hv)).
    unfold E in *. rewrite Ht. cbn [bind].
    refine (eq_trans (vrtdiv_in_pair _ _ _ _ _ _) _). exact (both _ _ _ _ _ _ Eb Ec).
  - destruct (vrt_in_result RR RR_laws Rzero Rzero_spec RR_sqrt_ok N nlat r v Hl HN) as (cr' & ci' & Ec' & [M1 _] & _).
    rewrite Ec in Ec'. injection Ec' as <- <-.
    destruct (div_in_result RR RR_laws Rzero Rzero_spec RR_sqrt_ok N nlat r d (eq_trans Hd Hl) HN) as (br' & bi' & Eb' & [M2 _] & _).
    rewrite Eb in Eb'. injection Eb' as <- <-.
    assert (T0 : (0 < tri N)%nat) by (pose proof (tri2 N); lia).
    assert (F : forall x : list (R * R), length x = tri N -> exists c, nth_error x (index N 0 0) = Some c).
    { intros x Hx. destruct (nth_error x (index N 0 0)) as [c|] eqn:Ex; [exists c; reflexivity|].
      apply nth_error_None in Ex. pose proof (index_lt N 0 0 ltac:(lia)). lia. }
    destruct (F v Hl) as [c1 H1]. destruct (F d (eq_trans Hd Hl)) as [c2 H2].
    split; [exact (M2 0%nat 0%nat c2 ltac:(lia) H2)|]. split; [exact (M1 0%nat 0%nat c1 ltac:(lia) H1)|].
    refine (eq_trans (vrtdiv_out_pair _ _ _ _ _ _ _ _) _). exact (both _ _ _ _ _ _ Bc Bb).
Qed.
Example C52_vrtdiv_ex : ok_len RR [(0, 0); (1, 2); (3, 4)]%R 1 /\ (6371200 <> 0)%R.
Proof. split; [split; [reflexivity|vm_compute; reflexivity]|lra]. Qed.
(** Gradient coefficients (getgrad): the divergence conversion applied to the
    Laplacian gives 2*sqrt(n(n+1))/r times the coefficient of degree n >= 1. *)
Theorem C52_gradient : forall N nlat r (d junk : list (R * R)), r <> 0%R -> ok_len RR d N ->
  length junk = length d -> Z.of_nat N + 1 <= nlat ->
  exists l br bi, lap RR r d junk = Some l /\ onedtotwod_div_at RR (Z.of_nat N) nlat r l = Some (br, bi) /\
    (forall m n c, (m <= n <= N)%nat -> (1 <= n)%nat -> nth_error d (index N m n) = Some c ->
       rd2 nlat br (Z.of_nat m + 1) (Z.of_nat n + 1) = Some (2 * (R_sqrt.sqrt (INR n * (INR n + 1)) * fst c) / r)%R /\
       rd2 nlat bi (Z.of_nat m + 1) (Z.of_nat n + 1) = Some (2 * (R_sqrt.sqrt (INR n * (INR n + 1)) * snd c) / r)%R).
Proof.
  intros N nlat r d junk Hr Hd Hj HN. pose proof (C52_laplacian RR N r d junk Hd Hj) as EL.
  match type of EL with _ = Some ?L => set (l := L) in EL end.
  assert (Hl : length l = tri N) by (unfold l; apply pointwise_length; destruct Hd; lia).
  destruct (two_store RR (fun n c => rdiv RR (rmul RR (ropp RR (n_factor_in RR r n)) (fst c)) (half RR))
      (fun n c => rdiv RR (rmul RR (ropp RR (n_factor_in RR r n)) (snd c)) (half RR)) N nlat l ltac:(lia) HN)
    as (br & bi & Eb & _ & _ & [M1 _] & [M2 _]).
  exists l, br, bi. split; [exact EL|]. split; [exact Eb|].
  intros m n c B Hn Hc.
  assert (Hcl : nth_error l (index N m n) = Some (cscale RR (lapf RR r (Z.of_nat n + 1)) c)).
  { unfold l. rewrite (pointwise_nth _ _ N _ d _ m n c Hc (nth_pairs _ _ _ B)). reflexivity. }
  rewrite (M1 m n _ B Hcl), (M2 m n _ B Hcl). unfold cscale; cbn [fst snd].
  assert (S : s_of RR (Z.of_nat n + 1) = R_sqrt.sqrt (INR n * (INR n + 1))%R).
  { unfold s_of. cbn [RR rsqrt rmul rz rsub T]. f_equal. rewrite plus_IZR, <- INR_IZR_INZ. ring. }
  assert (Q : rmul RR (s_of RR (Z.of_nat n + 1)) (s_of RR (Z.of_nat n + 1))
     = rmul RR (rz RR (Z.of_nat n + 1)) (rsub RR (rz RR (Z.of_nat n + 1)) (rz RR 1))).
  { rewrite S. cbn [RR rmul rz rsub T]. rewrite R_sqrt.sqrt_sqrt.
    - rewrite plus_IZR, <- INR_IZR_INZ. ring.
    - pose proof (pos_INR n). nra. }
  pose proof (fun x => grad_value RR RR_laws RR_sqrt_ok r (Z.of_nat n + 1) x Hr ltac:(lia) Q) as G.
  rewrite S in G. split; f_equal; apply G.
Qed.

(** ** Evaluation at a point *)
(** legendre + specintrp: the sum over all (m, n) of the Legendre value times the
    coefficient (order 0) or twice its real part rotated by m times the
    longitude. *)
Theorem C52_point_value : forall N lon (alf : Z -> Z -> R) (d : list (R * R)) junk,
  length d = tri N -> length junk = tri N ->
  exists p, getlegfunc RR alf (Z.of_nat N) junk = Some p /\
    specintrp RR (fun m => (cos (IZR m * lon), sin (IZR m * lon))) (Z.of_nat N) d p
    = Some (fold_right Rplus 0%R (map (fun e : (R * R) * (nat * nat) =>
        let '((re, im), (m, n)) := e in
        (alf (Z.of_nat n) (Z.of_nat m) *
         (if (m =? 0)%nat then re else 2 * (re * cos (IZR (Z.of_nat m) * lon) - im * sin (IZR (Z.of_nat m) * lon))))%R)
        (combine d (pairs N)))).
Proof.
  intros N lon alf d junk Hd Hj. eexists. split; [apply getlegfunc_result; exact Hj|].
  rewrite (specintrp_result RR RR_laws); [|apply Nat.eq_le_incl; symmetry; exact Hd|rewrite map_length, pairs_length; apply le_n].
  f_equal. unfold lsum. f_equal. apply nth_error_ext_all. intro k. rewrite !nth_error_map, enum_nth.
  destruct (nth_error (pairs N) k) as [[m n]|] eqn:E.
  - destruct (nth_error d k) as [[re im]|] eqn:Ed.
    2:{ apply nth_error_None in Ed. assert (k < length (pairs N))%nat by (apply nth_error_Some; rewrite E; discriminate).
        rewrite pairs_length in *. lia. }
    assert (C : nth_error (combine d (pairs N)) k = Some ((re, im), (m, n))).
    { clear -E Ed. revert k Ed E. generalize (pairs N) as l. induction d as [|y d IH]; intros [|p l] [|i]; cbn; try discriminate.
      - intros E1 E2; injection E1 as ->; injection E2 as ->; reflexivity.
      - apply IH. }
    rewrite C. cbn [option_map fst snd Nat.add]. f_equal. unfold term.
    rewrite (nth_error_nth _ _ _ Ed). cbn [fst snd].
    rewrite (nth_error_nth (map _ _) k _ (x := alf (Z.of_nat n) (Z.of_nat m))) by (rewrite nth_error_map, E; reflexivity).
    reflexivity.
  - cbn [option_map]. apply nth_error_None in E.
    rewrite (proj2 (nth_error_None _ _)); [reflexivity|]. rewrite combine_length; lia.
Qed.
Example C52_point_value_ex : length [(1, 0); (2, 3); (4, 5)]%R = tri 1.
Proof. reflexivity. Qed.

Print Assumptions C52_storage_bijection.
Print Assumptions C52_loops_visit_storage_order.
Print Assumptions C52_getspecindx.
Print Assumptions C52_truncation_exact_arithmetic.
Print Assumptions C52_truncation_rounded.
Print Assumptions C52_truncation_any_length_partial.
Print Assumptions C52_truncation_any_length_double.
Print Assumptions C52_truncation_fits_refuted.
Print Assumptions C52_onedtotwod.
Print Assumptions C52_roundtrip.
Print Assumptions C52_roundtrip_matrices.
Print Assumptions C52_validated_is_safe.
Print Assumptions C52_laplacian.
Print Assumptions C52_inverse_laplacian.
Print Assumptions C52_smoothing.
Print Assumptions C52_regrid_safe.
Print Assumptions C52_result_determined_refuted.
Print Assumptions C52_invlap_in_bounds_refuted.
Print Assumptions C52_regrid_safe_refuted.
Print Assumptions C52_vrtdiv_is_vrt_and_div.
Print Assumptions C52_vrtdiv_roundtrip.
Print Assumptions C52_gradient.
Print Assumptions C52_point_value.
