(** C113, C114: the Legendre tables of the reduced Gaussian grids and the
    transforms that use them. *)
From Coq Require Import Reals List Arith ZArith Lia Bool Lra.
From Verif Require Import Base Buffer VH_Model GS_Spec GS_Model GS_Proofs3 LG_Spec LG_Proofs1 LG_Proofs3 LG_Model LG_Proofs4 SH_Spec SH_Proofs RS_Spec RS_Dft RS_Model RS_Model2
  RS_Proofs3 RS_Proofs4 RS_Proofs5 RS_Proofs6 RS_Proofs8 RS_Table RS_Props1 RS_Props2 FF_Props3 LG_Props GQ_Model GQ_Props RL_Model RL_Proofs1 RL_Proofs2.
Import ListNotations.
Local Open Scope nat_scope.
Notation at_row l := (fun i => nth (i - 1) l 0%R).

(** ** C113: the tables *)
(** Whatever the arrays hold on entry and whatever permutation of 1, 2, 3 earlier
    calls of legin left behind, every entry of the table is the normalised
    Legendre function of its order and degree at the colatitude of its row, on
    both hemispheres. *)
Theorem C113_table : forall nlat T theta len junk work km pmn, 3 <= nlat -> 2 <= T < nlat ->
  length theta = nlat -> symmetric_colatitudes nlat (at_row theta) ->
  (T + 1) * T / 2 + (nlat - (T + 1)) * T <= len -> length junk = nlat * GS_Spec.north nlat -> nlat / 2 + 1 <= length work ->
  distinct km -> length pmn = nlat * (GS_Spec.north nlat * 3) ->
  exists basis, reduced_basis nlat T theta len junk work km pmn = Some (0%Z, basis) /\ sized nlat (tri T) basis /\
    forall j m n, 1 <= j <= nlat -> m <= n <= T -> entry T basis j m n = Pbar m n (nth (j - 1) theta 0%R).
Proof.
  intros nlat T theta len junk work km pmn H3 HT LT HS HL HJ HW HD HP. rewrite <- late_north in HJ, HP.
  destruct (basis_array_ok nlat T theta len junk work km pmn) as (a & E & _ & V); auto. unfold reduced_basis.
  assert (C0 : legendre_basis_code (Z.of_nat nlat) (Z.of_nat T) 0 0 = 0%Z) by (apply legendre_basis_code_0; lia). rewrite C0, E. cbn [Z.eqb bind].
  exists (by_rows nlat T a). split; auto. split; [apply by_rows_sized|]. intros j m n Hj Hn. rewrite by_rows_entry by auto. apply V; auto. lia.
Qed.
(** The derivative table holds the derivatives in colatitude. *)
Theorem C113_derivative : forall nlat T th basis, sized nlat (tri T) basis ->
  (forall j, 1 <= j <= nlat -> (0 < th j < PI)%R) ->
  (forall j m n, 1 <= j <= nlat -> m <= n <= T -> entry T basis j m n = Pbar m n (th j)) ->
  let dbasis := legendre_derivative nlat T th basis in
  sized nlat (tri T) dbasis /\
  forall j m n, 1 <= j <= nlat -> m <= n <= T -> derivable_pt_lim (Pbar m n) (th j) (entry T dbasis j m n).
Proof.
  intros nlat T th basis SB HT HB dbasis. split; [apply (table_sized nlat T (fun j m n => derivative_entry m n (th j) (nth (spectral_offset m T + n - m + 1 - 1) (nth (j - 1) basis []) 0%R) (nth (spectral_offset m T + n - m + 1 - 2) (nth (j - 1) basis []) 0%R)))|].
  intros j m n Hj Hn. replace (entry T dbasis j m n) with (dPbar m n (th j)); [apply Pbar_derive|]. unfold dbasis. rewrite derivative_table by auto.
  assert (S0 : sin (th j) <> 0%R) by (pose proof (sin_gt_0 (th j) (proj1 (HT j Hj)) (proj2 (HT j Hj))); lra).
  unfold derivative_entry. destruct (Nat.eqb_spec n 0) as [->|N0].
  - assert (m = 0) as -> by lia. unfold dPbar. rewrite D_S0. cbn [INR]. ring.
  - apply (Rmult_eq_reg_l (sin (th j))); auto. rewrite dPbar_lower by lia. rewrite HB by auto. fold (lower m n).
    destruct (Nat.ltb_spec m n); [rewrite HB by lia|]; field; auto.
Qed.

(** ** Exact points *)
(** The Gaussian points and weights that gaqd aims at: see C102. *)
Definition exact_rule (nlat : nat) (theta weights : list R) : Prop :=
  length theta = nlat /\ symmetric_weights nlat weights /\ symmetric_colatitudes nlat (at_row theta) /\
  (forall j, 1 <= j <= nlat -> (0 < nth (j - 1) theta 0 < PI)%R) /\ gaussian nlat weights (at_row theta).
Lemma sin_theta_row theta j : 1 <= j <= length theta -> row_value (sin_theta_of theta) j = sin (nth (j - 1) theta 0%R).
Proof.
  intros Hj. unfold row_value, sin_theta_of. set (f := fun t : R => cos ((90 - t * (180 / PI)) * (PI / 180))%R). rewrite (nth_indep _ 0%R (f 0%R)) by (rewrite map_length; lia). rewrite map_nth.
  unfold f. rewrite <- cos_shift. f_equal. field. apply PI_neq0.
Qed.
(** Orthonormality of the table and orthogonality of the gradients, which C77 and
    C78 assume. *)
Theorem C113_orthogonal : forall nlat T theta weights basis, T < nlat -> exact_rule nlat theta weights -> sized nlat (tri T) basis ->
  (forall j m n, 1 <= j <= nlat -> m <= n <= T -> entry T basis j m n = Pbar m n (nth (j - 1) theta 0%R)) ->
  orthonormal T nlat weights basis /\
  gradient_orthogonal T nlat weights basis (legendre_derivative nlat T (at_row theta) basis) (sin_theta_of theta).
Proof.
  intros nlat T theta weights basis HT (LT & SW & SC & PT & GA) SB HB.
  destruct (C113_derivative nlat T (at_row theta) basis SB PT HB) as [_ DB].
  assert (DV : forall j m n, 1 <= j <= nlat -> m <= n <= T -> entry T (legendre_derivative nlat T (at_row theta) basis) j m n = dPbar m n (nth (j - 1) theta 0%R)).
  { intros j m n Hj Hn. exact (uniqueness_limite _ _ _ _ (DB j m n Hj Hn) (Pbar_derive m n _)). }
  assert (SN : forall q, q < nlat -> sin (nth (S q - 1) theta 0%R) <> 0%R).
  { intros q Hq. destruct (PT (S q) ltac:(lia)) as [A B]. pose proof (sin_gt_0 _ A B). lra. }
  split.
  - intros m n n' Hn Hn'. rewrite <- (C98_functions nlat weights (at_row theta) m n n' GA) by lia. apply sumR_ext. intros q Hq. rewrite !HB by lia. unfold row_value. replace (S q - 1) with q by lia. reflexivity.
  - intros m n n' Hn Hn'. cbv zeta. split.
    + rewrite <- (gradient_first nlat weights (at_row theta) GA m n n') by (auto; lia). apply sumR_ext. intros q Hq. rewrite !HB, !DV, !sin_theta_row by lia. cbv zeta. unfold row_value. replace (S q - 1) with q by lia. reflexivity.
    + etransitivity; [|apply (gradient_second nlat weights (at_row theta) GA m n n'); auto; lia]. apply sumR_ext. intros q Hq. rewrite !HB, !DV, !sin_theta_row by lia. cbv zeta. unfold row_value. replace (S q - 1) with q by lia. reflexivity.
Qed.
Lemma tables_ok pl T theta weights basis r : exact_rule (length pl) theta weights -> sized (length pl) (tri T) basis -> full_rows pl T -> r <> 0%R ->
  (forall j m n, 1 <= j <= length pl -> m <= n <= T -> entry T basis j m n = Pbar m n (nth (j - 1) theta 0%R)) ->
  gradient_ok pl T basis (legendre_derivative (length pl) T (at_row theta) basis) (sin_theta_of theta) r.
Proof.
  intros (LT & SW & SC & PT & GA) SB FR HR HB.
  assert (PB : has_parity T (length pl) 1 basis).
  { intros j m n Hj Hn. rewrite !HB by lia. replace (nth (length pl + 1 - j - 1) theta 0%R) with (PI - nth (j - 1) theta 0%R)%R by (symmetry; exact (SC j Hj)). rewrite Pbar_mirror by lia. ring. }
  split.
  - intros j Hj. specialize (FR j Hj). lia.
  - exact SB.
  - apply (C113_derivative (length pl) T (at_row theta) basis SB PT HB).
  - unfold sin_theta_of. rewrite map_length. exact LT.
  - intros j Hj. rewrite sin_theta_row by lia. destruct (PT j Hj) as [A B]. pose proof (sin_gt_0 _ A B). lra.
  - exact HR.
  - intros _. exact PB.
  - intros _. apply derivative_parity; auto.
  - intros _ j Hj. rewrite !sin_theta_row by lia. replace (nth (length pl + 1 - j - 1) theta 0%R) with (PI - nth (j - 1) theta 0%R)%R by (symmetry; exact (SC j Hj)). apply sin_PI_x.
Qed.

(** ** C114: the transforms on the sphere *)
(** The field with triangular coefficients [spec] at colatitude t and longitude x:
    sum over m and n of spec(m, n) P(m, n)(t) exp(i m x), with the conjugates for
    negative m *)
Definition amp (part : R * R -> R) (T : nat) (spec : list (R * R)) (m : nat) (t : R) : R := over_n T m (fun n => part (coef T spec m n) * Pbar m n t)%R.
Definition field (T : nat) (spec : list (R * R)) (t x : R) : R :=
  (amp fst T spec 0 t + sumR T (fun k => let m := S k in 2 * (amp fst T spec m t * cos (INR m * x) - amp snd T spec m t * sin (INR m * x))))%R.
(** longitude of point i of row j *)
Definition longitude (pl : list nat) (j i : nat) : R := (2 * PI * INR i / INR (row_len pl j))%R.

Lemma series_full N T c i : 2 * T < N -> RS_Spec.series N T c i =
  (fst (c 0%nat) + sumR T (fun k => let m := S k in 2 * (fst (c m) * cos (INR m * (2 * PI * INR i / INR N)) - snd (c m) * sin (INR m * (2 * PI * INR i / INR N)))))%R.
Proof.
  intros H. unfold RS_Spec.series. rewrite Nat.min_l by (apply Nat.div_le_lower_bound; lia). f_equal. apply sumR_ext. intros k Hk. cbv zeta.
  destruct (Nat.eqb_spec (2 * S k) N); [lia|]. assert (EA : RS_Spec.angle N (S k) i = (INR (S k) * (2 * PI * INR i / INR N))%R) by (unfold RS_Spec.angle; field; apply not_0_INR; lia). rewrite EA. reflexivity.
Qed.
(** Synthesis puts on every point of the packed grid the value of the field, and
    analysis returns the coefficients. *)
Theorem C114_roundtrip : forall pl T theta weights len junk work km pmn jrow spec out oc os, let nlat := length pl in
  3 <= nlat -> 2 <= T < nlat -> exact_rule nlat theta weights -> full_rows pl T ->
  (T + 1) * T / 2 + (nlat - (T + 1)) * T <= len -> length junk = nlat * GS_Spec.north nlat -> nlat / 2 + 1 <= length work -> distinct km -> length pmn = nlat * (GS_Spec.north nlat * 3) ->
  work_rows pl jrow -> length spec = tri T -> length out = list_sum pl -> length oc = nlat -> length os = nlat ->
  exists basis g spec', reduced_basis nlat T theta len junk work km pmn = Some (0%Z, basis) /\
    spectogrd code_bwd jrow pl T spec basis out = Some g /\ grdtospec code_fwd pl T g weights basis oc os = Some spec' /\
    (forall j i, 1 <= j <= nlat -> i < row_len pl j -> point pl g j i = field T spec (nth (j - 1) theta 0%R) (longitude pl j i)) /\
    forall m n, m <= n <= T -> coef T spec' m n = real_part_at_0 m (coef T spec m n).
Proof.
  intros pl T theta weights len junk work km pmn jrow spec out oc os nlat H3 HT EX FR HL HJ HW HD HP JR Hs Ho Hc Hd. assert (EX0 := EX). destruct EX as (LT & SW & SC & PT & GA).
  destruct (C113_table nlat T theta len junk work km pmn) as (basis & E & SB & HB); auto.
  destruct (C113_orthogonal nlat T theta weights basis ltac:(lia) EX0 SB HB) as [OR _].
  pose proof (tables_ok pl T theta weights basis 1 EX0 SB FR R1_neq_R0 HB) as OK.
  assert (SO : synthesis_ok pl T basis jrow) by (destruct OK; split; auto).
  destruct (C91_roundtrip pl T weights basis jrow spec out oc os SO Hs Ho (proj1 SW) Hc Hd FR OR) as (g & spec' & E1 & E2 & _ & RT).
  exists basis, g, spec'. split; auto. split; auto. split; auto. split; auto.
  destruct (C91_synthesis pl T basis jrow spec out SO Hs Ho) as (g2 & E1' & _ & V). assert (g2 = g) as -> by congruence.
  intros j i Hj Hi. rewrite V by auto. rewrite series_full by (apply FR; auto). unfold field, longitude, RS_Spec.leg, amp, over_n. cbn [fst snd]. f_equal.
  - apply sumR_ext. intros k Hk. rewrite HB by lia. reflexivity.
  - apply sumR_ext. intros k Hk. cbv zeta. do 2 f_equal; f_equal; apply sumR_ext; intros q Hq; rewrite HB by lia; reflexivity.
Qed.

Lemma derive_sumR n (f f' : nat -> R -> R) x : (forall k, k < n -> derivable_pt_lim (f k) x (f' k x)) -> derivable_pt_lim (fun x => sumR n (fun k => f k x)) x (sumR n (fun k => f' k x)).
Proof.
  induction n; intros H; cbn [sumR]; [apply derivable_pt_lim_const|]. apply (derivable_pt_lim_plus (fun x => sumR n (fun k => f k x)) (f n)); auto.
Qed.
Lemma derive_cos m x : derivable_pt_lim (fun x => cos (m * x))%R x (- (m * sin (m * x)))%R.
Proof. replace (- (m * sin (m * x)))%R with (- sin (m * x) * (m * 1))%R by ring. apply (derivable_pt_lim_comp (fun x => m * x)%R cos); [apply (derivable_pt_lim_scal id); apply derivable_pt_lim_id|apply derivable_pt_lim_cos]. Qed.
Lemma derive_sin m x : derivable_pt_lim (fun x => sin (m * x))%R x (m * cos (m * x))%R.
Proof. replace (m * cos (m * x))%R with (cos (m * x) * (m * 1))%R by ring. apply (derivable_pt_lim_comp (fun x => m * x)%R sin); [apply (derivable_pt_lim_scal id); apply derivable_pt_lim_id|apply derivable_pt_lim_sin]. Qed.
Definition damp (part : R * R -> R) (T : nat) (spec : list (R * R)) (m : nat) (t : R) : R := over_n T m (fun n => part (coef T spec m n) * dPbar m n t)%R.
Lemma amp_derive part T spec m t : derivable_pt_lim (amp part T spec m) t (damp part T spec m t).
Proof.
  unfold amp, damp, over_n. apply (derive_sumR (T + 1 - m) (fun k t => part (coef T spec m (m + k)) * Pbar m (m + k) t)%R (fun k t => part (coef T spec m (m + k)) * dPbar m (m + k) t)%R).
  intros k Hk. apply (derivable_pt_lim_scal (Pbar m (m + k))). apply Pbar_derive.
Qed.
(** The gradient routine returns the gradient of the field on a sphere of radius
    r: at every point, r sin(t) times the eastward component is the derivative in
    longitude, and -r times the northward one the derivative in colatitude. *)
Theorem C114_gradient : forall pl T theta weights basis r j1 j2 spec out,
  exact_rule (length pl) theta weights -> sized (length pl) (tri T) basis -> full_rows pl T -> r <> 0%R ->
  (forall j m n, 1 <= j <= length pl -> m <= n <= T -> entry T basis j m n = Pbar m n (nth (j - 1) theta 0%R)) ->
  work_rows pl j1 -> work_rows pl j2 -> length spec = tri T -> length (fst out) = list_sum pl -> length (snd out) = list_sum pl ->
  exists u v, getgrad code_bwd j1 j2 pl T spec basis (legendre_derivative (length pl) T (at_row theta) basis) (sin_theta_of theta) r out = Some (u, v) /\
    forall j i, 1 <= j <= length pl -> i < row_len pl j ->
      let t := nth (j - 1) theta 0%R in let x := longitude pl j i in
      derivable_pt_lim (fun x => field T spec t x) x (r * sin t * point pl u j i)%R /\
      derivable_pt_lim (fun t => field T spec t x) t (- r * point pl v j i)%R.
Proof.
  intros pl T theta weights basis r j1 j2 spec out EX SB FR HR HB J1 J2 Hs O1 O2. pose proof (tables_ok pl T theta weights basis r EX SB FR HR HB) as OK. destruct EX as (LT & SW & SC & PT & GA).
  destruct (C113_derivative (length pl) T (at_row theta) basis SB PT HB) as [_ DB]. rewrite C91_row_backward.
  destruct (C78_getgrad pl T basis _ (sin_theta_of theta) r j1 j2 spec out OK J1 J2 Hs O1 O2) as (u & v & E & _ & _ & V). exists u, v. split; [exact E|].
  intros j i Hj Hi t x. destruct (V j i Hj Hi) as [VU VV]. rewrite VU, VV, !series_full by (apply FR; auto). fold (longitude pl j i). fold x.
  assert (S0 : sin t <> 0%R) by (destruct (PT j Hj) as [A B]; pose proof (sin_gt_0 _ A B); unfold t; lra).
  assert (EA : forall m, m <= T -> RS_Spec.leg T spec basis j m = (amp fst T spec m t, amp snd T spec m t)).
  { intros m Hm. unfold RS_Spec.leg, amp, over_n. f_equal; apply sumR_ext; intros k Hk; rewrite HB by lia; reflexivity. }
  assert (ED : forall m, m <= T -> RS_Spec.leg T spec (legendre_derivative (length pl) T (at_row theta) basis) j m = (damp fst T spec m t, damp snd T spec m t)).
  { intros m Hm. unfold RS_Spec.leg, damp, over_n. f_equal; apply sumR_ext; intros k Hk; f_equal; exact (uniqueness_limite _ _ _ _ (DB j m (m + k) Hj ltac:(lia)) (Pbar_derive m (m + k) _)). }
  split.
  - replace (r * sin t * _)%R with (0 + sumR T (fun k => 2 * (amp fst T spec (S k) t * - (INR (S k) * sin (INR (S k) * x)) - amp snd T spec (S k) t * (INR (S k) * cos (INR (S k) * x)))))%R.
    + apply (derivable_pt_lim_plus (fct_cte (amp fst T spec 0 t)) (fun x => sumR T (fun k => 2 * (amp fst T spec (S k) t * cos (INR (S k) * x) - amp snd T spec (S k) t * sin (INR (S k) * x))))%R); [apply derivable_pt_lim_const|].
      apply (derive_sumR T (fun k x => 2 * (amp fst T spec (S k) t * cos (INR (S k) * x) - amp snd T spec (S k) t * sin (INR (S k) * x)))%R (fun k x => 2 * (amp fst T spec (S k) t * - (INR (S k) * sin (INR (S k) * x)) - amp snd T spec (S k) t * (INR (S k) * cos (INR (S k) * x))))%R).
      intros k Hk. apply (derivable_pt_lim_scal (fun x => amp fst T spec (S k) t * cos (INR (S k) * x) - amp snd T spec (S k) t * sin (INR (S k) * x))%R).
      apply (derivable_pt_lim_minus (fun x => amp fst T spec (S k) t * cos (INR (S k) * x))%R (fun x => amp snd T spec (S k) t * sin (INR (S k) * x))%R); [apply (derivable_pt_lim_scal (fun x => cos (INR (S k) * x))%R); apply derive_cos|apply (derivable_pt_lim_scal (fun x => sin (INR (S k) * x))%R); apply derive_sin].
    + rewrite Rmult_plus_distr_l, <- sumR_scal. f_equal.
      * unfold east. cbn [fst INR]. unfold Rdiv. ring.
      * apply sumR_ext. intros k Hk. cbv zeta. rewrite EA by lia. unfold east. cbn [fst snd]. rewrite sin_theta_row by lia. fold t. field. auto.
  - replace (- r * _)%R with (damp fst T spec 0 t + sumR T (fun k => 2 * (cos (INR (S k) * x) * damp fst T spec (S k) t - sin (INR (S k) * x) * damp snd T spec (S k) t)))%R.
    + unfold field. apply (derivable_pt_lim_plus (amp fst T spec 0) (fun t => sumR T (fun k => 2 * (amp fst T spec (S k) t * cos (INR (S k) * x) - amp snd T spec (S k) t * sin (INR (S k) * x))))%R); [apply amp_derive|].
      apply (derive_sumR T (fun k t => 2 * (amp fst T spec (S k) t * cos (INR (S k) * x) - amp snd T spec (S k) t * sin (INR (S k) * x)))%R (fun k t => 2 * (cos (INR (S k) * x) * damp fst T spec (S k) t - sin (INR (S k) * x) * damp snd T spec (S k) t))%R).
      intros k Hk. apply (derivable_pt_lim_scal (fun t => amp fst T spec (S k) t * cos (INR (S k) * x) - amp snd T spec (S k) t * sin (INR (S k) * x))%R).
      apply (derivable_pt_lim_minus (fun t => amp fst T spec (S k) t * cos (INR (S k) * x))%R (fun t => amp snd T spec (S k) t * sin (INR (S k) * x))%R).
      * apply (lim_ext (fun t => cos (INR (S k) * x) * amp fst T spec (S k) t)%R); [intros; ring|]. apply (derivable_pt_lim_scal (amp fst T spec (S k))). apply amp_derive.
      * apply (lim_ext (fun t => sin (INR (S k) * x) * amp snd T spec (S k) t)%R); [intros; ring|]. apply (derivable_pt_lim_scal (amp snd T spec (S k))). apply amp_derive.
    + rewrite Rmult_plus_distr_l, <- sumR_scal. f_equal.
      * rewrite ED by lia. unfold RS_Spec.north. cbn [fst]. field. auto.
      * apply sumR_ext. intros k Hk. cbv zeta. rewrite ED by lia. unfold RS_Spec.north. cbn [fst snd]. field. auto.
Qed.

(** Vorticity and divergence of the winds made from two spectra are those
    spectra, without the mean and the imaginary parts of order 0. *)
Theorem C114_winds : forall pl T theta weights basis r j1 j2 j3 j4 zspec dspec f1 f2 gout old out,
  2 <= T < length pl -> exact_rule (length pl) theta weights -> sized (length pl) (tri T) basis -> full_rows pl T -> r <> 0%R ->
  (forall j m n, 1 <= j <= length pl -> m <= n <= T -> entry T basis j m n = Pbar m n (nth (j - 1) theta 0%R)) ->
  work_rows pl j1 -> work_rows pl j2 -> work_rows pl j3 -> work_rows pl j4 ->
  length zspec = tri T -> length dspec = tri T -> length f1 = tri T -> length f2 = tri T -> (Z.of_nat (tri T) < 2 ^ 31)%Z ->
  length (fst (fst gout)) = list_sum pl -> length (snd (fst gout)) = list_sum pl -> length (fst (snd gout)) = list_sum pl -> length (snd (snd gout)) = list_sum pl ->
  old_ok pl old -> (mirrored pl -> increasing_to_equator pl) -> length (fst out) = tri T -> length (snd out) = tri T ->
  let dbasis := legendre_derivative (length pl) T (at_row theta) basis in
  exists u v z d, getuv code_bwd j1 j2 j3 j4 pl T zspec dspec f1 f2 basis dbasis (sin_theta_of theta) r gout = Some (u, v) /\
    getvrtdivspec code_fwd pl T u v weights basis dbasis (sin_theta_of theta) r old out = Some (z, d) /\
    forall m n, m <= n <= T ->
      coef T z m n = (if n =? 0 then (0, 0)%R else real_part_at_0 m (coef T zspec m n)) /\
      coef T d m n = (if n =? 0 then (0, 0)%R else real_part_at_0 m (coef T dspec m n)).
Proof.
  intros pl T theta weights basis r j1 j2 j3 j4 zspec dspec f1 f2 gout old out HT EX SB FR HR HB J1 J2 J3 J4 Hz Hd F1 F2 H31 O1 O2 O3 O4 OLD INC Z1 Z2 dbasis.
  pose proof (tables_ok pl T theta weights basis r EX SB FR HR HB) as OK.
  destruct (C113_orthogonal (length pl) T theta weights basis ltac:(lia) EX SB HB) as [_ GO]. destruct EX as (LT & (LW & SW) & _).
  assert (EV : even_rows (length pl) weights).
  { intros j Hj. unfold row_value. replace (length pl + 1 - j - 1) with (length pl - 1 - (j - 1)) by lia. apply SW. lia. }
  destruct (C91_winds pl T weights basis dbasis (sin_theta_of theta) r j1 j2 j3 j4 zspec dspec f1 f2 gout old out) as (u & v & z & d & E1 & _ & _ & E2 & V); auto.
  exists u, v, z, d. auto.
Qed.

(** Exact points exist for every number of latitudes from three on. *)
Theorem C113_rule_exists : forall nlat, 3 <= nlat -> (INR nlat <= 2 ^ 53)%R -> exists theta weights, exact_rule nlat theta weights.
Proof.
  intros nlat H3 HB. destruct (C102_exists nlat H3) as (zs & LZ & ND & FA).
  assert (H2 : 2 * (nlat / 2) <= nlat <= 2 * (nlat / 2) + 1) by (pose proof (Nat.div_mod nlat 2 ltac:(lia)); pose proof (Nat.mod_upper_bound nlat 2 ltac:(lia)); lia).
  assert (HN : (nlat + 1) / 2 <= nlat - nlat / 2) by (apply Nat.lt_succ_r; apply Nat.div_lt_upper_bound; lia).
  destruct (C100_polynomial nlat (nlat / 2) (repeat 0%R nlat) (repeat 0%R nlat)) as (cz & cp & dcp & E & _); try rewrite repeat_length; try lia.
  destruct (C102_rule nlat (repeat 0%R nlat) (repeat 0%R nlat) cz cp dcp zs) as (th & wt & _ & LT & LW & FZ & SC & SW & GA); auto using repeat_length.
  exists th, wt. split; [exact LT|]. split; [exact SW|]. split; [exact SC|]. split; [|exact GA].
  pose proof PI_RGT_0 as P0.
  assert (A : forall j, 1 <= j <= nlat / 2 -> (0 < nth (j - 1) th 0 < PI / 2)%R).
  { intros j Hj. rewrite <- (firstn_skipn (nlat / 2) th), FZ, app_nth1 by lia. rewrite Forall_forall in FA. apply FA. apply nth_In. lia. }
  intros j Hj. destruct (le_lt_dec j (nlat / 2)) as [L|L]; [specialize (A j ltac:(lia)); lra|].
  pose proof (SC j Hj) as S. cbv beta in S. destruct (le_lt_dec (nlat + 1 - j) (nlat / 2)) as [M|M]; [specialize (A (nlat + 1 - j) ltac:(lia)); lra|].
  assert (EJ : nlat + 1 - j = j) by lia. rewrite EJ in S. lra.
Qed.
(** Three latitudes: the exact rule of C98. *)
Lemma theta3_rule : exact_rule 3 theta3 weights3.
Proof.
  split; [reflexivity|]. split; [|split; [exact theta3_symmetric|split; [|exact theta3_gaussian]]].
  - split; [reflexivity|]. intros q Hq. destruct q as [|[|[|]]]; try lia; reflexivity.
  - intros j Hj. destruct theta3_cos as (E0 & _). pose proof PI_RGT_0. assert (A : (-1 < a < 1)%R) by (pose proof a2; split; nra).
    assert (B : (0 < acos a < PI)%R) by (apply acos_bound_lt; lra). destruct j as [|[|[|[|]]]]; try lia; cbn; lra.
Qed.
Example C113_example : exists basis, reduced_basis 3 2 theta3 3 (repeat 7%R 6) (repeat 8%R 2) (3, 1, 2) (repeat 9%R 18) = Some (0%Z, basis) /\
  entry 2 basis 3 1 2 = (- entry 2 basis 1 1 2)%R /\ entry 2 basis 2 1 2 = 0%R.
Proof.
  destruct (C113_table 3 2 theta3 3 (repeat 7%R 6) (repeat 8%R 2) (3, 1, 2) (repeat 9%R 18)) as (basis & E & _ & V); try lia; try reflexivity; try exact theta3_symmetric; try (red; lia); try apply le_n.
  exists basis. split; [exact E|]. rewrite !V by lia. cbn [nth Nat.sub theta3]. split.
  - rewrite Pbar_mirror by lia. cbn. ring.
  - unfold Pbar. rewrite cos_PI2. cbn. ring.
Qed.
Lemma rows686 : full_rows [6; 8; 6] 2.
Proof. intros j Hj. destruct (rows3 j Hj) as [E|[E|E]]; subst j; cbn; lia. Qed.
Lemma work686 x : work_rows [6; 8; 6] (fun _ => repeat x 8).
Proof. intros j k Hk. rewrite repeat_length. destruct (rows3 k Hk) as [E|[E|E]]; subst k; cbn; lia. Qed.
Example C114_example : exists basis g spec', reduced_basis 3 2 theta3 3 (repeat 7%R 6) (repeat 8%R 2) (3, 1, 2) (repeat 9%R 18) = Some (0%Z, basis) /\
  spectogrd code_bwd (fun _ => repeat 7%R 8) [6; 8; 6] 2 wave22 basis (repeat 0%R 20) = Some g /\
  grdtospec code_fwd [6; 8; 6] 2 g weights3 basis (repeat [] 3) (repeat [] 3) = Some spec' /\ coef 2 spec' 2 2 = coef 2 wave22 2 2.
Proof.
  assert (W : work_rows [6; 8; 6] (fun _ => repeat 7%R 8)) by apply work686.
  destruct (C114_roundtrip [6; 8; 6] 2 theta3 weights3 3 (repeat 7%R 6) (repeat 8%R 2) (3, 1, 2) (repeat 9%R 18) (fun _ => repeat 7%R 8) wave22 (repeat 0%R 20) (repeat [] 3) (repeat [] 3)
    (le_n 3) (conj (le_n 2) (le_n 3)) theta3_rule rows686 (le_n 3) eq_refl (le_n 2) ltac:(red; lia) eq_refl W eq_refl eq_refl eq_refl eq_refl) as (basis & g & spec' & E & E1 & E2 & _ & V).
  exists basis, g, spec'. split; [exact E|]. split; [exact E1|]. split; [exact E2|]. rewrite V by lia. unfold real_part_at_0. cbn [Nat.eqb]. now rewrite <- surjective_pairing.
Qed.
(** The hypotheses of C114_gradient and C114_winds on the same grid, with the
    table of the code; the eastward derivative of the order 2 wave. *)
Example C114_gradient_example : exists basis u v, reduced_basis 3 2 theta3 3 (repeat 7%R 6) (repeat 8%R 2) (3, 1, 2) (repeat 9%R 18) = Some (0%Z, basis) /\
  getgrad code_bwd (fun _ => repeat 7%R 8) (fun _ => repeat 5%R 8) [6; 8; 6] 2 wave22 basis (legendre_derivative 3 2 (at_row theta3) basis) (sin_theta_of theta3) 2 (repeat 0%R 20, repeat 0%R 20) = Some (u, v) /\
  derivable_pt_lim (fun x => field 2 wave22 (PI / 2) x) 0 (2 * point [6; 8; 6]%nat u 2%nat 0%nat)%R.
Proof.
  destruct (C113_table 3 2 theta3 3 (repeat 7%R 6) (repeat 8%R 2) (3, 1, 2) (repeat 9%R 18)) as (basis & E & SB & V); try lia; try reflexivity; try exact theta3_symmetric; try (red; lia); try apply le_n.
  destruct (C114_gradient [6; 8; 6] 2 theta3 weights3 basis 2%R (fun _ => repeat 7%R 8) (fun _ => repeat 5%R 8) wave22 (repeat 0%R 20, repeat 0%R 20)) as (u & v & G & DG); auto; [exact theta3_rule|exact rows686|apply work686|apply work686|].
  exists basis, u, v. split; [exact E|]. split; [exact G|]. destruct (DG 2 0 ltac:(cbn; lia) ltac:(cbn; lia)) as [DX _]. cbn [nth Nat.sub theta3] in DX. rewrite sin_PI2 in DX.
  replace (longitude [6; 8; 6] 2 0) with 0%R in DX by (unfold longitude; cbn [INR]; unfold Rdiv; ring). replace (2 * 1 * point [6; 8; 6]%nat u 2%nat 0%nat)%R with (2 * point [6; 8; 6]%nat u 2%nat 0%nat)%R in DX by ring. exact DX.
Qed.
Example C114_winds_example : exists basis u v z d, reduced_basis 3 2 theta3 3 (repeat 7%R 6) (repeat 8%R 2) (3, 1, 2) (repeat 9%R 18) = Some (0%Z, basis) /\
  (let W := {| w_uc := repeat (1%R :: nil) 3; w_us := repeat (2%R :: nil) 3; w_vc := repeat (3%R :: nil) 3; w_vs := repeat (4%R :: nil) 3 |} in let Z0 := repeat 0%R 20 in let j := fun _ : nat => repeat 7%R 8 in let c := repeat (0, 0)%R 6 in
   let db := legendre_derivative 3 2 (at_row theta3) basis in
   getuv code_bwd j j j j [6; 8; 6] 2 wave22 wave22 c c basis db (sin_theta_of theta3) 2 ((Z0, Z0), (Z0, Z0)) = Some (u, v) /\
   getvrtdivspec code_fwd [6; 8; 6] 2 u v weights3 basis db (sin_theta_of theta3) 2 W (c, c) = Some (z, d)) /\
  coef 2 z 2 2 = coef 2 wave22 2 2.
Proof.
  destruct (C113_table 3 2 theta3 3 (repeat 7%R 6) (repeat 8%R 2) (3, 1, 2) (repeat 9%R 18)) as (basis & E & SB & V); try lia; try reflexivity; try exact theta3_symmetric; try (red; lia); try apply le_n.
  set (W := {| w_uc := repeat (1%R :: nil) 3; w_us := repeat (2%R :: nil) 3; w_vc := repeat (3%R :: nil) 3; w_vs := repeat (4%R :: nil) 3 |}). set (Z0 := repeat 0%R 20).
  destruct (C114_winds [6; 8; 6] 2 theta3 weights3 basis 2%R (fun _ => repeat 7%R 8) (fun _ => repeat 7%R 8) (fun _ => repeat 7%R 8) (fun _ => repeat 7%R 8) wave22 wave22 (repeat (0, 0)%R 6) (repeat (0, 0)%R 6)
    ((Z0, Z0), (Z0, Z0)) W (repeat (0, 0)%R 6, repeat (0, 0)%R 6)) as (u & v & z & d & G1 & G2 & VW); try reflexivity; auto; try apply work686; try exact rows686; try exact theta3_rule; [ |intros _ i j Hi Hj; cbn in Hj; assert (i = 1 /\ j = 1) as [-> ->] by lia; auto|].
  { split; try reflexivity; intros l Hl; apply repeat_spec in Hl; subst l; discriminate. }
  exists basis, u, v, z, d. split; [exact E|]. split; [split; [exact G1|exact G2]|]. destruct (VW 2 2 ltac:(lia)) as [VZ _]. rewrite VZ. cbn [Nat.eqb]. unfold real_part_at_0. cbn [Nat.eqb]. now rewrite <- surjective_pairing.
Qed.

Print Assumptions C113_table.
Print Assumptions C113_derivative.
Print Assumptions C113_orthogonal.
Print Assumptions C113_rule_exists.
Print Assumptions C114_roundtrip.
Print Assumptions C114_gradient.
Print Assumptions C114_winds.
