(** IEEE operations of Floats.SpecFloat read as rounded real operations (through
    Flocq), and the chain of roundings that recovers the truncation. *)
From Coq Require Import ZArith Reals Lia Lra Psatz SpecFloat Bool.
From Flocq Require Relative.
From Flocq Require Import Core BinarySingleNaN.
From Verif Require Import Base SH_Model.
Local Close Scope Qc_scope.
Local Open Scope R_scope.

Section Val.
Variables prec emax : Z.
Context (Hp : Prec_gt_0 prec) (He : Prec_lt_emax prec emax).
Notation bf := (binary_float prec emax).
Definition rnd (x : R) : R := round radix2 (SpecFloat.fexp prec emax) ZnearestE x.
(** [x] is the finite number [r] *)
Definition val (x : spec_float) (r : R) : Prop := exists b : bf, B2SF b = x /\ is_finite b = true /\ B2R b = r.

Lemma rne s m l : round_nearest_even m l = choice_mode mode_NE s m l.
Proof. case l; [reflexivity|intro c]. case c; [|reflexivity..]. simpl; unfold Round.cond_incr; case Z.even; reflexivity. Qed.
Lemma aux_equiv sx mx ex lx :
  SpecFloat.binary_round_aux prec emax sx mx ex lx = BinarySingleNaN.binary_round_aux prec emax mode_NE sx mx ex lx.
Proof.
  unfold SpecFloat.binary_round_aux, BinarySingleNaN.binary_round_aux. set (m' := shr_fexp _ _ _ _ _). case m'; intros mrs' e'; simpl. rewrite (rne sx). reflexivity.
Qed.
Lemma round_equiv s m e : SpecFloat.binary_round prec emax s m e = BinarySingleNaN.binary_round prec emax mode_NE s m e.
Proof.
  unfold SpecFloat.binary_round, BinarySingleNaN.binary_round, shl_align_fexp. set (mez := shl_align _ _ _); case mez as [mz ez]. apply aux_equiv.
Qed.
Lemma normalize_equiv m e s :
  SpecFloat.binary_normalize prec emax m e s = B2SF (BinarySingleNaN.binary_normalize prec emax Hp He mode_NE m e s).
Proof. case m as [|p|p]; [reflexivity|..]; simpl; rewrite B2SF_SF2B; apply round_equiv. Qed.

Lemma val_normalize m e s : Rabs (rnd (F2R (Float radix2 m e))) < bpow radix2 emax ->
  val (SpecFloat.binary_normalize prec emax m e s) (rnd (F2R (Float radix2 m e))).
Proof.
  intro H. pose proof (binary_normalize_correct prec emax Hp He mode_NE m e s) as C. cbv zeta in C.
  rewrite Rlt_bool_true in C by exact H. destruct C as (C1 & C2 & _).
  exists (BinarySingleNaN.binary_normalize prec emax Hp He mode_NE m e s). rewrite normalize_equiv. auto.
Qed.
Lemma val_add x y a b : val x a -> val y b -> Rabs (rnd (a + b)) < bpow radix2 emax -> val (SFadd prec emax x y) (rnd (a + b)).
Proof.
  intros (u & Ux & Fu & Ru) (v & Vy & Fv & Rv) H. subst x y a b.
  pose proof (Bplus_correct prec emax Hp He mode_NE u v Fu Fv) as C. rewrite Rlt_bool_true in C by exact H. destruct C as (C1 & C2 & _).
  exists (Bplus mode_NE u v). split; [|auto]. clear C1 C2 H.
  destruct u as [su|su| |su mu eu Bu]; destruct v as [sv|sv| |sv mv ev Bv]; try discriminate; try (simpl; case Bool.eqb; reflexivity); try reflexivity.
  symmetry. apply normalize_equiv.
Qed.
Lemma val_sub x y a b : val x a -> val y b -> Rabs (rnd (a - b)) < bpow radix2 emax -> val (SFsub prec emax x y) (rnd (a - b)).
Proof.
  intros (u & Ux & Fu & Ru) (v & Vy & Fv & Rv) H. subst x y a b.
  pose proof (Bminus_correct prec emax Hp He mode_NE u v Fu Fv) as C. rewrite Rlt_bool_true in C by exact H. destruct C as (C1 & C2 & _).
  exists (Bminus mode_NE u v). split; [|auto]. clear C1 C2 H.
  destruct u as [su|su| |su mu eu Bu]; destruct v as [sv|sv| |sv mv ev Bv]; try discriminate; try (simpl; case Bool.eqb; reflexivity); try reflexivity.
  simpl. unfold Zminus. rewrite <- cond_Zopp_negb. symmetry. apply normalize_equiv.
Qed.
Lemma val_mul x y a b : val x a -> val y b -> Rabs (rnd (a * b)) < bpow radix2 emax -> val (SFmul prec emax x y) (rnd (a * b)).
Proof.
  intros (u & Ux & Fu & Ru) (v & Vy & Fv & Rv) H. subst x y a b.
  pose proof (Bmult_correct prec emax Hp He mode_NE u v) as C. rewrite Rlt_bool_true in C by exact H. destruct C as (C1 & C2 & _).
  exists (Bmult mode_NE u v). split; [|rewrite C2, Fu, Fv; auto]. clear C1 C2 H.
  destruct u as [su|su| |su mu eu Bu]; destruct v as [sv|sv| |sv mv ev Bv]; try discriminate; try reflexivity.
  simpl. rewrite B2SF_SF2B. symmetry. apply aux_equiv.
Qed.
Lemma val_sqrt x a : val x a -> 0 < a -> val (SFsqrt prec emax x) (rnd (R_sqrt.sqrt a)).
Proof.
  intros (u & Ux & Fu & Ru) H. subst x a.
  pose proof (Bsqrt_correct prec emax Hp He mode_NE u) as (C1 & C2 & _).
  destruct u as [su|su| |su mu eu Bu]; try discriminate; [cbn in H; lra|].
  destruct su. { exfalso. apply (Rlt_asym _ _ H). cbn [B2R]. apply F2R_lt_0. reflexivity. }
  exists (Bsqrt mode_NE (B754_finite false mu eu Bu)). split; [|auto]. clear C1 C2 H.
  simpl. rewrite B2SF_SF2B. set (melz := SFsqrt_core_binary _ _ _ _). case melz as [[mz ez] lz]. symmetry. apply aux_equiv.
Qed.
Lemma val_to_int x r : val x r -> to_int x = Some (Ztrunc r).
Proof.
  intros (b & <- & F & <-). destruct b as [s|s| |s m e B]; try discriminate.
  - cbn. rewrite (Ztrunc_IZR 0). reflexivity.
  - cbn [B2SF to_int B2R]. f_equal.
    assert (P : forall w, (match e with Z0 => Z.pos m | Zpos p => Z.pos m * 2 ^ Zpos p | Zneg p => Z.pos m / 2 ^ Zpos p end)%Z = w ->
       Ztrunc (F2R (Float radix2 (Z.pos m) e)) = w).
    { intros w <-. destruct e as [|p|p].
      - unfold F2R. cbn [Fnum Fexp]. rewrite Rmult_1_r. apply Ztrunc_IZR.
      - unfold F2R. cbn [Fnum Fexp]. rewrite <- IZR_Zpower by lia. rewrite <- mult_IZR. apply Ztrunc_IZR.
      - rewrite Ztrunc_floor by (apply F2R_ge_0; cbn; lia). apply Zfloor_imp. unfold F2R. cbn [Fnum Fexp].
        assert (Q : (0 < 2 ^ Z.pos p)%Z) by (apply Z.pow_pos_nonneg; lia).
        rewrite <- (Z.opp_involutive (Z.neg p)), bpow_opp. cbn [Z.opp]. rewrite <- IZR_Zpower by lia.
        change (radix2 ^ Z.pos p)%Z with (2 ^ Z.pos p)%Z in *.
        pose proof (Z.div_mod (Z.pos m) (2 ^ Z.pos p) ltac:(lia)) as D. pose proof (Z.mod_pos_bound (Z.pos m) (2 ^ Z.pos p) Q) as M.
        set (q := (Z.pos m / 2 ^ Z.pos p)%Z) in *. apply IZR_lt in Q.
        assert (L1 : (2 ^ Z.pos p * q <= Z.pos m)%Z) by lia. assert (L2 : (Z.pos m < 2 ^ Z.pos p * (q + 1))%Z) by lia.
        apply IZR_le in L1. apply IZR_lt in L2. rewrite mult_IZR in L1, L2. rewrite plus_IZR in *.
        split.
        + apply (Rmult_le_reg_r (IZR (2 ^ Z.pos p))); [exact Q|]. rewrite Rmult_assoc, Rinv_l by lra. lra.
        + apply (Rmult_lt_reg_r (IZR (2 ^ Z.pos p))); [exact Q|]. rewrite Rmult_assoc, Rinv_l by lra. lra. }
    destruct s; cbn [cond_Zopp].
    + change (F2R (Float radix2 (Z.neg m) e)) with (F2R (Float radix2 (- Z.pos m) e)). rewrite F2R_Zopp, Ztrunc_opp. f_equal. symmetry. apply P. reflexivity.
    + symmetry. apply P. reflexivity.
Qed.
End Val.

(** ** Rounding to nearest *)
Lemma IZR_pow2 k : (0 <= k)%Z -> IZR (2 ^ k) = bpow radix2 k.
Proof. exact (IZR_Zpower radix2 k). Qed.
Section Round.
Variables prec emax : Z.
Context (Hp : Prec_gt_0 prec) (He : Prec_lt_emax prec emax).
Hypothesis P24 : (24 <= prec)%Z.
Hypothesis E64 : (64 <= emax)%Z.
Notation fexp := (SpecFloat.fexp prec emax).
Notation rnd := (rnd prec emax).
Notation fmt := (generic_format radix2 fexp).
Local Instance vexp : Valid_exp fexp := FLT_exp_valid (SpecFloat.emin prec emax) prec.
Lemma emin_low : (SpecFloat.emin prec emax <= -40)%Z.
Proof. unfold SpecFloat.emin. lia. Qed.

Lemma fmt_scaled z e : (Z.abs z < 2 ^ prec)%Z -> (-40 <= e)%Z -> fmt (IZR z * bpow radix2 e).
Proof.
  intros H E. apply generic_format_FLT. apply (FLT_spec radix2 (SpecFloat.emin prec emax) prec _ (Float radix2 z e)).
  - reflexivity.
  - exact H.
  - cbn. pose proof emin_low. lia.
Qed.
Lemma fmt_int z : (Z.abs z < 2 ^ prec)%Z -> fmt (IZR z).
Proof. intro H. replace (IZR z) with (IZR z * bpow radix2 0) by (cbn; ring). apply fmt_scaled; [exact H|lia]. Qed.
Lemma pow2_prec : (2 ^ 24 <= 2 ^ prec)%Z.
Proof. apply Z.pow_le_mono_r; lia. Qed.
Lemma fmt_pow e : (-40 <= e)%Z -> fmt (bpow radix2 e).
Proof. intro E. replace (bpow radix2 e) with (IZR 1 * bpow radix2 e) by ring. apply fmt_scaled; [pose proof pow2_prec; lia|exact E]. Qed.
Lemma rnd_fmt x : fmt x -> rnd x = x.
Proof. intro H. apply round_generic; [apply valid_rnd_N|exact H]. Qed.
Lemma rnd_le x y : x <= y -> rnd x <= rnd y.
Proof. intro H. apply round_le; [apply vexp|apply valid_rnd_N|exact H]. Qed.
Lemma fmt_rnd x : fmt (rnd x).
Proof. apply generic_format_round; [apply vexp|apply valid_rnd_N]. Qed.
Lemma rnd_near x f : fmt f -> Rabs (rnd x - x) <= Rabs (f - x).
Proof. intro H. apply (round_N_pt radix2 fexp (fun t => negb (Z.even t)) x). exact H. Qed.
Lemma rnd_low x f : fmt f -> f <= x -> f <= rnd x.
Proof. intros H L. rewrite <- (rnd_fmt f H). apply rnd_le, L. Qed.
Lemma rnd_high x f : fmt f -> x <= f -> rnd x <= f.
Proof. intros H L. rewrite <- (rnd_fmt f H). apply rnd_le, L. Qed.
Lemma rnd_opp x : rnd (- x) = - rnd x.
Proof. apply round_NE_opp. Qed.
Lemma rnd_bound x e : (-40 <= e)%Z -> Rabs x <= bpow radix2 e -> Rabs (rnd x) <= bpow radix2 e.
Proof. intros E H. apply abs_round_le_generic; [apply vexp|apply valid_rnd_N|apply fmt_pow, E|exact H]. Qed.
Lemma bound_emax x e : (-40 <= e <= 60)%Z -> Rabs x <= bpow radix2 e -> Rabs (rnd x) < bpow radix2 emax.
Proof. intros E H. apply Rle_lt_trans with (bpow radix2 e); [apply rnd_bound; [lia|exact H]|apply bpow_lt; lia]. Qed.
Lemma cexp_at x k : (0 <= k)%Z -> bpow radix2 k <= x < bpow radix2 (k + 1) -> cexp radix2 fexp x = (k + 1 - prec)%Z.
Proof.
  intros K H. unfold cexp. rewrite (mag_unique_pos radix2 x (k + 1)).
  - unfold SpecFloat.fexp. unfold SpecFloat.emin. assert (prec < emax)%Z by exact He. lia.
  - replace (k + 1 - 1)%Z with k by lia. exact H.
Qed.
Lemma rnd_binade x k m : (0 <= k)%Z -> bpow radix2 k <= x < bpow radix2 (k + 1) ->
  Rabs (x * bpow radix2 (prec - 1 - k) - IZR m) < / 2 -> rnd x = IZR m * bpow radix2 (k + 1 - prec).
Proof.
  intros K H M. unfold SH_Float.rnd, round. unfold scaled_mantissa. rewrite (cexp_at x k K H). unfold F2R. cbn [Fnum Fexp].
  f_equal. f_equal. apply Znearest_imp. replace (- (k + 1 - prec))%Z with (prec - 1 - k)%Z by lia. exact M.
Qed.
Lemma rnd_error x k : (0 <= k)%Z -> bpow radix2 k <= x < bpow radix2 (k + 1) -> Rabs (rnd x - x) <= bpow radix2 (k - prec).
Proof.
  intros K H. pose proof (error_le_half_ulp radix2 fexp (fun t => negb (Z.even t)) x) as E. change (round radix2 fexp (Znearest (fun t : Z => negb (Z.even t))) x) with (rnd x) in E.
  rewrite ulp_neq_0 in E by (pose proof (bpow_gt_0 radix2 k); lra). rewrite (cexp_at x k K H) in E.
  replace (k + 1 - prec)%Z with ((k - prec) + 1)%Z in E by lia. rewrite bpow_plus in E. change (bpow radix2 1) with 2 in E. lra.
Qed.

(** ** The last three roundings *)
Lemma sqrt_lower s j x : (0 <= j)%Z -> (j + 1 < prec)%Z -> bpow radix2 j + 1 <= IZR s -> IZR s < bpow radix2 (j + 1) ->
  0 < x -> (IZR s - bpow radix2 (j - prec)) * (IZR s - bpow radix2 (j - prec)) < x -> IZR s <= rnd (R_sqrt.sqrt x).
Proof.
  intros J JP L U X0 X.
  assert (B1 : 0 < bpow radix2 (j - prec) <= / 2).
  { split; [apply bpow_gt_0|]. change (/ 2) with (bpow radix2 (-1)). apply bpow_le. lia. }
  assert (G : IZR s - bpow radix2 (j - prec) < R_sqrt.sqrt x).
  { rewrite <- (R_sqrt.sqrt_square (IZR s - bpow radix2 (j - prec))) by (pose proof (bpow_gt_0 radix2 j); lra). apply sqrt_lt_1; [apply Rle_0_sqr|lra|exact X]. }
  set (z := Rmin (R_sqrt.sqrt x) (IZR s)).
  assert (Z1 : z <= R_sqrt.sqrt x) by apply Rmin_l. assert (Z2 : z <= IZR s) by apply Rmin_r.
  assert (Z3 : IZR s - bpow radix2 (j - prec) < z) by (unfold z; apply Rmin_glb_lt; lra).
  assert (E : rnd z = IZR (s * 2 ^ (prec - 1 - j)) * bpow radix2 (j + 1 - prec)).
  { apply rnd_binade; [exact J|split; lra|]. rewrite mult_IZR. rewrite (IZR_pow2 (prec - 1 - j)) by lia.
    rewrite <- Rmult_minus_distr_r, Rabs_mult, (Rabs_right (bpow _ _)) by (apply Rle_ge, bpow_ge_0).
    rewrite Rabs_left1 by lra. replace (/ 2) with (bpow radix2 (j - prec) * bpow radix2 (prec - 1 - j)).
    - apply Rmult_lt_compat_r; [apply bpow_gt_0|lra].
    - rewrite <- bpow_plus. replace (j - prec + (prec - 1 - j))%Z with (-1)%Z by lia. reflexivity. }
  assert (S : rnd z = IZR s).
  { rewrite E, mult_IZR. rewrite (IZR_pow2 (prec - 1 - j)) by lia. rewrite Rmult_assoc, <- bpow_plus.
    replace (prec - 1 - j + (j + 1 - prec))%Z with 0%Z by lia. cbn. ring. }
  rewrite <- S. apply rnd_le, Z1.
Qed.
Lemma last_three n x : (0 <= n < 2 ^ 18)%Z -> 0 < x -> IZR (2 * n + 3) <= rnd (R_sqrt.sqrt x) ->
  x <= (IZR (2 * n + 3) + / 2) * (IZR (2 * n + 3) + / 2) ->
  Ztrunc (rnd (- (3 / 2) + rnd (/ 2 * rnd (R_sqrt.sqrt x)))) = n.
Proof.
  intros N X0 L U. set (y := rnd (R_sqrt.sqrt x)) in *. pose proof pow2_prec as PP.
  assert (Np : 0 <= IZR n) by (apply IZR_le; lia).
  rewrite plus_IZR, mult_IZR in L, U.
  assert (Y : y <= IZR (4 * n + 7) * bpow radix2 (-1)).
  { apply rnd_high; [apply fmt_scaled; lia|]. change (bpow radix2 (-1)) with (/ 2). rewrite plus_IZR, mult_IZR.
    apply Rsqr_incr_0_var; [|lra]. rewrite Rsqr_sqrt by lra. unfold Rsqr. replace ((4 * IZR n + 7) * / 2) with (2 * IZR n + 3 + / 2) by field. exact U. }
  change (bpow radix2 (-1)) with (/ 2) in Y. rewrite plus_IZR, mult_IZR in Y.
  assert (H1 : IZR (2 * n + 3) * bpow radix2 (-1) <= rnd (/ 2 * y)).
  { apply rnd_low; [apply fmt_scaled; lia|]. change (bpow radix2 (-1)) with (/ 2). rewrite plus_IZR, mult_IZR. lra. }
  assert (H2 : rnd (/ 2 * y) <= IZR (4 * n + 7) * bpow radix2 (-2)).
  { apply rnd_high; [apply fmt_scaled; lia|]. change (bpow radix2 (-2)) with (/ 4). rewrite plus_IZR, mult_IZR. lra. }
  change (bpow radix2 (-1)) with (/ 2) in H1. change (bpow radix2 (-2)) with (/ 4) in H2. rewrite plus_IZR, mult_IZR in H1, H2.
  set (h := rnd (/ 2 * y)) in *.
  assert (V1 : IZR n <= rnd (- (3 / 2) + h)) by (apply rnd_low; [apply fmt_int; lia|lra]).
  assert (V2 : rnd (- (3 / 2) + h) <= IZR (4 * n + 1) * bpow radix2 (-2)).
  { apply rnd_high; [apply fmt_scaled; lia|]. change (bpow radix2 (-2)) with (/ 4). rewrite plus_IZR, mult_IZR. lra. }
  change (bpow radix2 (-2)) with (/ 4) in V2. rewrite plus_IZR, mult_IZR in V2.
  rewrite Ztrunc_floor by lra. apply Zfloor_imp. rewrite plus_IZR. lra.
Qed.
(** ** The first four roundings *)
Definition r0 (nm : Z) : R := rnd (IZR nm).
Definition w0 (nm : Z) : R := rnd (r0 nm - 1).
Definition x0 (nm : Z) : R := rnd (9 + 8 * w0 nm).
Lemma fmt_times8 x : fmt x -> 8 * x = 0 \/ fmt (8 * x).
Proof.
  intro H. right. replace (8 * x) with (x * bpow radix2 3) by (cbn; ring).
  apply generic_format_FLT. apply FLT_format_generic in H; [|exact Hp]. destruct H as [f Hf H1 H2].
  apply (FLT_spec radix2 (SpecFloat.emin prec emax) prec _ (Float radix2 (Fnum f) (Fexp f + 3))).
  - rewrite Hf. unfold F2R. cbn [Fnum Fexp]. rewrite bpow_plus. ring.
  - exact H1.
  - cbn. cbn in H2. lia.
Qed.
Lemma fmt_8 x : fmt x -> fmt (8 * x).
Proof. intro H. destruct (fmt_times8 x H) as [E|E]; [rewrite E; apply (fmt_int 0); pose proof pow2_prec; lia|exact E]. Qed.
Lemma r0_bound nm : (0 <= nm < 2 ^ 31)%Z -> 0 <= r0 nm <= bpow radix2 31.
Proof.
  intro H. split.
  - apply rnd_low; [apply (fmt_int 0); pose proof pow2_prec; lia|apply IZR_le; lia].
  - apply rnd_high; [apply fmt_pow; lia|]. change (bpow radix2 31) with (IZR (2 ^ 31)). apply IZR_le. lia.
Qed.
Lemma w0_bound nm : (0 <= nm < 2 ^ 31)%Z -> -1 <= w0 nm <= bpow radix2 31.
Proof.
  intro H. pose proof (r0_bound nm H). split.
  - apply rnd_low; [apply (fmt_int (-1)); pose proof pow2_prec; lia|lra].
  - apply rnd_high; [apply fmt_pow; lia|lra].
Qed.
Lemma trunc_chain nm : (0 <= nm < 2 ^ 31)%Z -> 0 < x0 nm ->
  trunc_of prec emax nm = Some (Ztrunc (rnd (- (3 / 2) + rnd (/ 2 * rnd (R_sqrt.sqrt (x0 nm)))))).
Proof.
  intros H X. pose proof pow2_prec as PP. unfold trunc_of. apply (val_to_int prec emax).
  pose proof (r0_bound nm H) as Br. pose proof (w0_bound nm H) as Bw.
  assert (b40 : bpow radix2 40 = 512 * bpow radix2 31) by (replace 40%Z with (9 + 31)%Z by lia; rewrite bpow_plus; reflexivity).
  assert (big : 1 <= bpow radix2 31) by (change 1 with (bpow radix2 0); apply bpow_le; lia).
  assert (OI : forall z, (Z.abs z <= 2 ^ 31)%Z -> val prec emax (of_int prec emax z) (rnd (IZR z))).
  { intros z Hz. unfold of_int. assert (E : F2R (Float radix2 z 0) = IZR z) by (unfold F2R; cbn; ring). rewrite <- E. apply val_normalize; [exact Hp|exact He|].
    apply (bound_emax _ 31); [lia|]. rewrite E, <- abs_IZR. change (bpow radix2 31) with (IZR (2 ^ 31)). apply IZR_le. exact Hz. }
  assert (V1 : val prec emax (SFsub prec emax (of_int prec emax 1) (of_int prec emax nm)) (- w0 nm)).
  { unfold w0. rewrite <- rnd_opp. replace (- (r0 nm - 1)) with (1 - r0 nm) by ring.
    replace 1 with (rnd 1) at 1 by (apply rnd_fmt, (fmt_int 1); lia). apply val_sub; [exact Hp|exact He| | |].
    - apply OI. lia.
    - apply OI. lia.
    - rewrite (rnd_fmt 1) by (apply (fmt_int 1); lia). apply (bound_emax _ 40); [lia|]. apply Rabs_le. lra. }
  assert (F8 : fmt (8 * - w0 nm)) by (apply fmt_8, generic_format_opp, fmt_rnd).
  assert (V2 : val prec emax (SFmul prec emax (of_int prec emax 8) (SFsub prec emax (of_int prec emax 1) (of_int prec emax nm))) (8 * - w0 nm)).
  { rewrite <- (rnd_fmt _ F8). replace 8 with (rnd 8) at 1 by (apply rnd_fmt, (fmt_int 8); lia). apply val_mul; [exact Hp|exact He| |exact V1|].
    - apply OI. lia.
    - rewrite (rnd_fmt 8) by (apply (fmt_int 8); lia). apply (bound_emax _ 40); [lia|]. apply Rabs_le. lra. }
  assert (V3 : val prec emax (SFsub prec emax (of_int prec emax 9) (SFmul prec emax (of_int prec emax 8) (SFsub prec emax (of_int prec emax 1) (of_int prec emax nm)))) (x0 nm)).
  { unfold x0. replace (9 + 8 * w0 nm) with (9 - 8 * - w0 nm) by ring.
    replace 9 with (rnd 9) at 1 by (apply rnd_fmt, (fmt_int 9); lia). apply val_sub; [exact Hp|exact He| |exact V2|].
    - apply OI. lia.
    - rewrite (rnd_fmt 9) by (apply (fmt_int 9); lia). apply (bound_emax _ 40); [lia|]. apply Rabs_le. lra. }
  pose proof (val_sqrt prec emax Hp He _ _ V3 X) as V4.
  assert (Xb : x0 nm <= bpow radix2 40) by (apply rnd_high; [apply fmt_pow; lia|lra]).
  assert (S0 : 0 <= R_sqrt.sqrt (x0 nm)) by apply R_sqrt.sqrt_pos.
  assert (S1 : R_sqrt.sqrt (x0 nm) <= bpow radix2 40).
  { apply Rsqr_incr_0_var; [|apply bpow_ge_0]. rewrite Rsqr_sqrt by lra. apply Rle_trans with (1 := Xb). unfold Rsqr. rewrite b40. nra. }
  set (y := rnd (R_sqrt.sqrt (x0 nm))) in *.
  assert (Y0 : 0 <= y) by (apply rnd_low; [apply (fmt_int 0); lia|exact S0]).
  assert (Y1 : y <= bpow radix2 40) by (apply rnd_high; [apply fmt_pow; lia|exact S1]).
  assert (V5 : val prec emax (half_f prec emax) (/ 2)).
  { unfold half_f. replace (/ 2) with (rnd (F2R (Float radix2 1 (-1)))).
    - apply val_normalize; [exact Hp|exact He|]. apply (bound_emax _ 0); [lia|]. unfold F2R. cbn. rewrite Rabs_right; lra.
    - rewrite rnd_fmt; [unfold F2R; cbn; lra|]. unfold F2R. apply (fmt_scaled 1 (-1)); lia. }
  assert (V6 : val prec emax (m15_f prec emax) (- (3 / 2))).
  { unfold m15_f. replace (- (3 / 2)) with (rnd (F2R (Float radix2 (-3) (-1)))).
    - apply val_normalize; [exact Hp|exact He|]. apply (bound_emax _ 2); [lia|]. unfold F2R. cbn. rewrite Rabs_left; lra.
    - rewrite rnd_fmt; [unfold F2R; cbn; lra|]. unfold F2R. apply (fmt_scaled (-3) (-1)); lia. }
  assert (V7 : val prec emax (SFmul prec emax (half_f prec emax) (SFsqrt prec emax (SFsub prec emax (of_int prec emax 9) (SFmul prec emax (of_int prec emax 8) (SFsub prec emax (of_int prec emax 1) (of_int prec emax nm)))))) (rnd (/ 2 * y))).
  { apply val_mul; [exact Hp|exact He|exact V5|exact V4|]. apply (bound_emax _ 40); [lia|]. apply Rabs_le. lra. }
  apply val_add; [exact Hp|exact He|exact V6|exact V7|].
  assert (H0 : 0 <= rnd (/ 2 * y)) by (apply rnd_low; [apply (fmt_int 0); lia|lra]).
  assert (H1 : rnd (/ 2 * y) <= bpow radix2 40) by (apply rnd_high; [apply fmt_pow; lia|lra]).
  apply (bound_emax _ 40); [lia|]. apply Rabs_le. lra.
Qed.
(** Nothing is rounded before the square root as long as [8*nm+1] fits the significand. *)
Lemma x0_exact nm : (1 <= nm)%Z -> (8 * nm + 1 < 2 ^ prec)%Z -> x0 nm = IZR (8 * nm + 1).
Proof.
  intros H1 H2. pose proof pow2_prec as PP. assert (R : r0 nm = IZR nm) by (apply rnd_fmt, fmt_int; lia).
  assert (W : w0 nm = IZR (nm - 1)) by (unfold w0; rewrite R, minus_IZR; change (IZR 1) with 1; rewrite <- minus_IZR; apply rnd_fmt, fmt_int; lia).
  unfold x0. rewrite W. replace (9 + 8 * IZR (nm - 1)) with (IZR (8 * nm + 1)) by (rewrite minus_IZR, plus_IZR, mult_IZR; ring). apply rnd_fmt, fmt_int. lia.
Qed.
Lemma exact_any nm n e : (1 <= nm < 2 ^ 31)%Z -> (8 * nm + 1 < 2 ^ prec)%Z -> (0 <= n)%Z -> (0 <= e <= 30)%Z ->
  ((2 * n + 3) * (2 * n + 3) <= 8 * nm + 1)%Z -> (8 * nm + 1 <= (2 * n + 5) * (2 * n + 5) - 8)%Z ->
  (2 * n + 5 <= 2 ^ (e + 2))%Z -> ((2 * n + 5) * 2 ^ e < 2 ^ prec)%Z ->
  trunc_of prec emax nm = Some n.
Proof.
  intros H0 H1 N Eb L U E1 E2. pose proof (x0_exact nm ltac:(lia) H1) as X. rewrite trunc_chain; [|lia|rewrite X; apply IZR_lt; lia].
  rewrite X. f_equal. pose proof pow2_prec as PP. assert (P0 : (1 <= 2 ^ e)%Z) by (apply (Z.pow_le_mono_r 2 0 e); lia).
  assert (B : forall d, (0 <= d)%Z -> IZR (2 ^ d) * bpow radix2 (- d) = 1) by (intros d D; rewrite IZR_pow2 by exact D; rewrite <- bpow_plus; replace (d + - d)%Z with 0%Z by lia; reflexivity).
  pose proof (B e ltac:(lia)) as Be. pose proof (bpow_gt_0 radix2 (- e)) as Bpos. set (c := bpow radix2 (- e)) in *.
  assert (C1 : bpow radix2 (- e - 1) = c / 2) by (unfold c; replace (- e - 1)%Z with (- e + -1)%Z by lia; rewrite bpow_plus; reflexivity).
  assert (np : 0 <= IZR n) by (apply IZR_le; lia).
  assert (T : (2 * IZR n + 5) * c <= 4).
  { apply IZR_le in E1. rewrite Z.pow_add_r, mult_IZR, plus_IZR, mult_IZR in E1 by lia. change (IZR (2 ^ 2)) with 4 in E1.
    apply Rle_trans with (IZR (2 ^ e) * 4 * c); [apply Rmult_le_compat_r; lra|]. replace (IZR (2 ^ e) * 4 * c) with (4 * (IZR (2 ^ e) * c)) by ring. rewrite Be. lra. }
  assert (L' : (2 * IZR n + 3) * (2 * IZR n + 3) <= IZR (8 * nm + 1)) by (apply IZR_le in L; rewrite mult_IZR, !plus_IZR, !mult_IZR in L; rewrite plus_IZR, mult_IZR; exact L).
  assert (U' : IZR (8 * nm + 1) <= (2 * IZR n + 5) * (2 * IZR n + 5) - 8) by (apply IZR_le in U; rewrite minus_IZR, mult_IZR, !plus_IZR, !mult_IZR in U; rewrite plus_IZR, mult_IZR; exact U).
  set (x := IZR (8 * nm + 1)) in *.
  assert (x1 : 0 < x) by nra.
  assert (y1 : 2 * IZR n + 3 <= rnd (R_sqrt.sqrt x)).
  { replace (2 * IZR n + 3) with (IZR (2 * n + 3)) by (rewrite plus_IZR, mult_IZR; reflexivity). apply rnd_low; [apply fmt_int; nia|].
    rewrite plus_IZR, mult_IZR. rewrite <- (R_sqrt.sqrt_square (2 * IZR n + 3)) by lra. apply sqrt_le_1_alt. exact L'. }
  assert (y2 : rnd (R_sqrt.sqrt x) <= 2 * IZR n + 5 - c).
  { replace (2 * IZR n + 5 - c) with (IZR ((2 * n + 5) * 2 ^ e - 1) * c).
    - apply rnd_high; [apply fmt_scaled; nia|].
      rewrite minus_IZR, mult_IZR, plus_IZR, mult_IZR. apply Rsqr_incr_0_var.
      + rewrite Rsqr_sqrt by lra. apply Rle_trans with (1 := U').
        replace (((2 * IZR n + 5) * IZR (2 ^ e) - 1) * c) with ((2 * IZR n + 5) * (IZR (2 ^ e) * c) - c) by ring. rewrite Be. unfold Rsqr. nra.
      + replace (((2 * IZR n + 5) * IZR (2 ^ e) - 1) * c) with ((2 * IZR n + 5) * (IZR (2 ^ e) * c) - c) by ring. rewrite Be. nra.
    - rewrite minus_IZR, mult_IZR, plus_IZR, mult_IZR. replace (((2 * IZR n + 5) * IZR (2 ^ e) - 1) * c) with ((2 * IZR n + 5) * (IZR (2 ^ e) * c) - c) by ring. rewrite Be. ring. }
  set (y := rnd (R_sqrt.sqrt x)) in *.
  assert (h1 : IZR (2 * n + 3) * bpow radix2 (-1) <= rnd (/ 2 * y)).
  { apply rnd_low; [apply fmt_scaled; [nia|lia]|]. change (bpow radix2 (-1)) with (/ 2). rewrite plus_IZR, mult_IZR. lra. }
  change (bpow radix2 (-1)) with (/ 2) in h1. rewrite plus_IZR, mult_IZR in h1.
  assert (h2 : rnd (/ 2 * y) <= (2 * IZR n + 5 - c) / 2).
  { replace ((2 * IZR n + 5 - c) / 2) with (IZR ((2 * n + 5) * 2 ^ e - 1) * bpow radix2 (- e - 1)).
    - apply rnd_high; [apply fmt_scaled; [nia|lia]|]. rewrite C1, minus_IZR, mult_IZR, plus_IZR, mult_IZR.
      replace (((2 * IZR n + 5) * IZR (2 ^ e) - 1) * (c / 2)) with (((2 * IZR n + 5) * (IZR (2 ^ e) * c) - c) / 2) by field. rewrite Be. lra.
    - rewrite C1, minus_IZR, mult_IZR, plus_IZR, mult_IZR.
      replace (((2 * IZR n + 5) * IZR (2 ^ e) - 1) * (c / 2)) with (((2 * IZR n + 5) * (IZR (2 ^ e) * c) - c) / 2) by field. rewrite Be. field. }
  set (h := rnd (/ 2 * y)) in *.
  assert (v1 : IZR n <= rnd (- (3 / 2) + h)) by (apply rnd_low; [apply fmt_int; nia|lra]).
  assert (v2 : rnd (- (3 / 2) + h) <= IZR n + 1 - c / 2).
  { replace (IZR n + 1 - c / 2) with (IZR ((2 * n + 2) * 2 ^ e - 1) * bpow radix2 (- e - 1)).
    - apply rnd_high; [apply fmt_scaled; [nia|lia]|]. rewrite C1, minus_IZR, mult_IZR, plus_IZR, mult_IZR.
      replace (((2 * IZR n + 2) * IZR (2 ^ e) - 1) * (c / 2)) with (((2 * IZR n + 2) * (IZR (2 ^ e) * c) - c) / 2) by field. rewrite Be. lra.
    - rewrite C1, minus_IZR, mult_IZR, plus_IZR, mult_IZR.
      replace (((2 * IZR n + 2) * IZR (2 ^ e) - 1) * (c / 2)) with (((2 * IZR n + 2) * (IZR (2 ^ e) * c) - c) / 2) by field. rewrite Be. field. }
  rewrite Ztrunc_floor by lra. apply Zfloor_imp. rewrite plus_IZR. lra.
Qed.
(** ** Upper bound on the argument of the square root *)
Lemma rnd_rel x : 1 <= x -> rnd x <= x * (1 + bpow radix2 (- prec)).
Proof.
  intro H. pose proof (Relative.relative_error_N_FLT radix2 (SpecFloat.emin prec emax) prec Hp (fun t => negb (Z.even t)) x) as E.
  assert (D : bpow radix2 (SpecFloat.emin prec emax + prec - 1) <= Rabs x).
  { rewrite Rabs_right by lra. apply Rle_trans with (bpow radix2 0); [apply bpow_le; unfold SpecFloat.emin; assert (prec < emax)%Z by exact He; lia|cbn; lra]. }
  specialize (E D). change (round radix2 (FLT_exp (SpecFloat.emin prec emax) prec) (Znearest (fun t : Z => negb (Z.even t))) x) with (rnd x) in E.
  rewrite bpow_plus in E. change (bpow radix2 1) with 2 in E. rewrite (Rabs_right x) in E by lra.
  apply Rabs_le_inv in E. lra.
Qed.
Lemma x0_upper nm s : (1 <= nm < 2 ^ 31)%Z -> (s * s = 8 * nm + 1)%Z -> (9 <= s)%Z -> x0 nm <= (IZR s + / 2) * (IZR s + / 2).
Proof.
  intros H E S. pose proof pow2_prec as PP.
  assert (c0 : 0 < bpow radix2 (- prec) <= / 16777216).
  { split; [apply bpow_gt_0|]. change (/ 16777216) with (bpow radix2 (-24)). apply bpow_le. lia. }
  set (c := bpow radix2 (- prec)) in *.
  assert (n1 : 1 <= IZR nm) by (apply IZR_le; lia).
  assert (r1 : r0 nm <= IZR nm * (1 + c)) by (apply rnd_rel; lra).
  assert (r2 : 1 <= r0 nm) by (apply rnd_low; [apply (fmt_int 1); lia|lra]).
  assert (wr : w0 nm <= r0 nm) by (apply rnd_high; [apply fmt_rnd|lra]).
  assert (w1 : 0 <= w0 nm) by (apply rnd_low; [apply (fmt_int 0); lia|lra]).
  assert (x1 : x0 nm <= (9 + 8 * w0 nm) * (1 + c)) by (apply rnd_rel; lra).
  assert (S9 : 9 <= IZR s) by (apply IZR_le; lia).
  assert (Sq : IZR s * IZR s = 8 * IZR nm + 1) by (rewrite <- !mult_IZR, E, plus_IZR, mult_IZR; reflexivity).
  assert (Sb : IZR s <= 131072) by (apply IZR_le; nia).
  assert (X2 : x0 nm <= (9 + 8 * (IZR nm * (1 + c))) * (1 + c)) by (apply Rle_trans with (1 := x1), Rmult_le_compat_r; lra).
  apply Rle_trans with (1 := X2).
  apply Rle_trans with ((9 + 8 * (IZR nm * (1 + / 16777216))) * (1 + / 16777216)).
  - apply Rmult_le_compat; [nra|lra|nra|lra].
  - replace (IZR nm) with ((IZR s * IZR s - 1) / 8) by lra. nra.
Qed.
(** ** Lower bounds *)
Lemma rnd_mult x k : (0 <= k)%Z -> bpow radix2 k <= x < bpow radix2 (k + 1) -> exists m, rnd x = IZR m * bpow radix2 (k + 1 - prec).
Proof. intros K H. eexists. unfold SH_Float.rnd, round, F2R. cbn [Fnum Fexp]. rewrite (cexp_at x k K H). reflexivity. Qed.
(** the subtraction of one is lost once one is below half a unit in the last place *)
Lemma x0_lower_big nm k : (prec < k)%Z -> (k <= 30)%Z -> bpow radix2 k + bpow radix2 (k - prec) + 1 <= IZR nm -> IZR nm < bpow radix2 (k + 1) ->
  8 * IZR nm - 8 * bpow radix2 (k - prec) <= x0 nm.
Proof.
  intros K K30 L U. assert (Bn : bpow radix2 k <= IZR nm < bpow radix2 (k + 1)) by (pose proof (bpow_gt_0 radix2 (k - prec)); lra).
  pose proof (rnd_error (IZR nm) k ltac:(lia) Bn) as Er. change (rnd (IZR nm)) with (r0 nm) in Er. apply Rabs_le_inv in Er.
  destruct (rnd_mult (IZR nm) k ltac:(lia) Bn) as [m Hm]. change (rnd (IZR nm)) with (r0 nm) in Hm.
  assert (ru : r0 nm <= bpow radix2 (k + 1)) by (apply rnd_high; [apply fmt_pow; lia|lra]).
  assert (W : w0 nm = r0 nm).
  { unfold w0. rewrite (rnd_binade (r0 nm - 1) k m ltac:(lia)); [symmetry; exact Hm|split; lra|].
    rewrite Hm. replace ((IZR m * bpow radix2 (k + 1 - prec) - 1) * bpow radix2 (prec - 1 - k) - IZR m)
      with (IZR m * (bpow radix2 (k + 1 - prec) * bpow radix2 (prec - 1 - k)) - bpow radix2 (prec - 1 - k) - IZR m) by ring.
    rewrite <- bpow_plus. replace (k + 1 - prec + (prec - 1 - k))%Z with 0%Z by lia. change (bpow radix2 0) with 1.
    assert (b : 0 < bpow radix2 (prec - 1 - k) <= / 4).
    { split; [apply bpow_gt_0|]. change (/ 4) with (bpow radix2 (-2)). apply bpow_le. lia. }
    apply Rabs_def1; lra. }
  apply Rle_trans with (8 * r0 nm); [lra|]. unfold x0. rewrite W. apply rnd_low; [apply fmt_8, fmt_rnd|lra].
Qed.
(** nothing is lost before the last addition while [nm] fits the significand *)
Lemma x0_lower_small nm k : (1 <= nm < 2 ^ prec)%Z -> (0 <= k)%Z -> bpow radix2 k <= IZR (8 * nm + 1) < bpow radix2 (k + 1) ->
  IZR (8 * nm + 1) - bpow radix2 (k - prec) <= x0 nm.
Proof.
  intros H K B. pose proof pow2_prec as PP. assert (R : r0 nm = IZR nm) by (apply rnd_fmt, fmt_int; lia).
  assert (W : w0 nm = IZR (nm - 1)) by (unfold w0; rewrite R, minus_IZR; change (IZR 1) with 1; rewrite <- minus_IZR; apply rnd_fmt, fmt_int; lia).
  unfold x0. rewrite W. replace (9 + 8 * IZR (nm - 1)) with (IZR (8 * nm + 1)) by (rewrite minus_IZR, plus_IZR, mult_IZR; ring).
  pose proof (rnd_error _ k K B) as Er. apply Rabs_le_inv in Er. lra.
Qed.
End Round.

(** ** Single precision, all triangular lengths *)
Lemma Hp24 : Prec_gt_0 24. Proof. reflexivity. Qed.
Lemma He24 : Prec_lt_emax 24 128. Proof. reflexivity. Qed.
Lemma Hp53 : Prec_gt_0 53. Proof. reflexivity. Qed.
Lemma He53 : Prec_lt_emax 53 1024. Proof. reflexivity. Qed.
Lemma p24 : (24 <= 24)%Z. Proof. lia. Qed.
Lemma e64 : (64 <= 128)%Z. Proof. lia. Qed.
Ltac ap L := eapply L; try first [exact Hp24|exact He24|exact p24|exact e64].
Notation x32 := (x0 24 128).
(** one binade above the exact integers: [nm] is rounded to an even number *)
Lemma x32_lower_24 nm : (16777216 + 100 <= nm < 33554432)%Z -> 8 * IZR nm - 8 <= x32 nm.
Proof.
  intro H. set (q := (nm / 2)%Z). assert (Q : (2 * q <= nm <= 2 * q + 1)%Z) by (unfold q; pose proof (Z.div_mod nm 2 ltac:(lia)); pose proof (Z.mod_pos_bound nm 2 ltac:(lia)); lia).
  assert (F : forall z, (Z.abs z < 16777216)%Z -> generic_format radix2 (SpecFloat.fexp 24 128) (IZR (2 * z))).
  { intros z Hz. replace (IZR (2 * z)) with (IZR z * bpow radix2 1) by (rewrite mult_IZR; change (bpow radix2 1) with 2; ring). ap (fmt_scaled 24 128); exact Hz. }
  assert (R : IZR (2 * q) <= r0 24 128 nm) by (ap (rnd_low 24 128); [apply F; lia|apply IZR_le; lia]).
  assert (W : IZR (2 * (q - 1)) <= w0 24 128 nm).
  { ap (rnd_low 24 128); [apply F; lia|]. rewrite !mult_IZR, ?minus_IZR in *. lra. }
  assert (X : rnd 24 128 (IZR (16 * q - 7)) <= x32 nm).
  { ap (rnd_le 24 128). rewrite !mult_IZR, ?minus_IZR in *. rewrite mult_IZR. lra. }
  assert (E : rnd 24 128 (IZR (16 * q - 7)) = IZR q * bpow radix2 (27 + 1 - 24)).
  { ap (rnd_binade 24 128).
    - change (bpow radix2 27) with (IZR 134217728). change (bpow radix2 (27 + 1)) with (IZR 268435456). split; [apply IZR_le|apply IZR_lt]; lia.
    - change (bpow radix2 (24 - 1 - 27)) with (/ 16). rewrite minus_IZR, mult_IZR. apply Rabs_def1; lra. }
  rewrite E in X. change (bpow radix2 (27 + 1 - 24)) with 16 in X.
  assert (Q' : IZR nm <= 2 * IZR q + 1) by (destruct Q as [_ Q]; apply IZR_le in Q; rewrite plus_IZR, mult_IZR in Q; exact Q). lra.
Qed.
Lemma from_lower nm n j S D : (3 <= n < 65535)%Z -> (1 <= nm < 2 ^ 31)%Z -> ((2 * n + 3) * (2 * n + 3) = 8 * nm + 1)%Z ->
  (0 <= j)%Z -> (j + 1 < 24)%Z -> bpow radix2 j + 1 <= IZR (2 * n + 3) -> IZR (2 * n + 3) < bpow radix2 (j + 1) ->
  8 * IZR nm + 1 - D <= x32 nm -> S <= IZR (2 * n + 3) -> 0 < D < 2 * S * bpow radix2 (j - 24) - bpow radix2 (j - 24) * bpow radix2 (j - 24) ->
  trunc32 nm = Some n.
Proof.
  intros N H E J1 J2 L U X HS HD.
  assert (Sq : IZR (2 * n + 3) * IZR (2 * n + 3) = 8 * IZR nm + 1) by (rewrite <- mult_IZR, E, plus_IZR, mult_IZR; reflexivity).
  assert (hu : 0 < bpow radix2 (j - 24)) by apply bpow_gt_0.
  assert (B : (IZR (2 * n + 3) - bpow radix2 (j - 24)) * (IZR (2 * n + 3) - bpow radix2 (j - 24)) < x32 nm) by nra.
  assert (P : 0 < x32 nm) by (apply Rle_lt_trans with (2 := B), Rle_0_sqr).
  unfold trunc32. rewrite (trunc_chain 24 128 Hp24 He24 p24 e64) by (try lia; exact P). f_equal.
  ap (last_three 24 128); [lia|exact P| |].
  - ap (fun H1 H2 H3 => sqrt_lower 24 128 H1 H2 H3 (2 * n + 3) j); assumption.
  - ap (x0_upper 24 128); lia.
Qed.

(** ** Assembly *)
Lemma nmdim_sq n : (8 * nmdim_of n + 1 = (2 * n + 3) * (2 * n + 3))%Z.
Proof.
  unfold nmdim_of. assert (M : ((n + 1) * (n + 2) mod 2 = 0)%Z).
  { destruct (Z.Even_or_Odd n) as [[k ->]|[k ->]].
    - replace ((2 * k + 1) * (2 * k + 2))%Z with ((2 * k + 1) * (k + 1) * 2)%Z by ring. apply Z.mod_mul. lia.
    - replace ((2 * k + 1 + 1) * (2 * k + 1 + 2))%Z with ((k + 1) * (2 * k + 3) * 2)%Z by ring. apply Z.mod_mul. lia. }
  pose proof (Z.div_mod ((n + 1) * (n + 2)) 2 ltac:(lia)) as D. lia.
Qed.
Ltac bp := repeat match goal with
  | |- context [bpow radix2 ?z] => let z' := eval vm_compute in z in
      match z' with
      | Zpos ?p => let v := eval vm_compute in (Z.pow_pos 2 p) in change (bpow radix2 z) with (IZR v)
      | Z0 => change (bpow radix2 z) with 1
      | Zneg ?p => let v := eval vm_compute in (Z.pow_pos 2 p) in change (bpow radix2 z) with (/ IZR v)
      end
  end.
Lemma big_case nm n k j S : (3 <= n < 65535)%Z -> (1 <= nm < 2 ^ 31)%Z -> ((2 * n + 3) * (2 * n + 3) = 8 * nm + 1)%Z ->
  (24 < k <= 30)%Z -> bpow radix2 k + bpow radix2 (k - 24) + 1 <= IZR nm -> IZR nm < bpow radix2 (k + 1) ->
  (0 <= j)%Z -> (j + 1 < 24)%Z -> bpow radix2 j + 1 <= S -> S <= IZR (2 * n + 3) -> IZR (2 * n + 3) < bpow radix2 (j + 1) ->
  8 * bpow radix2 (k - 24) + 1 < 2 * S * bpow radix2 (j - 24) - bpow radix2 (j - 24) * bpow radix2 (j - 24) ->
  trunc32 nm = Some n.
Proof.
  intros N H E K L U J1 J2 S1 S2 S3 T.
  apply (from_lower nm n j S (8 * bpow radix2 (k - 24) + 1)); try assumption.
  - lra.
  - apply Rle_trans with (8 * IZR nm - 8 * bpow radix2 (k - 24)); [lra|]. ap (x0_lower_big 24 128); try assumption; lia.
  - pose proof (bpow_gt_0 radix2 (k - 24)). lra.
Qed.
Lemma small_case nm n k j S : (3 <= n < 65535)%Z -> (1 <= nm < 2 ^ 24)%Z -> ((2 * n + 3) * (2 * n + 3) = 8 * nm + 1)%Z ->
  (0 <= k)%Z -> bpow radix2 k <= IZR (8 * nm + 1) < bpow radix2 (k + 1) ->
  (0 <= j)%Z -> (j + 1 < 24)%Z -> bpow radix2 j + 1 <= S -> S <= IZR (2 * n + 3) -> IZR (2 * n + 3) < bpow radix2 (j + 1) ->
  bpow radix2 (k - 24) < 2 * S * bpow radix2 (j - 24) - bpow radix2 (j - 24) * bpow radix2 (j - 24) ->
  trunc32 nm = Some n.
Proof.
  intros N H E K L J1 J2 S1 S2 S3 T.
  apply (from_lower nm n j S (bpow radix2 (k - 24))); try assumption.
  - lia.
  - lra.
  - replace (8 * IZR nm + 1) with (IZR (8 * nm + 1)) by (rewrite plus_IZR, mult_IZR; reflexivity). ap (x0_lower_small 24 128); try assumption; lia.
  - pose proof (bpow_gt_0 radix2 (k - 24)). lra.
Qed.

Ltac go := bp; first [lra|rewrite <- ?plus_IZR, <- ?mult_IZR; first [apply IZR_le; lia|apply IZR_lt; lia|split; [apply IZR_le|apply IZR_lt]; lia]].
Ltac nd := repeat match goal with
  | |- context [nmdim_of (?z + ?y)] => let v := eval vm_compute in (nmdim_of (z + y)) in change (nmdim_of (z + y)) with v
  | |- context [nmdim_of (?z - ?y)] => let v := eval vm_compute in (nmdim_of (z - y)) in change (nmdim_of (z - y)) with v
  end.
(** bounds on [n] from bounds on the length *)
Lemma n_bounds n a b : (0 <= n)%Z -> (0 < a)%Z -> (0 <= b)%Z -> (nmdim_of (a - 1) < nmdim_of n)%Z -> (nmdim_of n < nmdim_of (b + 1))%Z -> (a <= n <= b)%Z.
Proof. intros N A B L U. pose proof (nmdim_sq n). pose proof (nmdim_sq (a - 1)). pose proof (nmdim_sq (b + 1)). nia. Qed.
Lemma trunc32_tri n : (0 <= n)%Z -> (nmdim_of n < 2 ^ 31)%Z -> trunc32 (nmdim_of n) = Some n.
Proof.
  intros N0 H. pose proof (nmdim_sq n) as Sq. pose proof (n_bounds n) as NB. set (nm := nmdim_of n) in *.
  assert (N1 : (1 <= nm)%Z) by nia.
  destruct (Z.lt_ge_cases nm 2097151) as [C|C].
  { assert (n <= 2046)%Z by nia. unfold trunc32. apply (exact_any 24 128 Hp24 He24 p24 e64 nm n 11); try lia. }
  destruct (Z.lt_ge_cases nm 4194304) as [C21|C21].
  { assert (B : (2047 <= n <= 2894)%Z) by (apply NB; try lia; nd; lia). clear NB.
    apply (small_case nm n 24 12 4097); try lia; go. }
  destruct (Z.lt_ge_cases nm 8388608) as [C22|C22].
  { assert (B : (2895 <= n <= 4094)%Z) by (apply NB; try lia; nd; lia). clear NB.
    apply (small_case nm n 25 12 5793); try lia; go. }
  destruct (Z.lt_ge_cases nm 16777216) as [C23|C23].
  { assert (B : (4095 <= n <= 5791)%Z) by (apply NB; try lia; nd; lia). clear NB.
    apply (small_case nm n 26 13 8193); try lia; go. }
  destruct (Z.lt_ge_cases nm 33554432) as [C24|C24].
  { assert (B : (5792 <= n <= 8190)%Z) by (apply NB; try lia; nd; lia). clear NB.
    apply (from_lower nm n 13 11587 9); try lia; try go.
    replace (8 * IZR nm + 1 - 9) with (8 * IZR nm - 8) by ring. apply x32_lower_24. nia. }
  destruct (Z.lt_ge_cases nm 67108864) as [C25|C25].
  { assert (B : (8191 <= n <= 11583)%Z) by (apply NB; try lia; nd; lia). clear NB.
    assert (G : (33558528 <= nm)%Z) by nia. apply (big_case nm n 25 14 16385); try lia; go. }
  destruct (Z.lt_ge_cases nm 134217728) as [C26|C26].
  { assert (B : (11584 <= n <= 16382)%Z) by (apply NB; try lia; nd; lia). clear NB.
    assert (G : (67111905 <= nm)%Z) by nia. apply (big_case nm n 26 14 23171); try lia; go. }
  destruct (Z.lt_ge_cases nm 268435456) as [C27|C27].
  { assert (B : (16383 <= n <= 23168)%Z) by (apply NB; try lia; nd; lia). clear NB.
    assert (G : (134225920 <= nm)%Z) by nia. apply (big_case nm n 27 15 32769); try lia; go. }
  destruct (Z.lt_ge_cases nm 536870912) as [C28|C28].
  { assert (B : (23169 <= n <= 32766)%Z) by (apply NB; try lia; nd; lia). clear NB.
    assert (G : (268436035 <= nm)%Z) by nia. apply (big_case nm n 28 15 46341); try lia; go. }
  destruct (Z.lt_ge_cases nm 1073741824) as [C29|C29].
  { assert (B : (32767 <= n <= 46339)%Z) by (apply NB; try lia; nd; lia). clear NB.
    assert (G : (536887296 <= nm)%Z) by nia. apply (big_case nm n 29 16 65537); try lia; go. }
  { assert (B : (46340 <= n <= 65534)%Z) by (apply NB; try lia; nd; lia). clear NB.
    assert (G : (1073767311 <= nm)%Z) by nia. apply (big_case nm n 30 16 92683); try lia; go. }
Qed.

(** ** Any length *)
Lemma tri_floor nm : (1 <= nm)%Z -> exists n, (0 <= n)%Z /\ (nmdim_of n <= nm < nmdim_of (n + 1))%Z.
Proof.
  intro H. pose proof (Z.sqrt_spec (8 * nm + 1) ltac:(lia)) as S. pose proof (Z.sqrt_nonneg (8 * nm + 1)) as S0. set (s := Z.sqrt (8 * nm + 1)) in *.
  cbv zeta in S. unfold Z.succ in S. fold s in S. destruct S as [Sl Su].
  assert (S3 : (3 <= s)%Z).
  { destruct (Z.lt_ge_cases s 3) as [G|G]; [|lia]. exfalso. assert ((s + 1) * (s + 1) <= 3 * 3)%Z by (apply Z.mul_le_mono_nonneg; lia). lia. }
  exists ((s - 3) / 2)%Z.
  pose proof (Z.div_mod (s - 3) 2 ltac:(lia)) as D. pose proof (Z.mod_pos_bound (s - 3) 2 ltac:(lia)) as D2. set (n := ((s - 3) / 2)%Z) in *.
  pose proof (nmdim_sq n) as Q1. pose proof (nmdim_sq (n + 1)) as Q2. split; [lia|]. split; nia.
Qed.
Lemma trunc32_any nm : (0 <= nm < 2 ^ 21)%Z -> exists t, trunc32 nm = Some t /\ (-1 <= t)%Z /\ (nmdim_of t <= nm < nmdim_of (t + 1))%Z.
Proof.
  intro H. destruct (Z.eq_dec nm 0) as [->|N]; [exists (-1)%Z; repeat split; vm_compute; discriminate|].
  destruct (tri_floor nm ltac:(lia)) as (n & N0 & B). exists n. split; [|split; [lia|exact B]].
  pose proof (nmdim_sq n) as Q1. pose proof (nmdim_sq (n + 1)) as Q2. assert (n <= 2046)%Z by nia.
  unfold trunc32. apply (exact_any 24 128 Hp24 He24 p24 e64 nm n 11); lia.
Qed.
Lemma trunc64_any nm : (0 <= nm < 2 ^ 31)%Z -> exists t, trunc64 nm = Some t /\ (-1 <= t)%Z /\ (nmdim_of t <= nm < nmdim_of (t + 1))%Z.
Proof.
  intro H. destruct (Z.eq_dec nm 0) as [->|N]; [exists (-1)%Z; repeat split; vm_compute; discriminate|].
  destruct (tri_floor nm ltac:(lia)) as (n & N0 & B). exists n. split; [|split; [lia|exact B]].
  pose proof (nmdim_sq n) as Q1. pose proof (nmdim_sq (n + 1)) as Q2. assert (n <= 65535)%Z by nia.
  unfold trunc64. apply (exact_any 53 1024 Hp53 He53 ltac:(lia) ltac:(lia) nm n 16); lia.
Qed.
Lemma trunc64_tri n : (0 <= n)%Z -> (nmdim_of n < 2 ^ 31)%Z -> trunc64 (nmdim_of n) = Some n.
Proof.
  intros N H. pose proof (nmdim_sq n) as Q. destruct (trunc64_any (nmdim_of n) ltac:(nia)) as (t & E & T & B). rewrite E. f_equal.
  pose proof (nmdim_sq t). pose proof (nmdim_sq (t + 1)). assert (t <= n)%Z by nia. assert (n <= t)%Z by nia. lia.
Qed.
