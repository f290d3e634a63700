(** The below-ground continuation in Pa. *)
From Verif Require Import Base Buffer Loops I2P_Model I2P_Proofs VH_Model VH_Spec VH_Proofs VH_Proofs2 VH_Proofs3 VH_Proofs4 VH_Proofs5 VH_Proofs6.
Local Open Scope nat_scope.
Local Opaque spvl.

Lemma alpha_eq : alpha = (standard_lapse * gas / grav)%Qc.
Proof. apply Qc_is_canon. reflexivity. Qed.
Lemma hgt_eq ph : (ph * ginv = ph / grav)%Qc.
Proof. replace ginv with (/ grav)%Qc by (apply Qc_is_canon; reflexivity). reflexivity. Qed.
Lemma half_eq x : (dec 1 2 * x = x / qz 2)%Qc.
Proof. unfold dec. unfold Qcdiv. ring_simplify. replace (qz 1) with 1%Qc by (apply Qc_is_canon; reflexivity). ring. Qed.
Lemma sixth_eq x : (dec 1 6 * x = x / qz 6)%Qc.
Proof. unfold dec. unfold Qcdiv. replace (qz 1) with 1%Qc by (apply Qc_is_canon; reflexivity). ring. Qed.
Lemma c500_eq x : (dec 2 1000 * x = x / qz 500)%Qc.
Proof. replace (dec 2 1000) with (/ qz 500)%Qc by (apply Qc_is_canon; reflexivity). unfold Qcdiv. ring. Qed.
Lemma mb_ratio x y : (to_mb x / to_mb y = x / y)%Qc.
Proof. unfold to_mb. apply Qc_scale. apply hundredth_neq. Qed.

Lemma temperature_pa lg xb pb t ps ph :
  extrapolate_temperature lg (Some xb) (to_mb pb) (to_mb t) (to_mb ps) ph = Some (ecmwf_temperature lg xb pb t ps ph).
Proof.
  unfold extrapolate_temperature, ecmwf_temperature, t_plateau, t_star. cbn [option_map]. cbv zeta.
  rewrite !mb_ratio, alpha_eq, !hgt_eq, !half_eq, !sixth_eq, c500_eq.
  change rd_gas with gas. change (dec 65 10000) with standard_lapse. change qcmin with smaller.
  set (h := (ph / grav)%Qc). set (ts := (xb * _)%Qc). set (L := lg (t / ps)%Qc).
  f_equal. set (tp := if (h <=? qz 2500)%Qc then _ else _).
  set (y := if Qcltb h _ then _ else _).
  set (s := if (h <? qz 2000)%Qc then _ else _).
  assert (E : y = (s * L)%Qc).
  { unfold y, s. destruct (h <? qz 2000)%Qc; auto. destruct (tp <? ts)%Qc; [ring|reflexivity]. }
  rewrite E. reflexivity.
Qed.
Lemma height_pa lg tb pb t ps ph :
  extrapolate_geopotential lg tb (to_mb pb) (to_mb t) (to_mb ps) ph = ecmwf_height lg tb pb t ps ph.
Proof.
  unfold extrapolate_geopotential, ecmwf_height, t_star. cbv zeta.
  rewrite !mb_ratio, alpha_eq, !hgt_eq.
  change rd_gas with gas. change (dec 65 10000) with standard_lapse.
  replace (dec 2905 10) with (qz 581 / qz 2)%Qc by (apply Qc_is_canon; reflexivity).
  set (h := (ph / grav)%Qc). set (ts := (tb * _)%Qc). set (L := lg (t / ps)%Qc). set (hot := (qz 581 / qz 2)%Qc).
  set (al := (standard_lapse * gas / grav)%Qc).
  set (t0 := (ts + standard_lapse * h)%Qc). clearbody hot al t0 L h ts.
  assert (G : forall z, (gas * z * ginv = gas * z / grav)%Qc) by (intros z; rewrite hgt_eq; reflexivity).
  destruct (Qcltb_spec hot t0) as [C1|C1], (Qcltb_spec hot ts) as [C2|C2], (Qcleb_spec ts hot) as [C3|C3]; cbn [andb];
    try (exfalso; apply (Qcle_not_lt _ _ C3); assumption); try (exfalso; apply C3; apply Qcnot_lt_le; assumption);
    rewrite ?half_eq, ?sixth_eq, G; try reflexivity.
  all: unfold Qcdiv; ring.
Qed.

Lemma below_ground_pa_eq lg xb pb t ps varflg tb ph : below_ground_pa lg xb pb t ps varflg tb ph = below_value lg varflg xb pb t ps tb ph.
Proof.
  unfold below_ground_pa, below_ground, below_value. cbn [Z.eqb]. destruct (varflg =? 1)%Z; [rewrite temperature_pa; auto|].
  destruct (varflg =? -1)%Z; [rewrite height_pa; auto|auto].
Qed.
(** the lowest level is the one with the largest pressure *)
Lemma bottom_is_last P p : 2 <= length P -> strictly_monotone P -> In p P -> (forall r, In r P -> (r <= p)%Qc) -> p = get P (bottom P).
Proof.
  intros H M Hp Hm. apply Qcle_antisym; [apply bottom_max; auto|]. apply Hm. pose proof (bottom_range P ltac:(lia)).
  apply nth_error_In with (n := bottom P - 1). rewrite get_nth by lia. auto.
Qed.
