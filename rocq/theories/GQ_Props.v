(** C100-C102: the Gaussian colatitudes and weights. *)
From Coq Require Import Reals List Arith ZArith Lia Bool Lra.
From Verif Require Import Base Buffer VH_Model RS_Spec RS_Dft GS_Spec GS_Proofs1 LG_Spec LG_Proofs1 LG_Proofs2 LG_Proofs4 LG_Proofs6
  GQ_Spec GQ_Model GQ_Proofs1 GQ_Proofs2 GQ_Proofs3 GQ_Proofs4 GQ_Proofs5.
Import ListNotations.
Local Open Scope nat_scope.

(** ** C100: the polynomial and its derivative *)
(** cpdp writes its (n+1)/2 coefficients at the given offset and nothing else, and
    tpdp then gives the scaled Legendre polynomial and its derivative at every
    colatitude; no other element is read, and what the arrays held is forgotten. *)
Theorem C100_polynomial : forall n off cp dcp, 1 <= n -> off + (n + 1) / 2 <= length cp -> off + (n + 1) / 2 <= length dcp ->
  exists cz cp' dcp', cpdp n off cp dcp = Some (cz, cp', dcp') /\
    length cp' = length cp /\ length dcp' = length dcp /\
    (forall p, p < off \/ off + (n + 1) / 2 <= p -> nth p cp' 0%R = nth p cp 0%R /\ nth p dcp' 0%R = nth p dcp 0%R) /\
    forall a d, length a = length cp -> length d = length dcp ->
      (forall p, off <= p < off + (n + 1) / 2 -> nth p a 0%R = nth p cp' 0%R /\ nth p d 0%R = nth p dcp' 0%R) ->
      forall t, tpdp n off t cz a d = Some (value n t, slope n t).
Proof.
  intros n off cp dcp Hn LC LD. destruct (cpdp_ok n off cp dcp Hn LC LD) as (cz & cp' & dcp' & E & [L1 O1] & [L2 O2] & H1 & H2 & CZ). exists cz, cp', dcp'. split; [exact E|]. split; [exact L1|]. split; [exact L2|]. split; [auto|].
  intros a d LA LB AG t. destruct (tpdp_ok n off cz a d t) as (pb & ET & V); [lia|lia|lia| |].
  - intros k Hk. destruct (AG (off + k - 1) ltac:(lia)) as [_ ->]. apply H2. auto.
  - rewrite ET, V; auto. intros k Hk. destruct (AG (off + k - 1) ltac:(lia)) as [-> _]. apply H1. auto.
Qed.
(** The second value is the derivative of the first. *)
Theorem C100_derivative : forall n t, derivable_pt_lim (value n) t (slope n t).
Proof. exact slope_derive. Qed.
(** Same sign and same zeros as P_n(cos t). *)
Theorem C100_scale : forall n t, (0 < lead n)%R /\ value n t = (leg n (cos t) / (2 * lead n))%R /\ (value n t = 0%R <-> leg n (cos t) = 0%R).
Proof. intros n t. split; [apply lead_pos|]. split; [reflexivity|apply value_zero]. Qed.
(** Degree 3 from four junk elements, offset 1: cos 3t + (3/5) cos t. *)
Example C100_example : exists cz cp dcp, cpdp 3 1 [7; 7; 7; 9]%R [5; 5; 5; 5]%R = Some (cz, cp, dcp) /\
  tpdp 3 1 0 cz cp dcp = Some ((8 / 5)%R, 0%R) /\ nth 0 cp 0%R = 7%R /\ nth 3 cp 0%R = 9%R.
Proof.
  destruct (C100_polynomial 3 1 [7; 7; 7; 9]%R [5; 5; 5; 5]%R) as (cz & cp & dcp & E & L1 & L2 & O & V); [lia|cbn; lia|cbn; lia|]. exists cz, cp, dcp. split; [exact E|]. rewrite (V cp dcp) by auto. split; [|split; apply O; cbn; lia].
  unfold value, slope. rewrite sin_0, cos_0, leg_one. unfold lead. f_equal. apply f_equal2; [cbn; field|unfold Rdiv; ring].
Qed.

(** ** C101: the search *)
(** For three or more latitudes gaqd succeeds, reads and writes inside the arrays,
    never reads zprev undefined, and returns the points and weights described by
    [gauss_points]. *)
Theorem C101_points : forall nlat dz theta wts, 3 <= nlat -> (0 < dz)%R -> length theta = nlat -> length wts = nlat ->
  exists th wt, gaqd (Z.of_nat nlat) dz theta wts = Some (0, th, wt) /\ length th = nlat /\ length wt = nlat /\
    gauss_points nlat (sqrt dz * sqrt (sqrt dz)) (fun i => nth (i - 1) th 0%R) (fun i => nth (i - 1) wt 0%R).
Proof. exact gaqd_ok. Qed.
(** The description has one solution, and the arrays passed in do not matter. *)
Theorem C101_unique : forall n eps th wt th' wt', 3 <= n -> gauss_points n eps th wt -> gauss_points n eps th' wt' ->
  forall i, 1 <= i <= n -> th i = th' i /\ wt i = wt' i.
Proof. exact gauss_points_unique. Qed.
Theorem C101_inputs : forall nlat dz theta wts theta' wts', 3 <= nlat -> (0 < dz)%R ->
  length theta = nlat -> length wts = nlat -> length theta' = nlat -> length wts' = nlat ->
  gaqd (Z.of_nat nlat) dz theta wts = gaqd (Z.of_nat nlat) dz theta' wts'.
Proof. exact gaqd_inputs. Qed.
(** A step moves by cmax at most, and a settled search leaves a residual no larger than
    the tolerance times the derivative. *)
Theorem C101_step : forall n eps cmax t, (0 < cmax)%R -> (Rabs (step n eps cmax t - t) <= cmax)%R.
Proof.
  intros n eps cmax t Hc. unfold step. cbv zeta. set (d := (if Rlt_dec _ _ then _ else _)). clearbody d. replace (t - Rmax (- cmax) (Rmin d cmax) - t)%R with (- Rmax (- cmax) (Rmin d cmax))%R by ring. rewrite Rabs_Ropp. apply Rabs_le. unfold Rmax, Rmin. destruct (Rle_dec d cmax); [destruct (Rle_dec (- cmax) d)|destruct (Rle_dec (- cmax) cmax)]; lra.
Qed.
Theorem C101_residual : forall n eps cmax t, (0 < cmax)%R -> let t' := step n eps cmax t in
  settled eps t t' -> (Rabs (t' - t) < cmax)%R -> (small <= Rabs (slope n t))%R ->
  (Rabs (value n t) <= eps * Rmax (Rabs t') 1 * Rabs (slope n t))%R.
Proof.
  intros n eps cmax t Hc t' ST LT SM. unfold settled in ST. set (b := (eps * Rmax (Rabs t') 1)%R) in *. assert (S0 : (0 < Rabs (slope n t))%R) by (unfold small in SM; lra).
  assert (NZ : (slope n t <> 0)%R) by (intros Z; rewrite Z, Rabs_R0 in S0; lra).
  assert (E : (t' - t = - (value n t / slope n t))%R).
  { unfold t', step in *. cbv zeta in *. destruct (Rlt_dec (Rabs (slope n t)) small); [lra|]. set (d := (value n t / slope n t)%R) in *. replace (t - Rmax (- cmax) (Rmin d cmax) - t)%R with (- Rmax (- cmax) (Rmin d cmax))%R in * by ring. rewrite Rabs_Ropp in LT. apply Rabs_def2 in LT. f_equal. revert LT. unfold Rmax, Rmin. destruct (Rle_dec d cmax); [destruct (Rle_dec (- cmax) d)|destruct (Rle_dec (- cmax) cmax)]; lra. }
  rewrite E, Rabs_Ropp in ST. replace (value n t) with (value n t / slope n t * slope n t)%R by (field; auto). rewrite Rabs_mult. apply Rmult_le_compat_r; lra.
Qed.
(** The weights add up to two, unless the raw weights are negligible. *)
Theorem C101_sum : forall n eps th wt, 3 <= n -> gauss_points n eps th wt ->
  sumR n (fun q => wt (S q)) = 2%R \/ (Rabs (sumR n (fun q => wt (S q))) < INR n / 2 ^ 52)%R.
Proof.
  intros n eps th wt Hn (w & _ & _ & _ & _ & WT). cbv zeta in WT. set (s := sumR n (fun q => w (S q))) in *.
  destruct (Rlt_dec (Rabs s) (INR n / 2 ^ 52)) as [L|L].
  - right. replace (sumR n (fun q => wt (S q))) with s; auto. apply sumR_ext. intros q Hq. rewrite WT by lia. field.
  - left. rewrite (sumR_ext _ _ (fun q => 2 / s * w (S q))%R).
    + rewrite sumR_scal. fold s. field. intros Z. apply L. rewrite Z, Rabs_R0. apply Rdiv_lt_0_compat; [apply lt_0_INR; lia|apply pow_lt; lra].
    + intros q Hq. rewrite WT by lia. unfold Rdiv. ring.
Qed.
(** Without rounding Kahan's sum is the sum. *)
Theorem C101_kahan : forall n a, n <= length a -> kahan_sum n a = Some (sumR n (fun q => nth q a 0%R)).
Proof.
  intros n a L. unfold kahan_sum.
  destruct (fold_seq (fun s i => let '(result, c) := s in let* x := rd a i in Some ((result + (x - c))%R, (((result + (x - c)) - result) - (x - c))%R)) (fun q s => s = (sumR q (fun q => nth q a 0%R), 0%R)) n 1 (0%R, 0%R)) as (s & E & ->); auto.
  - intros q s Hq ->. rewrite rd_nth0 by lia. cbn [bind]. eexists. split; [reflexivity|]. cbn [sumR]. replace (1 + q - 1) with q by lia. apply f_equal2; ring.
  - cbv zeta. rewrite E. reflexivity.
Qed.
(** No latitude: error 1 and nothing written. *)
Theorem C101_error : forall nlat dz theta wts, (nlat <= 0)%Z -> gaqd nlat dz theta wts = Some (1, theta, wts).
Proof. intros nlat dz theta wts H. unfold gaqd. destruct (Z.leb_spec nlat 0); [auto|lia]. Qed.
(** Three latitudes; the middle one is the equator. *)
Example C101_example : exists t1 t2 t3 w1 w2 w3, gaqd 3 (/ 2 ^ 52) [0; 0; 0]%R [0; 0; 0]%R = Some (0, [t1; t2; t3], [w1; w2; w3]) /\
  t2 = (PI / 2)%R /\ t3 = (PI - t1)%R /\ w3 = w1.
Proof.
  destruct (C101_points 3 (/ 2 ^ 52)%R [0; 0; 0]%R [0; 0; 0]%R) as (th & wt & E & L1 & L2 & w & SY & SW & _ & _ & WT); [lia|apply Rinv_0_lt_compat; apply pow_lt; lra|auto|auto|].
  destruct th as [|t1 [|t2 [|t3 [|]]]]; try discriminate. destruct wt as [|w1 [|w2 [|w3 [|]]]]; try discriminate. exists t1, t2, t3, w1, w2, w3. split; [exact E|].
  pose proof (SY 2 ltac:(lia)) as S2. pose proof (SY 1 ltac:(lia)) as S1. cbn in S1, S2. split; [lra|]. split; [auto|]. cbv zeta in WT. pose proof (WT 1 ltac:(lia)) as W1. pose proof (WT 3 ltac:(lia)) as W3. pose proof (SW 1 ltac:(lia)) as SW1. change (3 + 1 - 1) with 3 in SW1. rewrite SW1 in W3. cbn [nth Nat.sub] in W1, W3. congruence.
Qed.

(** ** C102: exact points *)
Lemma nth_skipn (n p : nat) (l : list R) : nth p (skipn n l) 0%R = nth (n + p) l 0%R.
Proof. revert l. induction n; intros l; [reflexivity|]. destruct l; cbn; [destruct p; reflexivity|apply IHn]. Qed.
(** P_n has n simple zeros, none outside (-1, 1), placed symmetrically. *)
Theorem C102_zeros : forall n, exists z : nat -> R,
  (forall i, 1 <= i <= n -> (0 < z i < PI)%R /\ value n (z i) = 0%R /\ (1 / 2 <= Rabs (slope n (z i)))%R) /\
  (forall i j, 1 <= i < j -> j <= n -> (z i < z j)%R) /\ symmetric_colatitudes n z /\
  (forall t, (0 <= t <= PI)%R -> value n t = 0%R -> exists i, 1 <= i <= n /\ t = z i).
Proof.
  intros n. destruct (zeros_exist n) as (z & A & B & C' & E). exists z. split; [|split; [auto|split; [auto|]]].
  - intros i Hi. destruct (A i Hi) as [A1 A2]. split; auto. apply value_zero in A2. split; auto. apply slope_big; auto; lia.
  - intros t Ht Z. apply E; auto. apply value_zero. auto.
Qed.
(** The search started at a zero stays there and takes one step. *)
Theorem C102_fixed : forall n off eps cmax cz cp dcp more z, 1 <= n -> (0 < eps)%R -> (0 < cmax)%R ->
  (forall t, tpdp n off t cz cp dcp = Some (value n t, slope n t)) -> value n z = 0%R ->
  newton n off eps cmax cz cp dcp more z = Some (z, z, 0%R, slope n z).
Proof.
  intros n off eps cmax cz cp dcp more z Hn He Hc TP Z. assert (ST : step n eps cmax z = z) by (apply step_zero; auto).
  assert (SS : (Rabs (z - z) <= eps * Rmax (Rabs z) 1)%R). { replace (z - z)%R with 0%R by ring. rewrite Rabs_R0. pose proof (Rmax_r (Rabs z) 1). apply Rmult_le_pos; lra. }
  destruct more; cbn [newton]; rewrite TP; cbn [bind]; rewrite correction_step, ST, Z by auto; (destruct (Rle_dec _ _); [auto|contradiction]).
Qed.
(** When the loop has left exact zeros and the weights of its formula there, the centre,
    the mirror and the normalisation complete them to the Gaussian rule: symmetric, and
    exact for every polynomial of degree below 2 nlat. *)
Theorem C102_rule : forall nlat theta0 wts0 cz cp dcp zs, 3 <= nlat -> (INR nlat <= 2 ^ 53)%R -> length theta0 = nlat -> length wts0 = nlat ->
  cpdp nlat (nlat / 2) theta0 wts0 = Some (cz, cp, dcp) ->
  length zs = nlat / 2 -> NoDup zs -> Forall (fun z => (0 < z < PI / 2)%R /\ leg nlat (cos z) = 0%R) zs ->
  exists th wt, finish nlat cz (zs ++ skipn (nlat / 2) cp) (map (fun z => weight nlat z 0 (slope nlat z)) zs ++ skipn (nlat / 2) dcp) = Some (th, wt) /\
    length th = nlat /\ length wt = nlat /\ firstn (nlat / 2) th = zs /\
    symmetric_colatitudes nlat (fun i => nth (i - 1) th 0%R) /\ symmetric_weights nlat wt /\
    gaussian nlat wt (fun i => nth (i - 1) th 0%R).
Proof.
  intros nlat theta0 wts0 cz cp dcp zs Hn HB L1 L2 E LZ ND FA. pose proof (half_cases nlat) as HC.
  destruct (cpdp_ok nlat (nlat / 2) theta0 wts0) as (cz' & cp' & dcp' & E' & [LC _] & [LD _] & H1 & H2 & _); [lia|lia|lia|]. rewrite E in E'. injection E' as -> -> ->. rename cp' into cp, dcp' into dcp, cz' into cz.
  assert (LS : forall (a : list R), length a = nlat -> length (skipn (nlat / 2) a) = nlat - nlat / 2) by (intros a LA; rewrite skipn_length; lia).
  assert (NZ : forall p, p < nlat / 2 -> nth p (zs ++ skipn (nlat / 2) cp) 0%R = nth p zs 0%R) by (intros p Hp; apply app_nth1; lia).
  assert (ZP : forall p, p < nlat / 2 -> (0 < nth p zs 0 < PI / 2)%R /\ value nlat (nth p zs 0%R) = 0%R).
  { intros p Hp. rewrite Forall_forall in FA. destruct (FA (nth p zs 0%R)) as [A B]; [apply nth_In; lia|]. split; auto. apply value_zero. auto. }
  destruct (finish_exact nlat cz (zs ++ skipn (nlat / 2) cp) (map (fun z => weight nlat z 0 (slope nlat z)) zs ++ skipn (nlat / 2) dcp)) as (th & wt & EF & LT & LW & KE & SY & SW & GA); auto.
  - rewrite app_length, LS by lia. lia.
  - rewrite app_length, map_length, LS by lia. lia.
  - intros k Hk. rewrite app_nth2 by (rewrite map_length; lia). rewrite map_length, LZ, nth_skipn. rewrite <- H2 by auto. f_equal. lia.
  - intros p Hp. rewrite NZ by auto. destruct (ZP p Hp) as [A B]. split; auto. split; auto. rewrite app_nth1 by (rewrite map_length; lia). rewrite <- weight_raw, B.
    set (f := fun z => weight nlat z 0 (slope nlat z)). rewrite (nth_indep (map f zs) 0%R (f 0%R)) by (rewrite map_length; lia). rewrite (map_nth f). reflexivity.
  - intros p q Hpq. rewrite !NZ by lia. intros EQ. apply (proj1 (NoDup_nth zs 0%R) ND) in EQ; lia.
  - exists th, wt. split; auto. split; auto. split; auto. split; [|split; [exact SY|split; [|exact GA]]].
    2: { split; auto. intros q Hq. pose proof (SW (S q) ltac:(lia)) as X. replace (nlat + 1 - S q - 1) with (nlat - 1 - q) in X by lia. replace (S q - 1) with q in X by lia. exact X. }
    apply (nth_ext _ _ 0%R 0%R); [rewrite firstn_length; lia|]. intros p Hp. rewrite firstn_length in Hp. rewrite <- NZ by lia. rewrite <- KE by lia. rewrite <- (firstn_skipn (nlat / 2) th) at 2. rewrite app_nth1 by (rewrite firstn_length; lia). reflexivity.
Qed.
(** One and two latitudes need no search. *)
Theorem C102_small : forall nlat dz theta wts, 1 <= nlat <= 2 -> length theta = nlat -> length wts = nlat ->
  exists th wt, gaqd (Z.of_nat nlat) dz theta wts = Some (0, th, wt) /\
    symmetric_colatitudes nlat (fun i => nth (i - 1) th 0%R) /\ gaussian nlat wt (fun i => nth (i - 1) th 0%R).
Proof. intros nlat dz theta wts H L1 L2. assert (nlat = 1 \/ nlat = 2) as [->| ->] by lia; [apply gaqd_one|apply gaqd_two]; auto. Qed.
(** The expression squared in the weight is stationary at a zero: an error d in the
    point changes it by a multiple of d^2 only. *)
Theorem C102_stationary : forall n t, sin t <> 0%R ->
  derivable_pt_lim (fun t => slope n t + value n t * (cos t / sin t))%R t (- ((INR n * (INR n + 1) + 1 / (sin t * sin t)) * value n t))%R.
Proof.
  intros n t NS. pose proof (lead_pos n) as LP.
  assert (DS : derivable_pt_lim (slope n) t ((cos t * D 1 n (cos t) - INR n * (INR n + 1) * leg n (cos t)) / (2 * lead n))%R).
  { pose proof (D_ode 0 n (cos t)) as ODE. change (D 0) with leg in ODE. cbn [INR] in ODE.
    replace ((cos t * D 1 n (cos t) - INR n * (INR n + 1) * leg n (cos t)) / (2 * lead n))%R with (- / (2 * lead n) * (cos t * D 1 n (cos t) + sin t * (D 2 n (cos t) * - sin t)))%R.
    - assert (EX : forall f g x l, (forall y, f y = g y) -> derivable_pt_lim f x l -> derivable_pt_lim g x l) by (intros f h x l EX DL e He; destruct (DL e He) as [d Hd]; exists d; intros u Hu Hl; rewrite <- !EX; auto).
      apply EX with (fun t => - / (2 * lead n) * (sin t * D 1 n (cos t)))%R; [intros; unfold slope; field; lra|].
      apply (derivable_pt_lim_scal (fun t => sin t * D 1 n (cos t))%R). apply (derivable_pt_lim_mult sin (fun t => D 1 n (cos t))); [apply derivable_pt_lim_sin|]. apply (derivable_pt_lim_comp cos (D 1 n)); [apply derivable_pt_lim_cos|apply D_derive].
    - replace (sin t * (D 2 n (cos t) * - sin t))%R with (- ((sin t * sin t) * D 2 n (cos t)))%R by ring. rewrite sin_sq.
      assert (E2 : ((1 - cos t * cos t) * D 2 n (cos t) = 2 * cos t * D 1 n (cos t) - INR n * (INR n + 1) * leg n (cos t))%R) by lra. rewrite E2. field. lra. }
  replace (- ((INR n * (INR n + 1) + 1 / (sin t * sin t)) * value n t))%R with ((cos t * D 1 n (cos t) - INR n * (INR n + 1) * leg n (cos t)) / (2 * lead n) + (slope n t * (cos t / sin t) + value n t * ((- sin t * sin t - cos t * cos t) / Rsqr (sin t))))%R.
  - apply (derivable_pt_lim_plus (slope n) (fun t => value n t * (cos t / sin t))%R); [exact DS|]. apply (derivable_pt_lim_mult (value n) (fun t => cos t / sin t)%R); [apply slope_derive|]. apply (derivable_pt_lim_div cos sin); auto; [apply derivable_pt_lim_cos|apply derivable_pt_lim_sin].
  - unfold value, slope, Rsqr. replace (- sin t * sin t - cos t * cos t)%R with (-1)%R by (pose proof (sin_sq t); lra). field. split; lra.
Qed.
(** For every number of latitudes from three on, the rule exists. *)
Theorem C102_exists : forall nlat, 3 <= nlat -> exists zs : list R, length zs = nlat / 2 /\ NoDup zs /\ Forall (fun z => (0 < z < PI / 2)%R /\ leg nlat (cos z) = 0%R) zs.
Proof.
  intros nlat Hn. destruct (zeros_exist nlat) as (z & A & B & SY & _). pose proof (half_cases nlat) as HC. exists (map z (seq 1 (nlat / 2))). split; [rewrite map_length, seq_length; auto|]. split.
  - apply (NoDup_nth _ 0%R). intros i j Hi Hj E. rewrite map_length, seq_length in Hi, Hj. rewrite !(nth_indep _ 0%R (z 0)) in E by (rewrite map_length, seq_length; auto). rewrite !map_nth, !seq_nth in E by auto.
    destruct (lt_eq_lt_dec i j) as [[G|G]|G]; auto; exfalso; [pose proof (B (1 + i) (1 + j) ltac:(lia) ltac:(lia))|pose proof (B (1 + j) (1 + i) ltac:(lia) ltac:(lia))]; lra.
  - apply Forall_forall. intros x Hx. apply in_map_iff in Hx. destruct Hx as (i & <- & Hi). apply in_seq in Hi. destruct (A i ltac:(lia)) as [A1 A2]. split; [|auto]. pose proof (SY i ltac:(lia)) as S. pose proof (B i (nlat + 1 - i) ltac:(lia) ltac:(lia)). lra.
Qed.
(** Three latitudes: cos^2 = 3/5. *)
Example C102_example : let z := acos (sqrt (3 / 5)) in (0 < z < PI / 2)%R /\ leg 3 (cos z) = 0%R /\
  exists cz cp dcp, cpdp 3 1 [0; 0; 0]%R [0; 0; 0]%R = Some (cz, cp, dcp).
Proof.
  set (x := sqrt (3 / 5)). assert (X2 : (x * x = 3 / 5)%R) by (apply sqrt_sqrt; lra). assert (X0 : (0 < x)%R) by (apply sqrt_lt_R0; lra). assert (X1 : (x < 1)%R) by nra. split; [|split].
  - pose proof (acos_bound_lt x ltac:(lra)). split; [lra|]. rewrite <- acos_0. apply cos_decreasing_0; try apply acos_bound. rewrite !cos_acos by lra. auto.
  - rewrite cos_acos by lra. pose proof (leg_SS 1 x) as E. cbn [INR] in E. rewrite leg_1 in E. pose proof (leg_SS 0 x) as E0. cbn [INR] in E0. rewrite leg_1, leg_0 in E0. nra.
  - destruct (C100_polynomial 3 1 [0; 0; 0]%R [0; 0; 0]%R) as (cz & cp & dcp & E & _); [lia|cbn; lia|cbn; lia|]. exists cz, cp, dcp. exact E.
Qed.

Print Assumptions C100_polynomial.
Print Assumptions C101_points.
Print Assumptions C101_inputs.
Print Assumptions C102_zeros.
Print Assumptions C102_rule.
Print Assumptions C102_stationary.
