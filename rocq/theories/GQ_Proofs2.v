(** cpdp and tpdp give the Legendre polynomial and its derivative *)
From Coq Require Import Reals List Arith ZArith Lia Lra Bool.
From Verif Require Import Base Buffer VH_Model RS_Spec RS_Dft GS_Proofs1 LG_Spec LG_Proofs1 LG_Proofs4 LG_Proofs5 LG_Proofs6 GQ_Spec GQ_Model.
Import ListNotations.
Local Open Scope R_scope.

Lemma lead_g n : lead n = g n.
Proof.
  induction n; [unfold lead; cbn; field|]. cbn [g]. rewrite <- IHn. unfold lead. replace (2 * S n)%nat with (S (S (2 * n))) by lia.
  change (fact (S (S (2 * n)))) with (S (S (2 * n)) * (S (2 * n) * fact (2 * n)))%nat. change (fact (S n)) with (S n * fact n)%nat. rewrite !mult_INR, !S_INR, !mult_INR. change (INR 2) with 2. change (4 ^ S n) with (4 * 4 ^ n).
  pose proof (INR_fact_neq_0 n). pose proof (pos_INR n). assert (4 ^ n <> 0) by (apply pow_nonzero; lra). field. repeat split; auto; lra.
Qed.
Lemma lead_pos n : 0 < lead n. Proof. rewrite lead_g. apply g_pos. Qed.
Lemma G_00 n : G n 0 = 2 * lead n. Proof. rewrite lead_g. apply G_0. Qed.

Lemma fold_rev {St} (f : St -> nat -> option St) (I : nat -> St -> Prop) a N : forall s,
  (forall q s, (q < N)%nat -> I (S q) s -> exists s', f s (a + q)%nat = Some s' /\ I q s') -> I N s -> exists s', foldM f (rev (seq a N)) s = Some s' /\ I 0%nat s'.
Proof.
  induction N; intros s H HI; [exists s; auto|]. rewrite seq_S, rev_app_distr. cbn [rev app foldM]. destruct (H N s ltac:(lia) HI) as (s1 & E1 & I1). rewrite E1. cbn [bind]. apply IHN; auto.
Qed.

Section Coefs.
Variables n off : nat.
Let ncp := ((n + 1) / 2)%nat.
Definition cpv (k : nat) : R := G n (ncp - k) / G n 0.
Definition dcpv (k : nat) : R := wave n (ncp - k) * cpv k.
Definition held (V : nat -> R) (lo : nat) (a : list R) : Prop := forall k, (lo <= k <= ncp)%nat -> nth (off + k - 1) a 0 = V k.
Definition outside (a a' : list R) : Prop := length a' = length a /\ forall p, (p < off \/ off + ncp <= p)%nat -> nth p a' 0 = nth p a 0.
Definition T (j : nat) : R * R * R * R := (2 * INR j - 1, INR n + 1 - INR j, INR j, 2 * INR n + 1 - 2 * INR j).
Lemma T_0 : (-1, INR n + 1, 0, INR n + INR n + 1) = T 0.
Proof. unfold T. cbn [INR]. repeat match goal with |- (_, _) = (_, _) => apply f_equal2 end; ring. Qed.
Lemma T_S j : t_step (T j) = T (S j).
Proof. unfold T, t_step. rewrite S_INR. repeat match goal with |- (_, _) = (_, _) => apply f_equal2 end; ring. Qed.
Lemma T_ratio j : (S j <= n)%nat -> t_ratio (T (S j)) * (G n j / G n 0) = G n (S j) / G n 0.
Proof.
  intros H. pose proof (G_next n j H) as E. unfold t_ratio, T. rewrite S_INR. pose proof (pos_INR j). apply le_INR in H. rewrite S_INR in H.
  assert (G0 : G n 0 <> 0) by (rewrite G_00; pose proof (lead_pos n); lra).
  assert (GJ : G n (S j) = G n j * ((2 * INR j + 1) * (2 * (INR n - INR j))) / ((2 * INR j + 2) * (2 * (INR n - INR j) - 1))) by (apply (Rmult_eq_reg_r ((2 * INR j + 2) * (2 * (INR n - INR j) - 1))); [rewrite E; field; lra|nra]). rewrite GJ. field. repeat split; lra.
Qed.
Lemma upd_held V lo a k v : held V (S k) a -> lo = k -> (1 <= k)%nat -> (off + ncp <= length a)%nat -> (k <= ncp)%nat -> v = V k -> held V lo (upd0 a (off + k - 1) v).
Proof.
  intros H -> K L KN -> p Hp. rewrite nth_upd0 by lia. destruct (Nat.eqb_spec (off + p - 1) (off + k - 1)); [f_equal; lia|apply H; lia].
Qed.
Lemma upd_outside a a' k v : outside a a' -> (1 <= k <= ncp)%nat -> (off + ncp <= length a)%nat -> outside a (upd0 a' (off + k - 1) v).
Proof.
  intros [L H] K LA. split; [rewrite upd0_length; auto|]. intros p Hp. rewrite nth_upd0 by lia. destruct (Nat.eqb_spec p (off + k - 1)); [lia|auto].
Qed.
Lemma fill_ok odd cp dcp : (off + ncp <= length cp)%nat -> (off + ncp <= length dcp)%nat -> held cpv 1 cp ->
  (forall k, (1 <= k <= ncp)%nat -> INR (k + k - odd) = wave n (ncp - k)) ->
  exists dcp', fill_dcp odd off ncp cp dcp = Some dcp' /\ outside dcp dcp' /\ held dcpv 1 dcp'.
Proof.
  intros LC LD H W. unfold fill_dcp.
  destruct (fold_seq (fun dcp j => let* x := rd cp (off + j) in wrx dcp (off + j) (INR (j + j - odd) * x))
    (fun q s => outside dcp s /\ forall k, (1 <= k <= q)%nat -> nth (off + k - 1) s 0 = dcpv k) ncp 1%nat dcp) as (d' & E & O' & V').
  - intros q s Hq [OS VS]. rewrite rd_nth0 by lia. cbn [bind]. destruct OS as [LS OS]. destruct (wrx_some s (off + (1 + q)) (INR (1 + q + (1 + q) - odd) * nth (off + (1 + q) - 1) cp 0) ltac:(lia)) as [WR _]. rewrite WR. eexists. split; [reflexivity|]. split.
    + apply upd_outside; [split; auto|lia|lia].
    + intros k Hk. rewrite nth_upd0 by lia. destruct (Nat.eqb_spec (off + k - 1) (off + (1 + q) - 1)); [|apply VS; lia]. assert (k = 1 + q)%nat as -> by lia. rewrite W, H by lia. reflexivity.
  - split; [split; auto|intros; lia].
  - exists d'. split; [exact E|]. split; [exact O'|exact V'].
Qed.
Lemma cpdp_ok cp dcp : (1 <= n)%nat -> (off + ncp <= length cp)%nat -> (off + ncp <= length dcp)%nat ->
  exists cz cp' dcp', cpdp n off cp dcp = Some (cz, cp', dcp') /\ outside cp cp' /\ outside dcp dcp' /\
    held cpv 1 cp' /\ held dcpv 1 dcp' /\ ((n mod 2 = 0)%nat -> cz = G n (n / 2) / G n 0).
Proof.
  intros Hn LC LD. assert (G0 : G n 0 <> 0) by (rewrite G_00; pose proof (lead_pos n); lra).
  assert (NB : (1 <= ncp <= n)%nat).
  { unfold ncp. split; [apply Nat.div_le_lower_bound; lia|]. assert ((n + 1) / 2 < n + 1)%nat by (apply Nat.div_lt; lia). lia. }
  assert (W1 : wrx cp (off + ncp) 1 = Some (upd0 cp (off + ncp - 1) 1)) by (apply wrx_some; lia).
  assert (H1 : held cpv ncp (upd0 cp (off + ncp - 1) 1)) by (apply upd_held; auto; try lia; [intros k Hk; lia|unfold cpv; rewrite Nat.sub_diag; field; auto]).
  assert (O1 : outside cp (upd0 cp (off + ncp - 1) 1)) by (apply upd_outside; [split; auto|lia|lia]).
  unfold cpdp. fold ncp. cbv zeta. rewrite T_0. destruct (Nat.eqb_spec (n mod 2) 0) as [EV|OD].
  - rewrite W1. cbn [bind].
    destruct (fold_rev (fun s j => let* x := rd (fst s) (off + j) in let* cp := wrx (fst s) (off + (j - 1)) (t_ratio (t_step (snd s)) * x) in Some (cp, t_step (snd s)))
      (fun q s => outside cp (fst s) /\ held cpv (q + 1) (fst s) /\ snd s = T (ncp - 1 - q)) 2 (ncp - 1) (upd0 cp (off + ncp - 1) 1, T 0)) as ([c t] & E & OC & HC & ET).
    + intros q [c t] Hq (OC & HC & ET). cbn [fst snd] in *. pose proof OC as [LCc _]. rewrite rd_nth0 by lia. cbn [bind]. rewrite ET, T_S. rewrite (HC (2 + q)%nat) by lia.
      replace (S (ncp - 1 - S q)) with (S (ncp - (2 + q))) by lia. unfold cpv at 1. rewrite T_ratio by lia. replace (off + (2 + q - 1))%nat with (off + (1 + q))%nat by lia.
      destruct (wrx_some c (off + (1 + q)) (G n (S (ncp - (2 + q))) / G n 0) ltac:(lia)) as [WR _]. rewrite WR. cbn [bind]. eexists. split; [reflexivity|]. cbn [fst snd]. split; [apply upd_outside; auto; lia|]. split; [|f_equal; lia].
      apply upd_held; auto; try lia. * replace (S (1 + q)) with (S q + 1)%nat by lia. auto. * unfold cpv. do 2 f_equal. lia.
    + cbn [fst snd]. split; auto. split; [replace (ncp - 1 + 1)%nat with ncp by lia; auto|]. f_equal. lia.
    + rewrite E. cbn [bind fst snd] in *. pose proof OC as [LCc _]. rewrite rd_nth0 by lia. cbn [bind].
      assert (NE : (ncp = n / 2 /\ n = 2 * (n / 2))%nat) by (pose proof (Nat.div_mod n 2 ltac:(lia)) as X; rewrite EV in X; unfold ncp; split; [|lia]; rewrite X at 1; rewrite Nat.add_0_r; apply half_o).
      destruct (fill_ok 0 c dcp) as (d' & F & OD & HD); [lia|lia|auto| |].
      { intros k Hk. unfold wave. rewrite Nat.sub_0_r, plus_INR, minus_INR by lia. destruct NE as [N1 N2]. assert (EN : INR n = 2 * INR ncp) by (rewrite N2 at 1; rewrite mult_INR, <- N1; reflexivity). rewrite EN. ring. }
      rewrite F. cbn [bind]. do 3 eexists. split; [reflexivity|]. split; auto. split; auto. split; auto. split; auto. intros _. rewrite (HC 1%nat) by lia. rewrite ET, T_S. unfold cpv. replace (ncp - 1 - 0)%nat with (ncp - 1)%nat by lia. rewrite T_ratio by lia. do 2 f_equal. lia.
  - rewrite W1. cbn [bind].
    destruct (fold_rev (fun s j => let* x := rd (fst s) (off + (j + 1)) in let* cp := wrx (fst s) (off + j) (t_ratio (t_step (snd s)) * x) in Some (cp, t_step (snd s)))
      (fun q s => outside cp (fst s) /\ held cpv (q + 1) (fst s) /\ snd s = T (ncp - 1 - q)) 1 (ncp - 1) (upd0 cp (off + ncp - 1) 1, T 0)) as ([c t] & E & OC & HC & ET).
    + intros q [c t] Hq (OC & HC & ET). cbn [fst snd] in *. pose proof OC as [LCc _]. rewrite rd_nth0 by lia. cbn [bind]. rewrite ET, T_S. replace (off + (1 + q + 1))%nat with (off + (2 + q))%nat by lia. rewrite (HC (2 + q)%nat) by lia.
      replace (S (ncp - 1 - S q)) with (S (ncp - (2 + q))) by lia. unfold cpv at 1. rewrite T_ratio by lia.
      destruct (wrx_some c (off + (1 + q)) (G n (S (ncp - (2 + q))) / G n 0) ltac:(lia)) as [WR _]. rewrite WR. cbn [bind]. eexists. split; [reflexivity|]. cbn [fst snd]. split; [apply upd_outside; auto; lia|]. split; [|f_equal; lia].
      apply upd_held; auto; try lia. * replace (S (1 + q)) with (S q + 1)%nat by lia. auto. * unfold cpv. do 2 f_equal. lia.
    + cbn [fst snd]. split; auto. split; [replace (ncp - 1 + 1)%nat with ncp by lia; auto|]. f_equal. lia.
    + rewrite E. cbn [bind fst snd] in *. pose proof OC as [LCc _].
      assert (NE : (n = 2 * (ncp - 1) + 1)%nat).
      { pose proof (Nat.mod_upper_bound n 2 ltac:(lia)). pose proof (Nat.div_mod n 2 ltac:(lia)) as X. assert (n mod 2 = 1)%nat as M by lia. rewrite M in X. unfold ncp. rewrite X at 2. replace (2 * (n / 2) + 1 + 1)%nat with (2 * (n / 2 + 1))%nat by lia. rewrite half_e. lia. }
      destruct (fill_ok 1 c dcp) as (d' & F & OD' & HD); [lia|lia|auto| |].
      { intros k Hk. unfold wave. rewrite !minus_INR by lia. rewrite plus_INR. assert (EN : INR n = 2 * INR ncp - 1) by (rewrite NE at 1; rewrite plus_INR, mult_INR, minus_INR by lia; change (INR 2) with 2; change (INR 1) with 1; ring). rewrite EN. change (INR 1) with 1. ring. }
      rewrite F. cbn [bind]. do 3 eexists. split; [reflexivity|]. split; auto. split; auto. split; auto. split; auto. intros; lia.
Qed.

Lemma four (a a' b b' c c' d d' : R) : a = a' -> b = b' -> c = c' -> d = d' -> (a, b, c, d) = (a', b', c', d').
Proof. intros -> -> -> ->. reflexivity. Qed.
Lemma loop_ok kdo th a cp dcp pb dpb : (off + kdo <= length cp)%nat -> (off + kdo <= length dcp)%nat ->
  exists c s, tpdp_loop off kdo (cos (th + th)) (sin (th + th)) cp dcp (pb, dpb, cos a, sin a) =
    Some (pb + sumR kdo (fun k => nth (off + S k - 1) cp 0 * cos (a + INR k * (th + th))), dpb - sumR kdo (fun k => nth (off + S k - 1) dcp 0 * sin (a + INR k * (th + th))), c, s).
Proof.
  intros LC LD. unfold tpdp_loop.
  destruct (fold_seq (fun s k => let '(pb, dpb, cth, sth) := s in let* x := rd cp (off + k) in let* y := rd dcp (off + k) in
      Some (pb + x * cth, dpb - y * sth, cos (th + th) * cth - sin (th + th) * sth, sin (th + th) * cth + cos (th + th) * sth))
    (fun q s => s = (pb + sumR q (fun k => nth (off + S k - 1) cp 0 * cos (a + INR k * (th + th))), dpb - sumR q (fun k => nth (off + S k - 1) dcp 0 * sin (a + INR k * (th + th))), cos (a + INR q * (th + th)), sin (a + INR q * (th + th)))) kdo 1%nat (pb, dpb, cos a, sin a)) as (s' & E & ->).
  - intros q s Hq ->. rewrite !rd_nth0 by lia. cbn [bind]. eexists. split; [reflexivity|]. change (1 + q)%nat with (S q). cbn [sumR]. rewrite S_INR.
    replace (a + (INR q + 1) * (th + th)) with ((th + th) + (a + INR q * (th + th))) by ring. rewrite (cos_plus (th + th) (a + INR q * (th + th))), (sin_plus (th + th) (a + INR q * (th + th))). apply four; ring.
  - cbn. replace (a + 0 * (th + th)) with a by ring. rewrite Rplus_0_r, Rminus_0_r. auto.
  - rewrite E. do 2 eexists. reflexivity.
Qed.
Lemma tpdp_ok cz cp dcp t : (1 <= n)%nat -> (off + ncp <= length cp)%nat -> (off + ncp <= length dcp)%nat -> held dcpv 1 dcp ->
  exists pb, tpdp n off t cz cp dcp = Some (pb, slope n t) /\ (held cpv 1 cp -> ((n mod 2 = 0)%nat -> cz = G n (n / 2) / G n 0) -> pb = value n t).
Proof.
  intros Hn LC LD HD. assert (G0 : G n 0 <> 0) by (rewrite G_00; pose proof (lead_pos n); lra).
  assert (EO : exists q, (n = 2 * q \/ n = 2 * q + 1)%nat) by (destruct (Nat.Even_or_Odd n) as [[q E0]|[q E0]]; eauto).
  assert (VA : value n t = Q n t / G n 0) by (unfold value; rewrite leg_Q, G_00; auto).
  assert (SL : slope n t = - (QS n t) / G n 0) by (unfold slope; rewrite D1_QS, G_00; auto).
  unfold tpdp. destruct EO as [q [EQ|EQ]].
  - assert (NH : (n / 2 = q)%nat) by (rewrite EQ; apply half_e). assert (NM : (n mod 2 = 0)%nat) by (rewrite EQ; apply even_nat).
    assert (NC : ncp = q) by (unfold ncp; rewrite EQ; apply half_o). rewrite NM, NH. cbn [Nat.eqb].
    destruct (loop_ok q t (t + t) cp dcp (1 / 2 * cz) 0) as (c & s & E); [lia|lia|]. rewrite E. cbn [bind]. eexists. split.
    + apply f_equal. apply f_equal2; [reflexivity|]. rewrite SL, Rminus_0_l. replace (QS n t) with (QS (2 * q) t) by (f_equal; auto). rewrite QS_even. rewrite <- EQ. unfold Rdiv. rewrite Ropp_mult_distr_l_reverse. f_equal. rewrite <- sumR_scal_r. apply sumR_ext. intros k Hk. rewrite HD by lia. unfold dcpv, cpv. rewrite NC.
      rewrite S_INR. replace (t + t + INR k * (t + t)) with ((INR k + 1) * (t + t)) by ring. field. auto.
    + intros HC CZ. rewrite VA. rewrite (CZ eq_refl). replace (Q n t) with (Q (2 * q) t) by (f_equal; auto). rewrite Q_even. rewrite <- EQ. unfold Rdiv. rewrite Rmult_plus_distr_r, <- sumR_scal_r. f_equal; [ring|]. apply sumR_ext. intros k Hk. rewrite HC by lia. unfold cpv. rewrite NC.
      rewrite S_INR. replace (t + t + INR k * (t + t)) with ((INR k + 1) * (t + t)) by ring. field. auto.
  - assert (NM : (n mod 2 = 1)%nat) by (rewrite EQ; apply odd_nat).
    assert (NC : ncp = (q + 1)%nat) by (unfold ncp; rewrite EQ; replace (2 * q + 1 + 1)%nat with (2 * (q + 1))%nat by lia; apply half_e). rewrite NM. cbn [Nat.eqb]. fold ncp. rewrite NC.
    destruct (loop_ok (q + 1) t t cp dcp 0 0) as (c & s & E); [lia|lia|]. rewrite E. cbn [bind]. eexists. split.
    + apply f_equal. apply f_equal2; [reflexivity|]. rewrite SL, Rminus_0_l. replace (QS n t) with (QS (2 * q + 1) t) by (f_equal; auto). rewrite QS_odd. rewrite <- EQ. unfold Rdiv. rewrite Ropp_mult_distr_l_reverse. f_equal. rewrite <- sumR_scal_r. apply sumR_ext. intros k Hk. rewrite HD by lia. unfold dcpv, cpv. rewrite NC.
      replace (q + 1 - S k)%nat with (q - k)%nat by lia. field. auto.
    + intros HC _. rewrite VA. replace (Q n t) with (Q (2 * q + 1) t) by (f_equal; auto). rewrite Q_odd. rewrite <- EQ. unfold Rdiv. rewrite Rplus_0_l, <- sumR_scal_r. apply sumR_ext. intros k Hk. rewrite HC by lia. unfold cpv. rewrite NC.
      replace (q + 1 - S k)%nat with (q - k)%nat by lia. field. auto.
Qed.
End Coefs.

Lemma slope_derive n t : derivable_pt_lim (value n) t (slope n t).
Proof.
  unfold value, slope. pose proof (lead_pos n).
  replace (- (sin t * D 1 n (cos t)) / (2 * lead n)) with (/ (2 * lead n) * (D 1 n (cos t) * - sin t)) by (field; lra).
  assert (E : forall f g x l, (forall y, f y = g y) -> derivable_pt_lim f x l -> derivable_pt_lim g x l).
  { intros f h x l EX DL e He. destruct (DL e He) as [d Hd]. exists d. intros u Hu Hl. rewrite <- !EX. auto. }
  apply E with (fun t => / (2 * lead n) * leg n (cos t)); [intros; unfold Rdiv; ring|].
  apply (derivable_pt_lim_scal (fun t => leg n (cos t))). apply (derivable_pt_lim_comp cos (leg n)); [apply derivable_pt_lim_cos|apply (D_derive 0)].
Qed.
