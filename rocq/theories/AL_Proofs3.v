(** alfk, lfpt and getlegfunc return the normalised functions. *)
From Coq Require Import Reals List Arith ZArith Lia Bool Lra.
From Verif Require Import Base Buffer VH_Model RS_Spec RS_Dft RS_Proofs6 GS_Spec GS_Proofs1 LG_Spec LG_Proofs1 LG_Model LG_Proofs3 LG_Proofs4 LG_Proofs5 LG_Proofs6 SH_Model SH_Spec SH_Proofs SH_Proofs7 AL_Model AL_Proofs1 AL_Proofs2.
Import ListNotations.
Local Open Scope R_scope.

Definition neg_odd (m : Z) : bool := andb (m <? 0)%Z (negb (Z.abs_nat m mod 2 =? 0)%nat).
Lemma first_scal a b f s x : AL_Model.cp_first a b f (s * x) = s * LG_Model.cp_first a b f x.
Proof. unfold AL_Model.cp_first, LG_Model.cp_first, Rdiv. ring. Qed.
Lemma next_scal a b f s x y : AL_Model.cp_next a b f (s * x) (s * y) = s * LG_Model.cp_next a b f x y.
Proof. unfold AL_Model.cp_next, LG_Model.cp_next, Rdiv. ring. Qed.
Definition filled (c : nat -> R) (s : R) (L lo : nat) (cp : list R) : Prop := forall p, (lo <= p <= L)%nat -> nth (p - 1) cp 0 = s * c (L - p)%nat.

Lemma down_ok n m c s0 top cp : (2 <= n)%nat -> (n / 2 + 1 <= length cp)%nat -> series (Z.abs_nat m) n c -> top = s0 * c 0%nat ->
  exists cp', alfk_down n m top cp = Some cp' /\ length cp' = length cp /\ filled c (if neg_odd m then - s0 else s0) (top_pos (Z.abs_nat m) n) 1 cp'.
Proof.
  intros Hn HL HS ->. unfold alfk_down. set (ma := Z.abs_nat m) in *. cbv zeta. fold (top_pos ma n). pose proof (top_pos_bounds ma n ltac:(lia)) as TP.
  set (L := top_pos ma n) in *. destruct TP as (T1 & T2 & T3). pose proof (rec_first ma n c (ser_sym _ _ _ HS) (ser_rep _ _ _ HS)) as RF. pose proof (rec_next ma n c (ser_sym _ _ _ HS) (ser_rep _ _ _ HS)) as RN.
  destruct (wrx_some cp L (s0 * c 0%nat) ltac:(lia)) as [W0 L0]. rewrite W0. cbn [bind]. set (cp0 := upd0 cp (L - 1) (s0 * c 0%nat)) in *.
  set (s := if neg_odd m then - s0 else s0).
  assert (X : exists cp1, (if andb (m <? 0)%Z (negb (ma mod 2 =? 0)%nat) then let* x := rd cp0 L in wrx cp0 L (- x) else Some cp0) = Some cp1 /\ length cp1 = length cp /\ filled c s L L cp1).
  { change (andb (m <? 0)%Z (negb (ma mod 2 =? 0)%nat)) with (neg_odd m). unfold s. destruct (neg_odd m).
    - rewrite rd_nth0 by lia. cbn [bind]. assert (V0 : nth (L - 1) cp0 0 = s0 * c 0%nat) by (unfold cp0; rewrite nth_upd0, Nat.eqb_refl by lia; auto). rewrite V0. destruct (wrx_some cp0 L (- (s0 * c 0%nat)) ltac:(lia)) as [W1 L1]. rewrite W1. eexists. split; [reflexivity|]. split; [lia|].
      intros p Hp. assert (p = L) as -> by lia. rewrite nth_upd0, Nat.eqb_refl by lia. replace (L - L)%nat with 0%nat by lia. ring.
    - exists cp0. split; auto. split; [lia|]. intros p Hp. assert (p = L) as -> by lia. unfold cp0. rewrite nth_upd0, Nat.eqb_refl by lia. replace (L - L)%nat with 0%nat by lia. ring. }
  destruct X as (cp1 & E1 & L1 & V1). rewrite E1. cbn [bind]. clear E1.
  destruct (Nat.leb_spec L 1) as [LE|LE].
  - exists cp1. split; auto. split; [lia|]. intros p Hp. apply V1. lia.
  - rewrite rd_nth0 by lia. cbn [bind]. rewrite (V1 L ltac:(lia)). replace (L - L)%nat with 0%nat by lia.
    rewrite first_scal, RF by auto. destruct (wrx_some cp1 (L - 1) (s * c 1%nat) ltac:(lia)) as [W2 L2]. rewrite W2. cbn [bind]. set (cp2 := upd0 cp1 (L - 1 - 1) (s * c 1%nat)) in *.
    assert (V2 : filled c s L (L - 1) cp2).
    { intros p Hp. unfold cp2. rewrite nth_upd0 by lia. destruct (Nat.eqb_spec (p - 1) (L - 1 - 1)); [do 2 f_equal; lia|apply V1; lia]. }
    destruct (fold_down (fun s l => let* x := rd (fst s) l in let* y := rd (fst s) (l + 1) in
        let* cp := wrx (fst s) (l - 1) (AL_Model.cp_next (INR (n * (n + 1))) (INR (n * (n + 1)) - 2 * INR (ma * ma))%R (snd s - 2) x y) in Some (cp, snd s - 2))
      (fun q0 st => length (fst st) = length cp /\ filled c s L (q0 + 1) (fst st) /\ snd st = INR n - 2 * INR (L - 2 - q0)) (L - 2) (cp2, INR n)) as ([cp3 fk3] & E3 & L3 & V3 & _).
    + intros q0 [d fk] Hq (Lc & Vc & Ef). cbn [fst snd] in *. cbv zeta. rewrite !rd_nth0 by lia. cbn [bind]. rewrite (Vc (2 + q0)%nat), (Vc (2 + q0 + 1)%nat) by lia.
      assert (EF : fk - 2 = INR n - 2 * INR (S (L - (2 + q0 + 1)))) by (rewrite Ef, S_INR; replace (L - 2 - S q0)%nat with (L - (2 + q0 + 1))%nat by lia; ring). rewrite EF.
      replace (L - (2 + q0))%nat with (S (L - (2 + q0 + 1))) by lia. rewrite next_scal, RN by lia.
      destruct (wrx_some d (2 + q0 - 1) (s * c (S (S (L - (2 + q0 + 1))))) ltac:(lia)) as [W3 L3]. rewrite W3. cbn [bind]. eexists. split; [reflexivity|]. cbn [fst snd]. split; [lia|]. split.
      * intros p Hp. rewrite nth_upd0 by lia. destruct (Nat.eqb_spec (p - 1) (2 + q0 - 1 - 1)); [do 2 f_equal; lia|apply Vc; lia].
      * do 3 f_equal. lia.
    + cbn [fst snd]. split; [lia|]. split; [replace (L - 2 + 1)%nat with (L - 1)%nat by lia; auto|]. replace (L - 2 - (L - 2))%nat with 0%nat by lia. cbn [INR]. ring.
    + rewrite E3. cbn [bind fst]. exists cp3. auto.
Qed.

(** ** lfpt *)
Lemma pt_ok (sn : bool) k0 kdo th a cp sum : (1 <= k0)%nat -> (k0 + kdo <= S (length cp))%nat ->
  pt_loop sn (seq k0 kdo) (cos (th + th)) (sin (th + th)) (cos a) (sin a) cp sum = Some (sum + sumR kdo (fun k => nth (k0 + k - 1) cp 0 * (if sn then sin (a + INR (S k) * (th + th)) else cos (a + INR (S k) * (th + th))))).
Proof.
  intros H0 HL. unfold pt_loop.
  destruct (fold_seq (fun s k => let '(ct, st, sum) := s in let* c := rd cp k in
      Some (cos (th + th) * ct - sin (th + th) * st, sin (th + th) * ct + cos (th + th) * st, sum + c * (if sn then sin (th + th) * ct + cos (th + th) * st else cos (th + th) * ct - sin (th + th) * st)))
    (fun q s => s = (cos (a + INR q * (th + th)), sin (a + INR q * (th + th)), sum + sumR q (fun k => nth (k0 + k - 1) cp 0 * (if sn then sin (a + INR (S k) * (th + th)) else cos (a + INR (S k) * (th + th)))))) kdo k0 (cos a, sin a, sum)) as (s' & E & ->).
  - intros q s Hq ->. rewrite rd_nth0 by lia. cbn [bind]. eexists. split; [reflexivity|]. cbn [sumR].
    assert (A : a + INR (S q) * (th + th) = (th + th) + (a + INR q * (th + th))) by (rewrite S_INR; ring). rewrite !A, (cos_plus (th + th) (a + INR q * (th + th))), (sin_plus (th + th) (a + INR q * (th + th))). apply triple; [ring|ring|destruct sn; ring].
  - cbn [sumR INR]. replace (a + 0 * (th + th)) with a by ring. rewrite Rplus_0_r. auto.
  - cbv zeta. rewrite E. reflexivity.
Qed.
Lemma pt_ok0 (sn : bool) k0 kdo th cp sum : (1 <= k0)%nat -> (k0 + kdo <= S (length cp))%nat ->
  pt_loop sn (seq k0 kdo) (cos (th + th)) (sin (th + th)) 1 0 cp sum = Some (sum + sumR kdo (fun k => nth (k0 + k - 1) cp 0 * (if sn then sin (INR (S k) * (th + th)) else cos (INR (S k) * (th + th))))).
Proof. intros H0 HL. pose proof (pt_ok sn k0 kdo th 0 cp sum H0 HL) as E. rewrite cos_0, sin_0 in E. rewrite E. do 2 f_equal. apply sumR_ext. intros k _. rewrite Rplus_0_l. auto. Qed.
(** the waves of nonnegative number *)
Lemma fold_even m q0 c t : (forall j, (j <= 2 * q0)%nat -> c (2 * q0 - j)%nat = sg m * c j) ->
  1 / 2 * sumR (S (2 * q0)) (fun j => c j * e m (wave (2 * q0) j * t)) = (if ev m then 1 / 2 * c q0 else 0) + sumR q0 (fun k => c (q0 - S k)%nat * e m (INR (S k) * (t + t))).
Proof.
  intros Sy. rewrite sumR_pairs. replace (S (2 * q0) / 2)%nat with q0 by (apply Nat.div_unique with 1%nat; lia). replace (Nat.odd (S (2 * q0))) with true by (rewrite Nat.odd_succ, Nat.even_mul; auto).
  replace (wave (2 * q0) q0) with 0 by (unfold wave; rewrite mult_INR; cbn [INR]; ring). rewrite Rmult_plus_distr_l, Rplus_comm. f_equal.
  - rewrite Rmult_0_l. unfold e. destruct (ev m); [rewrite cos_0|rewrite sin_0]; ring.
  - rewrite sumR_rev, <- sumR_scal. apply sumR_ext. intros k Hk. replace (S (2 * q0) - 1 - (q0 - 1 - k))%nat with (2 * q0 - (q0 - S k))%nat by lia. replace (q0 - 1 - k)%nat with (q0 - S k)%nat by lia. rewrite wave_mirror, Sy by lia.
    replace (wave (2 * q0) (q0 - S k)) with (2 * INR (S k)) by (unfold wave; rewrite minus_INR by lia; rewrite mult_INR; cbn [INR]; ring). replace (- (2 * INR (S k)) * t) with (- (INR (S k) * (t + t))) by ring. replace (2 * INR (S k) * t) with (INR (S k) * (t + t)) by ring.
    unfold e, sg. destruct (ev m); [rewrite cos_neg|rewrite sin_neg]; field.
Qed.
Lemma fold_odd m q0 c t : (forall j, (j <= 2 * q0 + 1)%nat -> c (2 * q0 + 1 - j)%nat = sg m * c j) ->
  1 / 2 * sumR (S (2 * q0 + 1)) (fun j => c j * e m (wave (2 * q0 + 1) j * t)) = sumR (q0 + 1) (fun k => c (q0 - k)%nat * e m (t + INR k * (t + t))).
Proof.
  intros Sy. rewrite sumR_pairs. replace (S (2 * q0 + 1) / 2)%nat with (q0 + 1)%nat by (apply Nat.div_unique with 0%nat; lia). rewrite odd_even2. rewrite Rplus_0_r.
  rewrite sumR_rev, <- sumR_scal. apply sumR_ext. intros k Hk. replace (S (2 * q0 + 1) - 1 - (q0 + 1 - 1 - k))%nat with (2 * q0 + 1 - (q0 - k))%nat by lia. replace (q0 + 1 - 1 - k)%nat with (q0 - k)%nat by lia. rewrite wave_mirror, Sy by lia.
  replace (wave (2 * q0 + 1) (q0 - k)) with (1 + 2 * INR k) by (unfold wave; rewrite minus_INR by lia; rewrite plus_INR, mult_INR; cbn [INR]; ring). replace (- (1 + 2 * INR k) * t) with (- (t + INR k * (t + t))) by ring. replace ((1 + 2 * INR k) * t) with (t + INR k * (t + t)) by ring.
  unfold e, sg. destruct (ev m); [rewrite cos_neg|rewrite sin_neg]; field.
Qed.
Lemma lfpt_ok n m c s cp th : (2 <= n)%nat -> (Z.abs_nat m <= n)%nat -> (n / 2 + 1 <= length cp)%nat -> series (Z.abs_nat m) n c -> filled c s (top_pos (Z.abs_nat m) n) 1 cp ->
  lfpt n m th cp = Some (s * Pbar (Z.abs_nat m) n th).
Proof.
  intros Hn Hm HL HS V. set (ma := Z.abs_nat m) in *. pose proof (ser_sym _ _ _ HS) as Sy. rewrite (ser_rep _ _ _ HS). unfold lfpt. fold ma. rewrite (proj2 (Nat.ltb_ge n ma)) by auto.
  destruct n as [|[|n']]; try lia. set (n := S (S n')) in *. change (match n with O => _ | _ => ?x end) with x. cbv zeta.
  assert (EO : exists q0, (n = 2 * q0 \/ n = 2 * q0 + 1)%nat) by (destruct (Nat.Even_or_Odd n) as [[q0 E0]|[q0 E0]]; eauto). destruct EO as [q0 [EQ|EQ]].
  - assert (NH : (n / 2 = q0)%nat) by (rewrite EQ; apply half_e). assert (NM : (n mod 2 = 0)%nat) by (rewrite EQ; apply even_nat).
    assert (TP : top_pos ma n = (q0 + if ev ma then 1 else 0)%nat) by (unfold top_pos, ev; rewrite NM; replace ((n + 1) / 2)%nat with q0 by (rewrite EQ; symmetry; apply half_o); cbn [Nat.eqb andb]; destruct (ma mod 2 =? 0)%nat; auto).
    rewrite TP in V. rewrite NH in HL. rewrite NM, NH. cbn [Nat.eqb]. rewrite EQ in Sy. rewrite EQ, (fold_even ma q0 c th Sy). unfold e in *. unfold ev in *. destruct (ma mod 2 =? 0)%nat.
    + rewrite rd_nth0 by lia. cbn [bind]. replace (q0 + 1 - 1)%nat with q0 by lia. rewrite pt_ok0 by lia. f_equal. rewrite Rmult_plus_distr_l, <- sumR_scal. f_equal.
      * rewrite (V 1%nat) by lia. replace (q0 + 1 - 1)%nat with q0 by lia. ring.
      * apply sumR_ext. intros k Hk. rewrite (V (2 + k)%nat) by lia. replace (q0 + 1 - (2 + k))%nat with (q0 - S k)%nat by lia. ring.
    + rewrite pt_ok0 by lia. f_equal. rewrite !Rplus_0_l, <- sumR_scal. apply sumR_ext. intros k Hk. rewrite (V (1 + k)%nat) by lia. replace (q0 + 0 - (1 + k))%nat with (q0 - S k)%nat by lia. ring.
  - assert (NH : (n / 2 = q0)%nat) by (rewrite EQ; apply half_o). assert (NM : (n mod 2 = 1)%nat) by (rewrite EQ; apply odd_nat). assert (NH1 : ((n + 1) / 2 = q0 + 1)%nat) by (rewrite EQ; replace (2 * q0 + 1 + 1)%nat with (2 * (q0 + 1))%nat by lia; apply half_e).
    assert (TP : top_pos ma n = (q0 + 1)%nat) by (unfold top_pos; rewrite NM, NH1; cbn [Nat.eqb andb]; lia).
    rewrite TP in V. rewrite NH in HL. rewrite NM, NH1. cbn [Nat.eqb]. rewrite EQ in Sy. rewrite EQ, (fold_odd ma q0 c th Sy). rewrite <- (cos_neg th), <- sin_neg. rewrite pt_ok by lia. f_equal. rewrite Rplus_0_l, <- sumR_scal. apply sumR_ext. intros k Hk. rewrite (V (1 + k)%nat) by lia.
    replace (q0 + 1 - (1 + k))%nat with (q0 - k)%nat by lia. replace (- th + INR (S k) * (th + th)) with (th + INR k * (th + th)) by (rewrite S_INR; ring). unfold e. unfold ev. destruct (ma mod 2 =? 0)%nat; cbn [negb]; ring.
Qed.

(** ** The two together *)
Lemma cp2_top ma n : cp2 ma n = top ma n.
Proof. reflexivity. Qed.
Definition order_sign (m : Z) : R := if neg_odd m then -1 else 1.
Lemma alfk_ok n m cp : (n / 2 + 1 <= length cp)%nat ->
  exists cp', alfk n m cp = Some cp' /\ length cp' = length cp /\ forall th, lfpt n m th cp' = Some (order_sign m * Pbar (Z.abs_nat m) n th).
Proof.
  intros HL. unfold alfk, alfk_with. assert (HL1 : (1 <= length cp)%nat) by (revert HL; generalize (n / 2)%nat; intros; lia).
  destruct (wrx_some cp 1 0 ltac:(lia)) as [W0 L0]. rewrite W0. cbn [bind]. set (cp0 := upd0 cp (1 - 1) 0) in *. set (ma := Z.abs_nat m).
  destruct (Nat.ltb_spec n ma) as [GT|LE].
  { exists cp0. split; auto. split; auto. intros th. unfold lfpt. fold ma. rewrite (proj2 (Nat.ltb_lt n ma)) by auto. f_equal. unfold Pbar. rewrite D_zero by auto. ring. }
  destruct (Nat.le_gt_cases 2 n) as [N2|N2].
  - destruct (series_exists ma n LE) as [c HS]. destruct n as [|[|n']]; try lia. set (n := S (S n')) in *. change (match n with O => _ | 1%nat => _ | _ => ?x end) with x.
    destruct (down_ok n m c 1 (cp2 ma n) cp0 N2 ltac:(lia) HS) as (cp' & E & L' & V).
    + rewrite cp2_top, top_tops, (ser_top _ _ _ HS) by lia. ring.
    + exists cp'. split; auto. split; [lia|]. intros th. rewrite (lfpt_ok n m c _ cp' th N2 LE ltac:(lia) HS V). unfold order_sign. destruct (neg_odd m); auto.
  - assert (n = 0%nat \/ n = 1%nat) as [->| ->] by lia.
    + assert (MZ : m = 0%Z) by (unfold ma in LE; lia). destruct (wrx_some cp0 1 (sqrt 2) ltac:(lia)) as [W1 L1]. rewrite W1. eexists. split; [reflexivity|]. split; [lia|]. intros th. subst m. unfold lfpt, order_sign, neg_odd. cbn. f_equal. unfold Pbar. rewrite pnorm_0. change (D 0 0 (cos th)) with 1. cbn [pow INR]. rewrite Rplus_0_l. ring.
    + assert (S1 : forall x cp1 th, wrx cp0 1 x = Some cp1 -> lfpt 1 m th cp1 = Some (x * (if (ma mod 2 =? 0)%nat then cos th else sin th))).
      { intros x cp1 th W. destruct (wrx_some cp0 1 x ltac:(lia)) as [W1 L1]. rewrite W1 in W. injection W as <-. cbn [Nat.sub] in L1. unfold lfpt. fold ma. rewrite (proj2 (Nat.ltb_ge 1 ma)) by auto. change (1 mod 2)%nat with 1%nat. cbn [Nat.eqb]. cbv zeta. change ((1 + 1) / 2)%nat with 1%nat.
        rewrite <- (cos_neg th), <- sin_neg. rewrite pt_ok by lia. f_equal. cbn [sumR]. rewrite nth_upd0 by lia. cbn [Nat.sub Nat.eqb Nat.add INR]. replace (- th + 1 * (th + th)) with th by ring. destruct (ma mod 2 =? 0)%nat; cbn [negb]; rewrite ?cos_neg; ring. }
      destruct (Nat.eqb_spec ma 0) as [M0|M0].
      * destruct (wrx_some cp0 1 (sqrt (3 / 2)) ltac:(lia)) as [W1 L1]. rewrite W1. eexists. split; [reflexivity|]. split; [lia|]. intros th. rewrite (S1 _ _ th W1). rewrite M0. assert (m = 0%Z) as -> by (unfold ma in M0; lia). unfold order_sign, neg_odd. cbn. f_equal. unfold Pbar. rewrite pnorm_0. change (D 0 1 (cos th)) with (cos th). cbn [pow INR]. replace (1 + 1 / 2) with (3 / 2) by field. ring.
      * assert (M1 : ma = 1%nat) by lia. destruct (wrx_some cp0 1 (sqrt (3 / 4)) ltac:(lia)) as [W1 L1]. rewrite W1. cbn [bind].
        assert (PB : forall th, Pbar 1 1 th = sqrt (3 / 4) * sin th).
        { intros th. unfold Pbar, pnorm. change (D 1 1 (cos th)) with 1. cbn [fact Nat.sub Nat.add Nat.mul pow INR]. replace ((2 * 1 + 1) / 2 * (1 / (1 + 1))) with (3 / 4) by field. ring. }
        destruct (Z.eqb_spec m (-1)) as [->|NE].
        -- rewrite rd_nth0 by lia. cbn [bind]. rewrite nth_upd0 by lia. cbn [Nat.sub Nat.eqb]. pose proof L1 as L1'. cbn [Nat.sub] in L1'. destruct (wrx_some (upd0 cp0 0 (sqrt (3 / 4))) 1 (- sqrt (3 / 4)) ltac:(lia)) as [W2 L2]. cbn [Nat.sub] in W2, L1, L2. rewrite W2. eexists. split; [reflexivity|]. split; [lia|]. intros th.
           assert (W3 : wrx cp0 1 (- sqrt (3 / 4)) = Some (upd0 (upd0 cp0 0 (sqrt (3 / 4))) 0 (- sqrt (3 / 4)))) by (destruct (wrx_some cp0 1 (- sqrt (3 / 4)) ltac:(lia)) as [W3 _]; rewrite W3; cbn [Nat.sub]; f_equal; destruct cp0; [cbn in L0; lia|reflexivity]).
           rewrite (S1 _ _ th W3). rewrite M1, PB. change (1 mod 2 =? 0)%nat with false. change (order_sign (-1)) with (-1). cbv iota. f_equal. ring.
        -- eexists. split; [reflexivity|]. split; [lia|]. intros th. rewrite (S1 _ _ th W1). rewrite M1, PB. assert (m = 1%Z) as -> by (unfold ma in M1; lia). change (1 mod 2 =? 0)%nat with false. change (order_sign 1) with 1. cbv iota. f_equal. ring.
Qed.

(** ** getlegfunc *)
Lemma loop_pair {A B : Type} (body : A * B -> nat * (nat * nat) -> option (A * B)) (w : B -> nat * (nat * nat) -> option B) (ok : A -> Prop) l :
  (forall a b b' e, In e l -> ok a -> w b e = Some b' -> exists a', body (a, b) e = Some (a', b') /\ ok a') ->
  forall a b b', ok a -> foldM w l b = Some b' -> exists a', foldM body l (a, b) = Some (a', b') /\ ok a'.
Proof.
  induction l as [|x l IH]; intros H a b b' Ha E.
  - cbn in E. injection E as <-. exists a. auto.
  - cbn [foldM] in E |- *. destruct (w b x) as [b1|] eqn:W; [|discriminate]. cbn [bind] in E. destruct (H a b b1 x (or_introl eq_refl) Ha W) as (a1 & E1 & H1). rewrite E1. cbn [bind].
    apply (IH (fun a b b' e I => H a b b' e (or_intror I)) a1 b1 b' H1 E).
Qed.
Definition points (N : nat) (th : R) : list R := map (fun p => Pbar (fst p) (snd p) th) (SH_Spec.pairs N).
Lemma getlegfunc_ok lat N cp junk : (N / 2 + 1 <= length cp)%nat -> length junk = SH_Spec.tri N ->
  AL_Model.getlegfunc lat (Z.of_nat N) cp junk = Some (points N (colatitude lat)).
Proof.
  intros HL HJ. pose proof (SH_Proofs7.getlegfunc_result SH_Model.RR (fun n m => Pbar (Z.to_nat m) (Z.to_nat n) (colatitude lat)) N junk HJ) as E.
  unfold SH_Model.getlegfunc in E. rewrite SH_Proofs.tri_loop_visits in E.
  unfold AL_Model.getlegfunc, getlegfunc_with. rewrite SH_Proofs.tri_loop_visits.
  edestruct (@loop_pair (list R) (list R)) with (ok := fun c : list R => length c = length cp) (a := cp) as (cp' & E' & _); [| |exact E|].
  2: reflexivity.
  2:{ rewrite E'. cbn [option_map snd]. f_equal. unfold points. apply map_ext. intros [m n]. cbn [fst snd]. rewrite !Nat2Z.id. auto. }
  intros a b b' [k [m n]] He Ha W. apply SH_Proofs.enum_in in He. destruct He as [_ He]. rewrite Nat.sub_0_r in He.
  pose proof (SH_Proofs.index_unique _ _ _ _ He) as [_ B]. unfold SH_Proofs.visit in *. cbn [fst snd] in *.
  replace (Z.of_nat n + 1 - 1)%Z with (Z.of_nat n) in * by lia. replace (Z.of_nat m + 1 - 1)%Z with (Z.of_nat m) in * by lia. rewrite !Nat2Z.id in *.
  assert (HN : (n / 2 + 1 <= length a)%nat) by (rewrite Ha; pose proof (Nat.div_le_mono n N 2 ltac:(lia) ltac:(lia)); lia).
  destruct (alfk_ok n (Z.of_nat m) a HN) as (a' & Ea & La & Va). rewrite Ea. cbn [bind]. rewrite Va. cbn [bind]. rewrite Zabs2Nat.id.
  replace (order_sign (Z.of_nat m)) with 1 by (unfold order_sign, neg_odd; rewrite (proj2 (Z.ltb_ge (Z.of_nat m) 0)) by lia; auto). rewrite Rmult_1_l.
  exists a'. split; [|congruence]. match type of W with ?x = _ => change (bind x (fun out => Some (a', out)) = Some (a', b')) end. rewrite W. auto.
Qed.

(** ** The directives in force *)
Lemma g_fact n : g n * (4 ^ n * (INR (fact n) * INR (fact n))) = INR (fact (2 * n)).
Proof.
  induction n; [cbn; ring|]. replace (2 * S n)%nat with (S (S (2 * n))) by lia. rewrite fact2, <- IHn, mult_INR. cbn [g pow]. rewrite (fact_simpl n), mult_INR, S_INR. cbn [INR]. pose proof (pos_INR n). field. lra.
Qed.
Lemma pr_deg n : (2 <= n)%nat -> (if (n mod 2 =? 0)%nat then pr (n / 2) (INR (n + 1)) else pr ((n - 1) / 2) (INR (n + 2))) = 2 ^ n * g n.
Proof.
  intros Hn. destruct (Nat.Even_or_Odd n) as [[k E]|[k E]].
  - rewrite E at 1. rewrite even_nat. cbn [Nat.eqb]. rewrite E at 1 2. rewrite half_e. replace (INR (2 * k + 1)) with (2 * INR k + 1) by (rewrite plus_INR, mult_INR; cbn [INR]; ring). rewrite (proj1 (pr_val k)), <- E. auto.
  - rewrite E at 1. rewrite odd_nat. cbn [Nat.eqb]. rewrite E at 1 2. replace (2 * k + 1 - 1)%nat with (2 * k)%nat by lia. rewrite half_e. replace (INR (2 * k + 1 + 2)) with (2 * INR k + 3) by (rewrite !plus_INR, mult_INR; cbn [INR]; ring). rewrite (proj2 (pr_val k)), <- E. auto.
Qed.
Lemma private_ok copy n cp : (2 <= n)%nat -> (n / 2 + 1 <= length cp)%nat ->
  exists cp', alfk_private copy n 0 cp = Some cp' /\ length cp' = length cp /\ forall th, lfpt n 0 th cp' = Some (Pbar 0 n th / (2 ^ n * g n)).
Proof.
  intros N2 HL. unfold alfk_private, alfk_with. assert (HL1 : (1 <= length cp)%nat) by (revert HL; generalize (n / 2)%nat; intros; lia).
  destruct (wrx_some cp 1 0 ltac:(lia)) as [W0 L0]. rewrite W0. cbn [bind]. set (cp0 := upd0 cp (1 - 1) 0) in *. change (Z.abs_nat 0) with 0%nat. rewrite (proj2 (Nat.ltb_ge n 0)) by lia.
  destruct (series_exists 0 n ltac:(lia)) as [c HS]. assert (X : cp2_private copy 0 n = 1 / (2 ^ n * g n) * c 0%nat).
  { rewrite (ser_top _ _ _ HS) by auto. unfold tops, cp2_private. replace (n + 0)%nat with n by lia. replace (n - 0)%nat with n by lia. change ((0 / 2) mod 2 =? 0)%nat with true. cbv iota. cbn [seq fold_left pt].
    rewrite (t1_final n 20 (1 / AL_Model.sc20) 1 ltac:(lia)) by (change AL_Model.sc20 with LG_Model.sc20; rewrite sc20_pow; field; apply pow_nz).
    pose proof (pr_deg n N2) as PD. pose proof (g_pos n). assert (P1 : 2 ^ n <> 0) by (apply pow_nonzero; lra). assert (P2 : 2 ^ (n - 1) <> 0) by (apply pow_nonzero; lra).
    destruct (n mod 2 =? 0)%nat; rewrite PD; field; repeat split; auto; lra. }
  destruct n as [|[|n']]; try lia. set (n := S (S n')) in *. change (match n with O => _ | 1%nat => _ | _ => ?x end) with x.
  destruct (down_ok n 0 c (1 / (2 ^ n * g n)) _ cp0 N2 ltac:(lia) HS X) as (cp' & E & L' & V). exists cp'. split; auto. split; [lia|]. intros th. rewrite (lfpt_ok n 0 c _ cp' th N2 ltac:(cbn; lia) ltac:(lia) HS V). change (neg_odd 0) with false. cbv iota. f_equal. change (Z.abs_nat 0) with 0%nat. unfold Rdiv. ring.
Qed.
