(** dnlfk and dnlft give the normalised functions of order 0 and 1. *)
From Coq Require Import Reals List Arith ZArith Lia Bool Lra.
From Verif Require Import Base Buffer VH_Model RS_Spec RS_Dft GS_Spec GS_Model GS_Proofs1 LG_Spec LG_Proofs1 LG_Model LG_Proofs3 LG_Proofs4 LG_Proofs5.
Import ListNotations.
Local Open Scope R_scope.

(** ** The coefficient of the highest wave *)
Fixpoint pr (N : nat) (x : R) : R := match N with O => 1 | S k => pr k x * ((x + 2 * INR k) / (2 + 2 * INR k)) end.
Lemma pow_split (z w : Z) : powerRZ 2 (z + w) = powerRZ 2 z * powerRZ 2 w.
Proof. apply powerRZ_add. lra. Qed.
Lemma sc20_pow : sc20 = powerRZ 2 20.
Proof. unfold sc20, sc10. change 20%Z with (10 + 10)%Z. rewrite pow_split. replace (powerRZ 2 10) with 1024; [lra|]. change (powerRZ 2 10) with (2 ^ 10). cbn [pow]. ring. Qed.
Lemma sc40_pow : sc40 = powerRZ 2 40.
Proof. unfold sc40. rewrite sc20_pow. change 40%Z with (20 + 20)%Z. rewrite pow_split. auto. Qed.
Lemma pow_nz z : powerRZ 2 z <> 0.
Proof. apply powerRZ_NOR. lra. Qed.
Lemma quad {A B} (a : A) (b : B) (x x' y y' : R) : x = x' -> y = y' -> (a, b, x, y) = (a, b, x', y').
Proof. intros -> ->. reflexivity. Qed.
Lemma iter_t1 N x : exists t nex, Nat.iter N t1_step (1 / sc20, 20%Z, x, 2) = (t, nex, x + 2 * INR N, 2 + 2 * INR N) /\ t * powerRZ 2 nex = pr N x.
Proof.
  induction N.
  - exists (1 / sc20), 20%Z. split; [cbn [Nat.iter nat_rect INR]; apply quad; ring|]. rewrite sc20_pow. cbn [pr]. field. apply pow_nz.
  - destruct IHN as (t & nex & E & H). cbn [Nat.iter nat_rect]. unfold Nat.iter in E. rewrite E. unfold t1_step. pose proof (pos_INR N).
    destruct (Rlt_dec sc20 ((x + 2 * INR N) * t / (2 + 2 * INR N))); eexists; eexists; (split; [rewrite S_INR; apply quad; ring|]); cbn [pr]; rewrite <- H.
    + rewrite pow_split, sc40_pow. field. split; [lra|apply pow_nz].
    + field. lra.
Qed.
Lemma pr_shift N x : pr N (x + 2) * x = pr N x * (x + 2 * INR N).
Proof.
  induction N; [cbn; ring|]. cbn [pr]. rewrite S_INR. pose proof (pos_INR N).
  transitivity ((pr N (x + 2) * x) * ((x + 2 + 2 * INR N) / (2 + 2 * INR N))); [ring|]. rewrite IHN. field. lra.
Qed.
Lemma pr_val q : pr q (2 * INR q + 1) = 2 ^ (2 * q) * g (2 * q) /\ pr q (2 * INR q + 3) = 2 ^ (2 * q + 1) * g (2 * q + 1).
Proof.
  assert (A : forall q, pr q (2 * INR q + 1) = 2 ^ (2 * q) * g (2 * q) -> pr q (2 * INR q + 3) = 2 ^ (2 * q + 1) * g (2 * q + 1)).
  { intros p H. pose proof (pr_shift p (2 * INR p + 1)) as S0. replace (2 * INR p + 1 + 2) with (2 * INR p + 3) in S0 by ring. rewrite H in S0. pose proof (pos_INR p).
    apply (Rmult_eq_reg_r (2 * INR p + 1)); [|lra]. rewrite S0. replace (2 * p + 1)%nat with (S (2 * p)) by lia. cbn [pow g]. rewrite mult_INR. cbn [INR]. field. lra. }
  assert (B : pr q (2 * INR q + 1) = 2 ^ (2 * q) * g (2 * q)); [|auto].
  induction q; [cbn; ring|]. apply A in IHq. rewrite S_INR. replace (2 * (INR q + 1) + 1) with (2 * INR q + 3) by ring. cbn [pr]. rewrite IHq. pose proof (pos_INR q).
  replace (2 * S q)%nat with (S (2 * q + 1)) by lia. cbn [pow g]. rewrite plus_INR, mult_INR. cbn [INR]. field. lra.
Qed.
Lemma t1_final n nex t P : (1 <= n)%nat -> t * powerRZ 2 nex = P -> t / powerRZ 2 (Z.of_nat n - 1 - nex) = P / 2 ^ (n - 1).
Proof.
  intros Hn <-. replace (Z.of_nat n - 1 - nex)%Z with (Z.of_nat (n - 1) + - nex)%Z by lia. rewrite pow_split, powerRZ_neg'. rewrite <- pow_powerRZ. field. split; [apply pow_nonzero; lra|apply pow_nz].
Qed.
Lemma pnorm_0 n : pnorm 0 n = sqrt (INR n + 1 / 2).
Proof. unfold pnorm. f_equal. replace (n - 0)%nat with n by lia. replace (n + 0)%nat with n by lia. field. apply INR_fact_neq_0. Qed.
Lemma pnorm_1 n : (1 <= n)%nat -> INR n * pnorm 1 n = sqrt ((INR n + 1 / 2) * (INR n / (INR n + 1))).
Proof.
  intros Hn. unfold pnorm. destruct n as [|k]; [lia|]. replace (S k - 1)%nat with k by lia. replace (S k + 1)%nat with (S (S k)) by lia. rewrite fact2. pose proof (pos_INR (S k)). pose proof (fact_pos k). pose proof (pos_INR k).
  rewrite <- (sqrt_square (INR (S k))) at 1 by auto. rewrite <- sqrt_mult_alt by nra. f_equal. rewrite S_INR. field. lra.
Qed.

(** the coefficient of the wave n - 2j *)
Definition C (m n j : nat) : R := pnorm m n * (if (m =? 0)%nat then G n j else G n j * wave n j).
Lemma even_nat q : ((2 * q) mod 2 = 0)%nat. Proof. rewrite Nat.mul_comm. apply Nat.mod_mul. lia. Qed.
Lemma odd_nat q : ((2 * q + 1) mod 2 = 1)%nat. Proof. rewrite Nat.add_comm, Nat.mul_comm, Nat.mod_add by lia. reflexivity. Qed.
Lemma half_e q : (2 * q / 2 = q)%nat. Proof. rewrite Nat.mul_comm. apply Nat.div_mul. lia. Qed.
Lemma half_o q : ((2 * q + 1) / 2 = q)%nat. Proof. symmetry. apply Nat.div_unique with 1%nat; lia. Qed.
Lemma G_0 n : G n 0 = 2 * g n.
Proof. unfold G. replace (n - 0)%nat with n by lia. cbn [g]. ring. Qed.
Lemma two_pow n : (1 <= n)%nat -> 2 ^ n = 2 * 2 ^ (n - 1).
Proof. intros. destruct n; [lia|]. replace (S n - 1)%nat with n by lia. reflexivity. Qed.
Lemma top_ok m n : (m <= 1)%nat -> (2 <= n)%nat -> top m n = C m n 0.
Proof.
  intros Hm Hn. assert (EO : exists q, (n = 2 * q \/ n = 2 * q + 1)%nat) by (destruct (Nat.Even_or_Odd n) as [[q E]|[q E]]; eauto). destruct EO as [q EO].
  assert (W : wave n 0 = INR n) by (unfold wave; cbn [INR]; ring). pose proof (pos_INR n) as Pn. assert (PW : 2 ^ (n - 1) <> 0) by (apply pow_nonzero; lra).
  unfold C. rewrite W, G_0. assert (m = 0%nat \/ m = 1%nat) as [->| ->] by lia; cbn [Nat.eqb].
  - rewrite pnorm_0. unfold top. replace (n + 0)%nat with n by lia. replace (n - 0)%nat with n by lia. cbn [Nat.iter nat_rect]. change ((0 / 2) mod 2 =? 0)%nat with true. cbv iota.
    destruct EO as [E|E].
    + assert (EV : (n mod 2 =? 0)%nat = true) by (rewrite E, even_nat; auto). rewrite EV. destruct (iter_t1 (n / 2) (INR (n + 1))) as (t & nex & I & H). rewrite I. rewrite (t1_final n nex t _ ltac:(lia) H).
      assert (HP : pr (n / 2) (INR (n + 1)) = 2 ^ n * g n) by (rewrite E at 1 2; rewrite half_e; replace (INR (2 * q + 1)) with (2 * INR q + 1) by (rewrite plus_INR, mult_INR; cbn [INR]; ring); rewrite (proj1 (pr_val q)), <- E; auto).
      rewrite HP, (two_pow n) by lia. rewrite Rmult_1_r. field. auto.
    + assert (EV : (n mod 2 =? 0)%nat = false) by (rewrite E, odd_nat; auto). rewrite EV. destruct (iter_t1 ((n - 1) / 2) (INR (n + 2))) as (t & nex & I & H). rewrite I. rewrite (t1_final n nex t _ ltac:(lia) H).
      assert (HP : pr ((n - 1) / 2) (INR (n + 2)) = 2 ^ n * g n) by (rewrite E at 1 2; replace (2 * q + 1 - 1)%nat with (2 * q)%nat by lia; rewrite half_e; replace (INR (2 * q + 1 + 2)) with (2 * INR q + 3) by (rewrite !plus_INR, mult_INR; cbn [INR]; ring); rewrite (proj2 (pr_val q)), <- E; auto).
      rewrite HP, (two_pow n) by lia. rewrite Rmult_1_r. field. auto.
  - transitivity (2 * g n * (INR n * pnorm 1 n)); [|ring]. rewrite pnorm_1 by lia. unfold top. change ((1 / 2) mod 2 =? 0)%nat with true. cbv iota. cbn [Nat.iter nat_rect t2_step].
    destruct EO as [E|E].
    + assert (EV : ((n + 1) mod 2 =? 0)%nat = false) by (rewrite E, odd_nat; auto). rewrite EV. destruct q as [|p]; [lia|].
      destruct (iter_t1 ((n - 1 - 1) / 2) (INR (n + 1 + 2))) as (t & nex & I & H). rewrite I. rewrite (t1_final n nex t _ ltac:(lia) H).
      assert (HP : pr ((n - 1 - 1) / 2) (INR (n + 1 + 2)) = 2 ^ n * g n * (INR n / (INR n + 1))).
      { replace (n - 1 - 1)%nat with (2 * p)%nat by lia. rewrite half_e. pose proof (pr_shift p (2 * INR p + 3)) as S0. rewrite (proj2 (pr_val p)) in S0. pose proof (pos_INR p).
        replace (INR (n + 1 + 2)) with (2 * INR p + 3 + 2) by (rewrite E, !plus_INR, mult_INR, (S_INR p); cbn [INR]; ring).
        apply (Rmult_eq_reg_r (2 * INR p + 3)); [|lra]. rewrite S0. assert (EN : INR n = 2 * INR p + 2) by (rewrite E, mult_INR, (S_INR p); cbn [INR]; ring). rewrite EN.
        assert (E' : n = S (2 * p + 1)) by lia. rewrite E'. cbn [pow g]. rewrite plus_INR, mult_INR. cbn [INR]. field. lra. }
      rewrite HP, (two_pow n) by lia. assert (Pos : 0 < INR n) by (apply lt_0_INR; lia).
      assert (F : INR (n - 1 + 2) = INR n + 1) by (replace (n - 1 + 2)%nat with (n + 1)%nat by lia; rewrite plus_INR; reflexivity). rewrite F.
      replace (INR n + 1 + -1) with (INR n) by ring.
      transitivity (2 * g n * (INR n / (INR n + 1) * sqrt ((INR n + 1 / 2) * ((INR n + 1) * 1 / INR n)))); [field; split; [lra|auto]|]. f_equal.
      assert (RP : 0 <= INR n / (INR n + 1)) by (apply Rlt_le; apply Rdiv_lt_0_compat; lra).
      rewrite <- (sqrt_square (INR n / (INR n + 1))) at 1 by auto. rewrite <- sqrt_mult_alt by nra. f_equal. field. lra.
    + assert (EV : ((n + 1) mod 2 =? 0)%nat = true) by (rewrite E; replace (2 * q + 1 + 1)%nat with (2 * (q + 1))%nat by lia; rewrite even_nat; auto). rewrite EV.
      destruct (iter_t1 ((n - 1) / 2) (INR (n + 1 + 1))) as (t & nex & I & H). rewrite I. rewrite (t1_final n nex t _ ltac:(lia) H).
      assert (HP : pr ((n - 1) / 2) (INR (n + 1 + 1)) = 2 ^ n * g n) by (rewrite E at 1 2; replace (2 * q + 1 - 1)%nat with (2 * q)%nat by lia; rewrite half_e; replace (INR (2 * q + 1 + 1 + 1)) with (2 * INR q + 3) by (rewrite !plus_INR, mult_INR; cbn [INR]; ring); rewrite (proj2 (pr_val q)), <- E; auto).
      rewrite HP, (two_pow n) by lia. replace (n - 1 + 1)%nat with n by lia. rewrite Rmult_1_r. field. auto.
Qed.

(** ** The recursion down the waves *)
Lemma G_next n j : (S j <= n)%nat -> G n (S j) * ((2 * INR j + 2) * (2 * (INR n - INR j) - 1)) = G n j * ((2 * INR j + 1) * (2 * (INR n - INR j))).
Proof.
  intros H. unfold G. assert (E : (n - j = S (n - S j))%nat) by lia. rewrite E. cbn [g]. rewrite minus_INR, S_INR by lia. assert (INR (S j) <= INR n) by (apply le_INR; lia). rewrite S_INR in *. pose proof (pos_INR j). field. lra.
Qed.
Lemma wave_num n j : wave n j = INR n - 2 * INR j. Proof. reflexivity. Qed.
Lemma rec_first m n : (m <= 1)%nat -> (2 <= n)%nat ->
  cp_first (INR (n * (n + 1))) (INR (n * (n + 1)) - 2 * INR (m * m)) (INR n) (C m n 0) = C m n 1.
Proof.
  intros Hm Hn. pose proof (G_next n 0 ltac:(lia)) as E. unfold cp_first, C, wave. rewrite mult_INR, plus_INR. assert (H2 : 2 <= INR n) by (change 2 with (INR 2); apply le_INR; auto).
  cbn [INR] in *. assert (G1 : G n 1 = G n 0 * (2 * INR n) / (2 * (2 * INR n - 1))).
  { apply (Rmult_eq_reg_r ((2 * 0 + 2) * (2 * (INR n - 0) - 1))); [|nra]. rewrite E. field. lra. }
  assert (NZ : (INR n - 2) * (INR n - 1) - INR n * (INR n + 1) <> 0) by nra. rewrite G1.
  assert (m = 0%nat \/ m = 1%nat) as [->| ->] by lia; cbn [Nat.eqb]; [change (INR (0 * 0)) with 0|change (INR (1 * 1)) with 1]; field; repeat split; try lra; auto.
Qed.
Lemma rec_next m n j : (m <= 1)%nat -> (2 * S j + 2 <= n)%nat ->
  cp_next (INR (n * (n + 1))) (INR (n * (n + 1)) - 2 * INR (m * m)) (INR n - 2 * INR (S j)) (C m n (S j)) (C m n j) = C m n (S (S j)).
Proof.
  intros Hm Hn. pose proof (G_next n j ltac:(lia)) as E1. pose proof (G_next n (S j) ltac:(lia)) as E2. unfold cp_next, C, wave. rewrite mult_INR, plus_INR.
  assert (H2 : INR (2 * S j + 2) <= INR n) by (apply le_INR; auto). rewrite plus_INR, mult_INR, (S_INR j) in H2. cbn [INR] in H2. rewrite !S_INR in *. pose proof (pos_INR j). cbn [INR].
  set (x := INR n) in *. set (y := INR j) in *.
  assert (GJ : G n j = G n (S j) * ((2 * y + 2) * (2 * (x - y) - 1)) / ((2 * y + 1) * (2 * (x - y)))) by (apply (Rmult_eq_reg_r ((2 * y + 1) * (2 * (x - y)))); [|nra]; rewrite <- E1; field; lra).
  assert (GJ2 : G n (S (S j)) = G n (S j) * ((2 * (y + 1) + 1) * (2 * (x - (y + 1)))) / ((2 * (y + 1) + 2) * (2 * (x - (y + 1)) - 1))) by (apply (Rmult_eq_reg_r ((2 * (y + 1) + 2) * (2 * (x - (y + 1)) - 1))); [|nra]; rewrite E2; field; lra).
  assert (NZ : (x - 2 * (y + 1) - 2) * (x - 2 * (y + 1) - 1) - x * (x + 1) <> 0) by nra. rewrite GJ, GJ2.
  assert (m = 0%nat \/ m = 1%nat) as [->| ->] by lia; cbn [Nat.eqb]; [change (INR (0 * 0)) with 0|change (INR (1 * 1)) with 1]; field; repeat split; try lra; auto.
Qed.
Lemma fold_down {St} (f : St -> nat -> option St) (I : nat -> St -> Prop) N : forall s,
  (forall q s, (q < N)%nat -> I (S q) s -> exists s', f s (2 + q)%nat = Some s' /\ I q s') -> I N s -> exists s', foldM f (rev (seq 2 N)) s = Some s' /\ I 0%nat s'.
Proof.
  induction N; intros s H HI; [exists s; auto|]. rewrite seq_S, rev_app_distr. cbn [rev app foldM]. destruct (H N s ltac:(lia) HI) as (s1 & E1 & I1). rewrite E1. cbn [bind]. apply IHN; auto.
Qed.
Definition top_pos (m n : nat) : nat := ((n + 1) / 2 + (if andb (n mod 2 =? 0)%nat (m mod 2 =? 0)%nat then 1 else 0))%nat.
Definition coeffs (m n L : nat) (lo : nat) (cp : list R) : Prop := forall p, (lo <= p <= L)%nat -> nth (p - 1) cp 0 = C m n (L - p).

Lemma top_pos_bounds m n : (2 <= n)%nat -> (1 <= top_pos m n /\ 2 * top_pos m n <= n + 2 /\ top_pos m n <= n / 2 + 1)%nat.
Proof.
  intros Hn. destruct (Nat.Even_or_Odd n) as [[q ->]|[q ->]]; unfold top_pos.
  - rewrite half_o, half_e, even_nat. cbn [Nat.eqb andb]. destruct (m mod 2 =? 0)%nat; lia.
  - rewrite half_o. replace (2 * q + 1 + 1)%nat with (2 * (q + 1))%nat by lia. rewrite half_e, odd_nat. cbn [Nat.eqb andb]. lia.
Qed.
Lemma dnlfk_ok m n cp : (m <= 1)%nat -> (2 <= n)%nat -> (n / 2 + 1 <= length cp)%nat ->
  exists cp', dnlfk (Z.of_nat m) n cp = Some cp' /\ length cp' = length cp /\ coeffs m n (top_pos m n) 1 cp'.
Proof.
  intros Hm Hn HL. unfold dnlfk. rewrite Zabs2Nat.id. destruct (wrx_some cp 1 0 ltac:(lia)) as [W0 L0]. rewrite W0. cbn [bind]. set (cp0 := upd0 cp (1 - 1) 0) in *.
  destruct (Nat.ltb_spec n m) as [?|_]; [lia|]. destruct n as [|[|n']]; try lia. set (n := S (S n')) in *.
  change (match n with O => _ | 1%nat => _ | _ => ?x end) with x. cbv zeta. fold (top_pos m n).
  pose proof (top_pos_bounds m n ltac:(lia)) as TP.
  set (L := top_pos m n) in *. destruct TP as (T1 & T2 & T3). rewrite top_ok by auto.
  destruct (wrx_some cp0 L (C m n 0) ltac:(lia)) as [W1 L1]. rewrite W1. cbn [bind]. set (cp1 := upd0 cp0 (L - 1) (C m n 0)) in *.
  assert (MZ : (Z.of_nat m <? 0)%Z = false) by (apply Z.ltb_ge; lia). rewrite MZ. cbn [andb bind].
  assert (V1 : coeffs m n L L cp1) by (intros p Hp; assert (p = L) as -> by lia; unfold cp1; rewrite nth_upd0, Nat.eqb_refl by lia; f_equal; lia).
  destruct (Nat.leb_spec L 1) as [LE|LE].
  - exists cp1. split; auto. split; [lia|]. intros p Hp. apply V1. lia.
  - rewrite rd_nth0 by lia. cbn [bind]. rewrite (V1 L ltac:(lia)). replace (L - L)%nat with 0%nat by lia.
    rewrite rec_first by auto. destruct (wrx_some cp1 (L - 1) (C m n 1) ltac:(lia)) as [W2 L2]. rewrite W2. cbn [bind]. set (cp2 := upd0 cp1 (L - 1 - 1) (C m n 1)) in *.
    assert (V2 : coeffs m n L (L - 1) cp2).
    { intros p Hp. unfold cp2. rewrite nth_upd0 by lia. destruct (Nat.eqb_spec (p - 1) (L - 1 - 1)); [f_equal; lia|apply V1; lia]. }
    destruct (fold_down (fun s l => let* x := rd (fst s) l in let* y := rd (fst s) (l + 1) in
        let* cp := wrx (fst s) (l - 1) (cp_next (INR (n * (n + 1))) (INR (n * (n + 1)) - 2 * INR (m * m))%R (snd s - 2) x y) in Some (cp, snd s - 2))
      (fun q s => length (fst s) = length cp /\ coeffs m n L (q + 1) (fst s) /\ snd s = INR n - 2 * INR (L - 2 - q)) (L - 2) (cp2, INR n)) as ([cp3 fk3] & E3 & L3 & V3 & _).
    + intros q [c fk] Hq (Lc & Vc & Ef). cbn [fst snd] in *. cbv zeta. rewrite !rd_nth0 by lia. cbn [bind]. rewrite (Vc (2 + q)%nat), (Vc (2 + q + 1)%nat) by lia.
      assert (EF : fk - 2 = INR n - 2 * INR (S (L - (2 + q + 1)))) by (rewrite Ef, S_INR; replace (L - 2 - S q)%nat with (L - (2 + q + 1))%nat by lia; ring). rewrite EF.
      replace (L - (2 + q))%nat with (S (L - (2 + q + 1))) by lia. rewrite rec_next by lia.
      destruct (wrx_some c (2 + q - 1) (C m n (S (S (L - (2 + q + 1))))) ltac:(lia)) as [W3 L3]. rewrite W3. cbn [bind]. eexists. split; [reflexivity|]. cbn [fst snd]. split; [lia|]. split.
      * intros p Hp. rewrite nth_upd0 by lia. destruct (Nat.eqb_spec (p - 1) (2 + q - 1 - 1)); [f_equal; lia|apply Vc; lia].
      * do 3 f_equal. lia.
    + cbn [fst snd]. split; [lia|]. split; [replace (L - 2 + 1)%nat with (L - 1)%nat by lia; auto|]. replace (L - 2 - (L - 2))%nat with 0%nat by lia. cbn [INR]. ring.
    + rewrite E3. cbn [bind fst]. exists cp3. auto.
Qed.

(** ** The sum of the waves *)
Lemma triple (a a' b b' c c' : R) : a = a' -> b = b' -> c = c' -> (a, b, c) = (a', b', c').
Proof. intros -> -> ->. reflexivity. Qed.
Lemma ft_ok (sn : bool) off kdo th a cp pb : (kdo + off <= length cp)%nat ->
  ft_loop sn off kdo (cos (th + th)) (sin (th + th)) (cos a) (sin a) cp pb = Some (pb + sumR kdo (fun k => nth (k + off) cp 0 * (if sn then sin (a + INR k * (th + th)) else cos (a + INR k * (th + th))))).
Proof.
  intros HL. unfold ft_loop.
  destruct (fold_seq (fun s k => let '(pb, cth, sth) := s in let* c := rd cp (k + off) in
      Some (pb + c * (if sn then sth else cth), cos (th + th) * cth - sin (th + th) * sth, sin (th + th) * cth + cos (th + th) * sth))
    (fun q s => s = (pb + sumR q (fun k => nth (k + off) cp 0 * (if sn then sin (a + INR k * (th + th)) else cos (a + INR k * (th + th)))), cos (a + INR q * (th + th)), sin (a + INR q * (th + th)))) kdo 1%nat (pb, cos a, sin a)) as (s' & E & ->).
  - intros q s Hq ->. rewrite rd_nth0 by lia. cbn [bind]. eexists. split; [reflexivity|]. replace (1 + q + off - 1)%nat with (q + off)%nat by lia. cbn [sumR]. rewrite S_INR.
    replace (a + (INR q + 1) * (th + th)) with ((th + th) + (a + INR q * (th + th))) by ring. rewrite (cos_plus (th + th) (a + INR q * (th + th))), (sin_plus (th + th) (a + INR q * (th + th))). apply triple; ring.
  - cbn. replace (a + 0 * (th + th)) with a by ring. rewrite Rplus_0_r. auto.
  - rewrite E. reflexivity.
Qed.
Lemma value_ok m n cp : (m <= 1)%nat -> (m <= n)%nat -> (n / 2 + 1 <= length cp)%nat ->
  exists cp', dnlfk (Z.of_nat m) n cp = Some cp' /\ length cp' = length cp /\ forall th, dnlft m n th cp' = Some (Pbar m n th).
Proof.
  intros Hm Hmn HL. destruct (Nat.le_gt_cases 2 n) as [N2|N2].
  - destruct (dnlfk_ok m n cp Hm N2 HL) as (cp' & E & L' & V). exists cp'. split; auto. split; auto. intros th.
    assert (EO : exists q, (n = 2 * q \/ n = 2 * q + 1)%nat) by (destruct (Nat.Even_or_Odd n) as [[q E0]|[q E0]]; eauto).
    destruct EO as [q [EQ|EQ]].
    + assert (NH : (n / 2 = q)%nat) by (rewrite EQ; apply half_e). assert (NM : (n mod 2 = 0)%nat) by (rewrite EQ; apply even_nat).
      assert (TP : top_pos m n = (q + if m =? 0 then 1 else 0)%nat).
      { unfold top_pos. rewrite NM. replace ((n + 1) / 2)%nat with q by (rewrite EQ; symmetry; apply half_o). assert (m = 0%nat \/ m = 1%nat) as [->| ->] by lia; reflexivity. }
      rewrite TP in V. rewrite NH in HL.
      unfold dnlft. rewrite NM, NH. cbn [Nat.eqb]. assert (m = 0%nat \/ m = 1%nat) as [M|M] by lia; rewrite M in *; cbn [Nat.eqb Nat.modulo Nat.divmod fst snd Nat.sub] in *.
      * rewrite rd_nth0 by lia. cbn [bind]. destruct (Nat.eqb_spec n 0); [lia|]. rewrite ft_ok by lia. f_equal. unfold Pbar. rewrite pow_O, Rmult_1_l. change (D 0) with leg. rewrite leg_Q. rewrite EQ at 2. rewrite Q_even. rewrite Rmult_plus_distr_l, <- sumR_scal. f_equal.
        -- rewrite (V 1%nat) by lia. unfold C. cbn [Nat.eqb]. replace (q + 1 - 1)%nat with q by lia. rewrite <- EQ. ring.
        -- apply sumR_ext. intros k Hk. pose proof (V (k + 2)%nat ltac:(lia)) as VV. replace (k + 2 - 1)%nat with (k + 1)%nat in VV by lia. rewrite VV. unfold C. cbn [Nat.eqb]. replace (q + 1 - (k + 2))%nat with (q - S k)%nat by lia. rewrite <- EQ.
           rewrite S_INR. replace (th + th + INR k * (th + th)) with ((INR k + 1) * (th + th)) by ring. ring.
      * destruct (Nat.eqb_spec q 0); [lia|]. rewrite ft_ok by lia. f_equal. unfold Pbar. rewrite pow_1, D1_QS. rewrite EQ at 2. rewrite QS_even, <- sumR_scal, Rplus_0_l.
        apply sumR_ext. intros k Hk. pose proof (V (k + 1)%nat ltac:(lia)) as VV. replace (k + 1 - 1)%nat with (k + 0)%nat in VV by lia. rewrite VV. unfold C. cbn [Nat.eqb]. replace (q + 0 - (k + 1))%nat with (q - S k)%nat by lia. rewrite <- EQ.
        rewrite S_INR. replace (th + th + INR k * (th + th)) with ((INR k + 1) * (th + th)) by ring. ring.
    + assert (NH : (n / 2 = q)%nat) by (rewrite EQ; apply half_o). assert (NM : (n mod 2 = 1)%nat) by (rewrite EQ; apply odd_nat). assert (NH1 : ((n + 1) / 2 = q + 1)%nat) by (rewrite EQ; replace (2 * q + 1 + 1)%nat with (2 * (q + 1))%nat by lia; apply half_e).
      assert (TP : top_pos m n = (q + 1)%nat).
      { unfold top_pos. rewrite NM, NH1. cbn [Nat.eqb andb]. lia. }
      rewrite TP in V. rewrite NH in HL.
      unfold dnlft. rewrite NM, NH1. cbn [Nat.eqb]. rewrite ft_ok by lia. f_equal. rewrite Rplus_0_l. unfold Pbar.
      assert (m = 0%nat \/ m = 1%nat) as [M|M] by lia; rewrite M in *; cbn [Nat.eqb Nat.modulo Nat.divmod fst snd Nat.sub negb] in *.
      * rewrite pow_O, Rmult_1_l. change (D 0) with leg. rewrite leg_Q. rewrite EQ at 2. rewrite Q_odd, <- sumR_scal. apply sumR_ext. intros k Hk. pose proof (V (k + 1)%nat ltac:(lia)) as VV. replace (k + 1 - 1)%nat with (k + 0)%nat in VV by lia. rewrite VV. unfold C. cbn [Nat.eqb].
        replace (q + 1 - (k + 1))%nat with (q - k)%nat by lia. rewrite <- EQ. ring.
      * rewrite pow_1, D1_QS. rewrite EQ at 2. rewrite QS_odd, <- sumR_scal. apply sumR_ext. intros k Hk. pose proof (V (k + 1)%nat ltac:(lia)) as VV. replace (k + 1 - 1)%nat with (k + 0)%nat in VV by lia. rewrite VV. unfold C. cbn [Nat.eqb].
        replace (q + 1 - (k + 1))%nat with (q - k)%nat by lia. rewrite <- EQ. ring.
  - assert (HL1 : (1 <= length cp)%nat) by (revert HL; generalize (n / 2)%nat; intros; lia). clear HL.
    unfold dnlfk. rewrite Zabs2Nat.id. destruct (wrx_some cp 1 0 ltac:(lia)) as [W0 L0]. rewrite W0. cbn [bind]. set (cp0 := upd0 cp (1 - 1) 0) in *. destruct (Nat.ltb_spec n m) as [?|_]; [lia|].
    assert (n = 0%nat \/ n = 1%nat) as [->| ->] by lia.
    + assert (m = 0%nat) as -> by lia. destruct (wrx_some cp0 1 (sqrt 2) ltac:(lia)) as [W1 L1]. rewrite W1. pose proof L1 as L1'. cbn [Nat.sub] in L1'. eexists. split; [reflexivity|]. split; [lia|]. intros th. unfold dnlft. cbn [Nat.modulo Nat.divmod fst snd Nat.sub Nat.eqb].
      rewrite rd_nth0 by lia. cbn [bind]. f_equal. rewrite nth_upd0 by lia. cbn [Nat.sub Nat.eqb]. unfold Pbar. rewrite pnorm_0. change (D 0 0 (cos th)) with 1. cbn [pow INR].
      replace (0 + 1 / 2) with (1 / 2 * (1 / 2) * 2) by field. rewrite (sqrt_mult_alt (1 / 2 * (1 / 2))) by lra. rewrite sqrt_square by lra. ring.
    + assert (m = 0%nat \/ m = 1%nat) as [->| ->] by lia; cbn [Nat.eqb].
      * destruct (wrx_some cp0 1 (sqrt (3 / 2)) ltac:(lia)) as [W1 L1]. rewrite W1. pose proof L1 as L1'. cbn [Nat.sub] in L1'. eexists. split; [reflexivity|]. split; [lia|]. intros th. unfold dnlft. cbn [Nat.modulo Nat.divmod fst snd Nat.sub Nat.eqb negb]. replace ((1 + 1) / 2)%nat with 1%nat by reflexivity. rewrite ft_ok by lia. f_equal. cbn [sumR].
        rewrite nth_upd0 by lia. cbn [Nat.sub Nat.eqb Nat.add]. unfold Pbar. rewrite pnorm_0. change (D 0 1 (cos th)) with (cos th). cbn [pow INR]. replace (th + 0 * (th + th)) with th by ring. replace (1 + 1 / 2) with (3 / 2) by field. ring.
      * destruct (wrx_some cp0 1 (sqrt (3 / 4)) ltac:(lia)) as [W1 L1]. rewrite W1. pose proof L1 as L1'. cbn [Nat.sub] in L1'. cbn [bind]. change (Z.of_nat 1 =? -1)%Z with false. cbv iota. eexists. split; [reflexivity|]. split; [lia|]. intros th. unfold dnlft. cbn [Nat.modulo Nat.divmod fst snd Nat.sub Nat.eqb negb]. replace ((1 + 1) / 2)%nat with 1%nat by reflexivity. rewrite ft_ok by lia. f_equal. cbn [sumR].
        rewrite nth_upd0 by lia. cbn [Nat.sub Nat.eqb Nat.add]. unfold Pbar, pnorm. change (D 1 1 (cos th)) with 1. cbn [fact Nat.sub Nat.add Nat.mul pow INR]. replace (th + 0 * (th + th)) with th by ring. replace ((2 * 1 + 1) / 2 * (1 / (1 + 1))) with (3 / 4) by field. ring.
Qed.
