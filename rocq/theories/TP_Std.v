(** The standard atmosphere across layer boundaries. *)
From Coq Require Import Reals Lra Lia QArith Qreals List Psatz Arith.
From Verif Require Import Base Buffer VH_Model TP_Model TP_Proofs3 TP_Proofs4 TP_Log.
Import ListNotations.
Local Close Scope Qc_scope.
Local Open Scope R_scope.

(** [ln x] with powers of two taken out *)
Definition ln2_hi : Q := ln_hi 12 2.
Definition ln2_lo : Q := ln_lo 12 2.
Lemma Q2R_2 : Q2R 2 = 2. Proof. unfold Q2R; cbn; lra. Qed.
Lemma ln2_bounds : Q2R ln2_lo <= ln 2 <= Q2R ln2_hi.
Proof. rewrite <- Q2R_2 at 1 2. split; [apply ln_lo_ok|apply ln_hi_ok]; reflexivity. Qed.
Lemma ln_pow2 m : ln (2 ^ m) = INR m * ln 2.
Proof.
  induction m as [|m IH]; [cbn; rewrite ln_1; ring|]. rewrite S_INR. cbn [pow]. rewrite ln_mult, IH by (try apply pow_lt; lra). ring.
Qed.
Definition ln_up (m n : nat) (x : Q) : Q := (inject_Z (Z.of_nat m) * ln2_hi + ln_hi n (Qred (x / qpw 2 m)))%Q.
Definition ln_dn (m n : nat) (x : Q) : Q := (inject_Z (Z.of_nat m) * ln2_lo + ln_lo n (Qred (x / qpw 2 m)))%Q.
Lemma scaled m x : (1 < Qred (x / qpw 2 m))%Q -> ln (Q2R x) = INR m * ln 2 + ln (Q2R (Qred (x / qpw 2 m))).
Proof.
  intro H. apply Qlt_Rlt in H. replace (Q2R 1) with 1 in H by (unfold Q2R; cbn; lra).
  assert (P : 0 < 2 ^ m) by (apply pow_lt; lra).
  assert (E : Q2R (Qred (x / qpw 2 m)) = Q2R x / 2 ^ m).
  { rewrite Q2R_red, Q2R_div; [rewrite Q2R_pw, Q2R_2; reflexivity|]. intro Z. apply Qeq_eqR in Z. rewrite Q2R_pw, Q2R_2 in Z. unfold Q2R in Z. cbn [Qnum Qden] in Z. lra. }
  rewrite E in *. assert (0 < Q2R x). { apply Rmult_lt_reg_r with (/ 2 ^ m); [apply Rinv_0_lt_compat; exact P|]. unfold Rdiv in H. lra. }
  rewrite ln_quot by assumption. rewrite ln_pow2. ring.
Qed.
Lemma ln_up_ok m n x : (1 < Qred (x / qpw 2 m))%Q -> ln (Q2R x) <= Q2R (ln_up m n x).
Proof.
  intro H. rewrite (scaled m x H). unfold ln_up. rewrite Q2R_plus, Q2R_mult, Q2R_nat. pose proof (ln_hi_ok n _ H). pose proof ln2_bounds. pose proof (pos_INR m). nra.
Qed.
Lemma ln_dn_ok m n x : (1 < Qred (x / qpw 2 m))%Q -> Q2R (ln_dn m n x) <= ln (Q2R x).
Proof.
  intro H. rewrite (scaled m x H). unfold ln_dn. rewrite Q2R_plus, Q2R_mult, Q2R_nat. pose proof (ln_lo_ok n _ H). pose proof ln2_bounds. pose proof (pos_INR m). nra.
Qed.
(** the gas constant over a hundred times gravity *)
Definition kq : Q := Qred ((83143200 / (289644 # 10000)) / (100 * (980665 # 1000))).
Lemma kq_ok : Q2R kq = std_r / (100 * std_g).
Proof. unfold kq. rewrite Q2R_red, !Q2R_div, Q2R_mult by (vm_compute; discriminate). unfold std_r, std_g, Q2R. cbn [Qnum Qden]. field. Qed.
Lemma kq_pos : 0 < Q2R kq.
Proof. rewrite kq_ok. unfold std_r, std_g. lra. Qed.

Lemma exp_le_mono x y : x <= y -> exp x <= exp y.
Proof. intros [L|E]; [left; apply exp_increasing, L|right; rewrite E; reflexivity]. Qed.

(** ** The height at the top of a layer *)
Section Top.
Variables (h H a b b' g : R).
Hypotheses (A : 0 < a) (B : 0 < b) (B' : 0 < b') (G : 0 < g).
Lemma ln_inv_quot : ln (b' / b) = - ln (b / b').
Proof. rewrite !ln_quot by assumption. ring. Qed.
(** temperature falling with height *)
Lemma top_cooling : 0 < a - g * (H - h) -> g * Q2R kq * ln (b / b') <= ln (a / (a - g * (H - h))) -> std_formula (h, - g, a, b) b' <= H.
Proof.
  intros C L. unfold std_formula. destruct (Reqb (- g) 0) eqn:E; [apply Reqb_true in E; lra|]. cbn [negb]. clear E.
  replace (- - g * std_r / (100 * std_g)) with (g * Q2R kq) by (rewrite kq_ok; unfold std_g; field).
  unfold Rpower. rewrite ln_inv_quot.
  assert (X : (a - g * (H - h)) / a <= exp (g * Q2R kq * - ln (b / b'))).
  { rewrite <- (exp_ln ((a - g * (H - h)) / a)) by (apply Rdiv_lt_0_compat; assumption).
    replace (ln ((a - g * (H - h)) / a)) with (- ln (a / (a - g * (H - h)))) by (rewrite !ln_quot by assumption; ring). apply exp_le_mono. lra. }
  set (x := exp (g * Q2R kq * - ln (b / b'))) in *.
  replace (a / - - g) with (a / g) by (field; lra).
  assert (Y : a - g * (H - h) <= a * x). { apply Rmult_le_reg_r with (/ a); [apply Rinv_0_lt_compat; exact A|]. replace (a * x * / a) with x by (field; lra). exact X. }
  apply Rmult_le_reg_l with g; [exact G|]. replace (g * (a / g * (1 - x) + h)) with (a * (1 - x) + g * h) by (field; lra). lra.
Qed.
(** temperature rising with height *)
Lemma top_warming : h <= H -> g * Q2R kq * ln (b / b') <= ln ((a + g * (H - h)) / a) -> std_formula (h, g, a, b) b' <= H.
Proof.
  intros C L. unfold std_formula. destruct (Reqb g 0) eqn:E; [apply Reqb_true in E; lra|]. cbn [negb]. clear E.
  replace (- g * std_r / (100 * std_g)) with (- (g * Q2R kq)) by (rewrite kq_ok; unfold std_g; field).
  unfold Rpower. rewrite ln_inv_quot. assert (C' : 0 < a + g * (H - h)) by nra.
  assert (X : exp (- (g * Q2R kq) * - ln (b / b')) <= (a + g * (H - h)) / a).
  { rewrite <- (exp_ln ((a + g * (H - h)) / a)) by (apply Rdiv_lt_0_compat; assumption).
    apply exp_le_mono. lra. }
  set (x := exp (- (g * Q2R kq) * - ln (b / b'))) in *.
  assert (Y : a * x <= a + g * (H - h)). { apply Rmult_le_reg_r with (/ a); [apply Rinv_0_lt_compat; exact A|]. replace (a * x * / a) with x by (field; lra). exact X. }
  apply Rmult_le_reg_l with g; [exact G|]. replace (g * (a / - g * (1 - x) + h)) with (a * x - a + g * h) by (field; lra). lra.
Qed.
(** constant temperature *)
Lemma top_constant : std_formula (h, 0, a, b) b' = h + Q2R kq * a * ln (b / b').
Proof.
  unfold std_formula. destruct (Reqb 0 0) eqn:E; [|apply Reqb_false in E; exfalso; lra]. cbn [negb]. rewrite kq_ok. unfold std_g. field.
Qed.
End Top.
Lemma Qle_R x y : Qle_bool x y = true -> Q2R x <= Q2R y.
Proof. intro E. apply Qle_Rle, Qle_bool_iff, E. Qed.
(** one comparison: [g * kq * ln x <= ln c] by the series *)
Lemma compare g x c m n m' n' : (0 < g)%Q -> (1 < Qred (x / qpw 2 m))%Q -> (1 < Qred (c / qpw 2 m'))%Q ->
  Qle_bool (g * kq * ln_up m n x) (ln_dn m' n' c) = true -> Q2R g * Q2R kq * ln (Q2R x) <= ln (Q2R c).
Proof.
  intros Gp X C E. apply Qle_R in E. rewrite !Q2R_mult in E. pose proof (ln_up_ok m n x X). pose proof (ln_dn_ok m' n' c C). pose proof kq_pos.
  apply Qlt_Rlt in Gp. replace (Q2R 0) with 0 in Gp by (unfold Q2R; cbn; lra).
  apply Rle_trans with (Q2R g * Q2R kq * Q2R (ln_up m n x)); [|lra]. apply Rmult_le_compat_l; [nra|assumption].
Qed.
Ltac q2r := unfold Q2R; cbn [Qnum Qden]; field.
Lemma top1 : std_formula (0, -65 / 10000, 28815 / 100, 101325 / 100) (22632064 / 100000) <= 11000.
Proof.
  replace (-65 / 10000) with (- (65 / 10000)) by field. apply top_cooling; try lra.
  pose proof (compare (65 # 10000) (101325000 # 22632064) (28815 # 21665) 2 6 0 10 ltac:(reflexivity) ltac:(reflexivity) ltac:(reflexivity) ltac:(vm_compute; reflexivity)) as C.
  replace (Q2R (65 # 10000)) with (65 / 10000) in C by q2r. replace (Q2R (101325000 # 22632064)) with (101325 / 100 / (22632064 / 100000)) in C by q2r.
  replace (Q2R (28815 # 21665)) with (28815 / 100 / (28815 / 100 - 65 / 10000 * (11000 - 0))) in C by q2r. exact C.
Qed.
Lemma top2 : std_formula (11000, 0, 21665 / 100, 22632064 / 100000) (54748887 / 1000000) <= 20000.
Proof.
  rewrite top_constant. pose proof (ln_up_ok 2 6 (226320640 # 54748887) ltac:(reflexivity)) as L.
  replace (Q2R (226320640 # 54748887)) with (22632064 / 100000 / (54748887 / 1000000)) in L by q2r.
  assert (E : Qle_bool (kq * (21665 # 100) * ln_up 2 6 (226320640 # 54748887)) 9000 = true) by (vm_compute; reflexivity).
  apply Qle_R in E. rewrite !Q2R_mult in E. replace (Q2R (21665 # 100)) with (21665 / 100) in E by q2r. replace (Q2R 9000) with 9000 in E by q2r.
  pose proof kq_pos. nra.
Qed.
Lemma top3 : std_formula (20000, 1 / 1000, 21665 / 100, 54748887 / 1000000) (86801870 / 10000000) <= 32000.
Proof.
  apply top_warming; try lra.
  pose proof (compare (1 # 1000) (547488870 # 86801870) (22865 # 21665) 2 9 0 5 ltac:(reflexivity) ltac:(reflexivity) ltac:(reflexivity) ltac:(vm_compute; reflexivity)) as C.
  replace (Q2R (1 # 1000)) with (1 / 1000) in C by q2r. replace (Q2R (547488870 # 86801870)) with (54748887 / 1000000 / (86801870 / 10000000)) in C by q2r.
  replace (Q2R (22865 # 21665)) with ((21665 / 100 + 1 / 1000 * (32000 - 20000)) / (21665 / 100)) in C by q2r. exact C.
Qed.
Lemma top4 : std_formula (32000, 28 / 10000, 22865 / 100, 86801870 / 10000000) (11090631 / 10000000) <= 47000.
Proof.
  apply top_warming; try lra.
  pose proof (compare (28 # 10000) (86801870 # 11090631) (27065 # 22865) 2 12 0 7 ltac:(reflexivity) ltac:(reflexivity) ltac:(reflexivity) ltac:(vm_compute; reflexivity)) as C.
  replace (Q2R (28 # 10000)) with (28 / 10000) in C by q2r. replace (Q2R (86801870 # 11090631)) with (86801870 / 10000000 / (11090631 / 10000000)) in C by q2r.
  replace (Q2R (27065 # 22865)) with ((22865 / 100 + 28 / 10000 * (47000 - 32000)) / (22865 / 100)) in C by q2r. exact C.
Qed.
(** the fifth layer ends above the base of the sixth *)
Lemma top5 : 51000 + 2 / 10000 <= std_formula (47000, 0, 27065 / 100, 11090631 / 10000000) (66938874 / 100000000) <= 51000 + 22 / 100000.
Proof.
  rewrite top_constant. pose proof (ln_up_ok 0 10 (110906310 # 66938874) ltac:(reflexivity)) as L. pose proof (ln_dn_ok 0 10 (110906310 # 66938874) ltac:(reflexivity)) as L'.
  replace (Q2R (110906310 # 66938874)) with (11090631 / 10000000 / (66938874 / 100000000)) in L, L' by q2r.
  assert (E : Qle_bool (kq * (27065 # 100) * ln_up 0 10 (110906310 # 66938874)) (400000022 # 100000) = true) by (vm_compute; reflexivity).
  assert (E' : Qle_bool (40000002 # 10000) (kq * (27065 # 100) * ln_dn 0 10 (110906310 # 66938874)) = true) by (vm_compute; reflexivity).
  apply Qle_R in E, E'. rewrite !Q2R_mult in E, E'. replace (Q2R (27065 # 100)) with (27065 / 100) in E, E' by q2r.
  replace (Q2R (400000022 # 100000)) with (400000022 / 100000) in E by q2r. replace (Q2R (40000002 # 10000)) with (40000002 / 10000) in E' by q2r.
  pose proof kq_pos. split; nra.
Qed.
Lemma top6 : std_formula (51000, -28 / 10000, 27065 / 100, 66938874 / 100000000) (39564205 / 1000000000) <= 71000.
Proof.
  replace (-28 / 10000) with (- (28 / 10000)) by field. apply top_cooling; try lra.
  pose proof (compare (28 # 10000) (669388740 # 39564205) (27065 # 21465) 4 6 0 8 ltac:(reflexivity) ltac:(reflexivity) ltac:(reflexivity) ltac:(vm_compute; reflexivity)) as C.
  replace (Q2R (28 # 10000)) with (28 / 10000) in C by q2r. replace (Q2R (669388740 # 39564205)) with (66938874 / 100000000 / (39564205 / 1000000000)) in C by q2r.
  replace (Q2R (27065 # 21465)) with (27065 / 100 / (27065 / 100 - 28 / 10000 * (71000 - 51000))) in C by q2r. exact C.
Qed.
Lemma top7 : std_formula (71000, -2 / 1000, 21465 / 100, 39564205 / 1000000000) (37338360 / 10000000000) <= 84852.
Proof.
  replace (-2 / 1000) with (- (2 / 1000)) by field. apply top_cooling; try lra.
  pose proof (compare (2 # 1000) (395642050 # 37338360) (214650 # 186946) 3 8 0 7 ltac:(reflexivity) ltac:(reflexivity) ltac:(reflexivity) ltac:(vm_compute; reflexivity)) as C.
  replace (Q2R (2 # 1000)) with (2 / 1000) in C by q2r. replace (Q2R (395642050 # 37338360)) with (39564205 / 1000000000 / (37338360 / 10000000000)) in C by q2r.
  replace (Q2R (214650 # 186946)) with (21465 / 100 / (21465 / 100 - 2 / 1000 * (84852 - 71000))) in C by q2r. exact C.
Qed.

(** ** Comparing layers *)
Lemma d1 x : x / 1 = x. Proof. field. Qed.
Lemma top_all i h g a b h' g' a' b' : (1 <= i <= 7)%nat -> rd std_table i = Some (h, g, a, b) -> rd std_table (i + 1) = Some (h', g', a', b') ->
  std_formula (h, g, a, b) b' <= h' + (if (i =? 5)%nat then 22 / 100000 else 0) /\ h < h' /\ 0 < b' < b.
Proof.
  intros I E E'.
  assert (C : i = 1%nat \/ i = 2%nat \/ i = 3%nat \/ i = 4%nat \/ i = 5%nat \/ i = 6%nat \/ i = 7%nat) by lia.
  destruct C as [->|[->|[->|[->|[->|[->| ->]]]]]]; cbn in E, E'; injection E as <- <- <- <-; injection E' as <- <- <- <-; cbn [Nat.eqb]; rewrite ?d1; (split; [|lra]).
  - rewrite Rplus_0_r. exact top1.
  - rewrite Rplus_0_r. exact top2.
  - rewrite Rplus_0_r. exact top3.
  - rewrite Rplus_0_r. exact top4.
  - exact (proj2 top5).
  - rewrite Rplus_0_r. exact top6.
  - rewrite Rplus_0_r. exact top7.
Qed.
Lemma base_mono i j h g a b h' g' a' b' : (1 <= i)%nat -> (i < j <= 8)%nat -> rd std_table i = Some (h, g, a, b) -> rd std_table j = Some (h', g', a', b') -> h < h' /\ b' < b.
Proof.
  intros I. revert h' g' a' b'. induction j as [|j IH]; intros h' g' a' b' J E E'; [lia|].
  destruct (Nat.eq_dec i j) as [->|N].
  - replace (S j) with (j + 1)%nat in E' by lia. destruct (top_all j _ _ _ _ _ _ _ _ ltac:(lia) E E') as (_ & H & B). lra.
  - assert (X : exists h2 g2 a2 b2, rd std_table j = Some (h2, g2, a2, b2)).
    { destruct (rd std_table j) as [[[[h2 g2] a2] b2]|] eqn:R; [do 4 eexists; reflexivity|]. do 9 (destruct j as [|j]; [cbn in R; first [discriminate|lia]|]). lia. }
    destruct X as (h2 & g2 & a2 & b2 & E2). destruct (IH _ _ _ _ ltac:(lia) E E2) as [H1 B1].
    replace (S j) with (j + 1)%nat in E' by lia. destruct (top_all j _ _ _ _ _ _ _ _ ltac:(lia) E2 E') as (_ & H & B). lra.
Qed.
Lemma heights p q : 0 < p < q -> q <= 101325 / 100 ->
  exists hp hq, stdp2z p = Some hp /\ stdp2z q = Some hq /\ hq < hp + 22 / 100000 /\
    (q < 66938874 / 100000000 \/ 66938874 / 100000000 <= p \/ 11090631 / 10000000 <= q -> hq < hp).
Proof.
  intros PQ Q. destruct (std_index_ok p ltac:(lra)) as (i & b & b1 & Ip & I & Pb & Pb1 & Rp & Sp). destruct (std_index_ok q ltac:(lra)) as (j & c & c1 & Iq & J & Qb & Qb1 & Rq & Sq).
  destruct Pb as (h & g & a & E). destruct Qb as (h' & g' & a' & E'). destruct Pb1 as (h1 & g1 & a1 & E1). destruct Qb1 as (h1' & g1' & a1' & E1').
  exists (std_formula (h, g, a, b) p), (std_formula (h', g', a', c) q). unfold stdp2z. rewrite Ip, Iq. cbn [bind]. rewrite E, E'. cbn [bind].
  split; [reflexivity|]. split; [reflexivity|].
  destruct (std_table_pos i h g a b I E) as [A B]. destruct (std_table_pos j h' g' a' c J E') as [A' C].
  assert (JI : (j <= i)%nat).
  { destruct (le_lt_dec j i) as [L|L]; [exact L|]. exfalso. destruct (Nat.eq_dec j (i + 1)) as [->|N].
    - rewrite E1 in E'. injection E' as -> -> -> ->. specialize (Sq ltac:(lia)). lra.
    - destruct (base_mono (i + 1) j _ _ _ _ _ _ _ _ ltac:(lia) ltac:(lia) E1 E') as [_ M]. lra. }
  destruct (Nat.eq_dec j i) as [->|N].
  { rewrite E in E'. injection E' as -> -> -> ->. pose proof (std_decreasing h' g' a' c p q A' C PQ). split; [lra|intros _; lra]. }
  assert (L : (j < i)%nat) by lia. clear JI N.
  destruct (top_all j _ _ _ _ _ _ _ _ ltac:(lia) E' E1') as (T & Hj & Bj).
  assert (U1 : std_formula (h', g', a', c) q <= std_formula (h', g', a', c) c1).
  { destruct (Rle_lt_or_eq_dec c1 q ltac:(lra)) as [Lt|Eq]; [left; apply std_decreasing; lra|rewrite Eq; lra]. }
  assert (U2 : h < std_formula (h, g, a, b) p).
  { rewrite <- (std_base i h g a b I E) at 1. apply std_decreasing; try assumption. specialize (Sp ltac:(lia)). lra. }
  assert (U3 : h1' <= h).
  { destruct (Nat.eq_dec i (j + 1)) as [->|N]; [rewrite E1' in E; injection E as -> -> -> ->; lra|].
    destruct (base_mono (j + 1) i _ _ _ _ _ _ _ _ ltac:(lia) ltac:(lia) E1' E) as [M _]. lra. }
  destruct (Nat.eqb_spec j 5) as [->|N5].
  - split; [lra|]. intros Hc. exfalso. cbn in E', E1'. injection E' as <- <- <- <-. injection E1' as <- <- <- <-. specialize (Sq ltac:(lia)).
    destruct (Nat.eq_dec i 6) as [->|N6]; [cbn in E; injection E as <- <- <- <-; specialize (Sp ltac:(lia)); lra|].
    assert (E6 : rd std_table 6 = Some (51000 / 1, -28 / 10000, 27065 / 100, 66938874 / 100000000)) by reflexivity.
    destruct (base_mono 6 i _ _ _ _ _ _ _ _ ltac:(lia) ltac:(lia) E6 E) as [_ M]. specialize (Sp ltac:(lia)). lra.
  - split; [lra|intros _; lra].
Qed.
(** just above the fifth boundary the height drops *)
Lemma drop : exists p q hp hq, 373 / 100000 <= p < q /\ q <= 101325 / 100 /\ stdp2z p = Some hp /\ stdp2z q = Some hq /\ hp + 1 / 10000 < hq.
Proof.
  set (q := 66938874 / 100000000). set (p := q - 1 / 1000000000).
  assert (Ip : std_index p = Some 6%nat /\ std_index q = Some 5%nat).
  { unfold std_index. cbn [rd nth_error std_table bind std_search Nat.add].
    assert (T : forall x y, x < y -> Rltb x y = true) by (intros; apply Rltb_true; auto).
    assert (F : forall x y, y <= x -> Rltb x y = false) by (intros; apply Rltb_false; auto).
    unfold p, q. rewrite !(F (101325 / 100)) by lra.
    split.
    - rewrite !T by lra. rewrite F by lra. reflexivity.
    - rewrite !(T _ (22632064 / 100000)), !(T _ (54748887 / 1000000)), !(T _ (86801870 / 10000000)), !(T _ (11090631 / 10000000)) by lra. rewrite F by lra. reflexivity. }
  destruct Ip as [Ip Iq].
  exists p, q, (std_formula (51000 / 1, -28 / 10000, 27065 / 100, 66938874 / 100000000) p), (std_formula (47000 / 1, 0 / 1, 27065 / 100, 11090631 / 10000000) q).
  split; [unfold p, q; lra|]. split; [unfold q; lra|]. split; [unfold stdp2z; rewrite Ip; reflexivity|]. split; [unfold stdp2z; rewrite Iq; reflexivity|].
  rewrite !d1. pose proof (proj1 top5) as T. apply Rlt_le_trans with (51000 + 2 / 10000); [|unfold q; replace (0 / 1) with 0 by field; exact T].
  enough (std_formula (51000, -28 / 10000, 27065 / 100, q) p <= 51000 + 5 / 100000) by (unfold q in *; lra).
  replace (-28 / 10000) with (- (28 / 10000)) by field. apply top_cooling; try (unfold p, q; lra).
  assert (X : forall z, 0 < z -> ln z <= z - 1).
  { intros z Z. rewrite <- (ln_exp (z - 1)). pose proof (exp_ineq1_le (z - 1)) as L. destruct (Rle_lt_or_eq_dec z (exp (z - 1)) ltac:(lra)) as [L'|L']; [left; apply ln_increasing; assumption|right; rewrite <- L'; reflexivity]. }
  apply Rle_trans with (28 / 10000 * Q2R kq * (q / p - 1)).
  - apply Rmult_le_compat_l; [pose proof kq_pos; lra|]. apply X. apply Rdiv_lt_0_compat; unfold p, q; lra.
  - set (d := 28 / 10000 * (51000 + 5 / 100000 - 51000)).
    assert (Y : d / (27065 / 100) <= ln (27065 / 100 / (27065 / 100 - d))).
    { replace (27065 / 100 / (27065 / 100 - d)) with (/ ((27065 / 100 - d) / (27065 / 100))) by (unfold d; field; lra).
      rewrite ln_Rinv by (apply Rdiv_lt_0_compat; unfold d; lra). pose proof (X ((27065 / 100 - d) / (27065 / 100)) ltac:(apply Rdiv_lt_0_compat; unfold d; lra)) as L.
      replace ((27065 / 100 - d) / (27065 / 100) - 1) with (- (d / (27065 / 100))) in L by field. lra. }
    eapply Rle_trans; [|exact Y]. rewrite kq_ok. unfold std_r, std_g, d, p, q. lra.
Qed.
