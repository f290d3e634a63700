(** Pascal columns and the standard atmosphere, in exact real arithmetic. *)
From Coq Require Import Reals Lra.
From Verif Require Import Base Buffer VH_Model VH_Proofs TP_Model TP_Spec TP_Proofs TP_Proofs2 TP_Proofs3.
Local Close Scope Qc_scope.
Local Open Scope R_scope.

Lemma pa_ok hgt tmsg crit p t punit lapse phalf : (punit =? 0)%Z = false -> crit <= 1000000000 ->
  length t = length p -> (length p - 1 <= length lapse)%nat -> (length p - 1 <= length phalf)%nat ->
  tmsg < 85 -> 1 / 10000000000 < 99 * Rabs tmsg ->
  exists res, solve_column RF hgt p t tmsg crit punit lapse phalf = Some res /\ r_success RF res = 1%Z /\
    let pm := map (fun x => x / 100) p in
    ((exists k q, first_tropopause RF pm t crit k q /\ r_pressure RF res = Rmax q 85 /\ r_index RF res = Z.of_nat k) \/
     ((forall k q, ~ tropopause RF pm t crit k q) /\ r_pressure RF res = tmsg /\ r_index RF res = (-1000)%Z /\ r_lapse RF res = tmsg)).
Proof.
  intros PU CR LT L1 L2 TM MS. cbn zeta.
  assert (EM : map (fun x => fmul RF x (fc RF 1 100)) p = map (fun x => x / 100) p) by (apply map_ext; intros x; cbn; lra).
  pose proof (crit_small crit CR) as CR'.
  destruct (stattropx_ok RF tmsg crit CR' p t punit lapse phalf LT L1 L2) as (q & i & w & E & W & D). rewrite PU in D, W. cbv zeta in D, W. rewrite EM in D, W.
  set (pm := map (fun x => x / 100) p) in *. assert (LP : length pm = length p) by (unfold pm; apply map_length).
  destruct D as [(k & x & T & -> & ->)|(N & _)].
  - unfold solve_column. rewrite E. cbn [bind]. rewrite PU.
    assert (SEEN : fltb RF (fc RF 1 10000000000) (fabs RF (fsub RF (fmul RF (fmax RF x (fc RF 85 1)) (fc RF 100 1)) tmsg)) = true).
    { cbn. apply Rltb_true. assert (85 <= Rmax x (85 / 1)) by (unfold Rmax; destruct (Rle_dec x (85/1)); lra). rewrite Rabs_pos_eq; lra. }
    rewrite SEEN.
    assert (B : (k + 2 < length pm)%nat) by (destruct T as [T _]; apply (tropopause_bound RF pm t (eq_trans LT (eq_sym LP)) crit k x T)).
    destruct (layer_at RF pm t (eq_trans LT (eq_sym LP)) k ltac:(change (k + 1 < @length R pm)%nat; lia)) as (r & h & Y).
    assert (PV : Rmax x 85 = Rmax x (85 / 1) * (100 / 1) * (1 / 100)). { replace (85 / 1) with 85 by lra. lra. }
    destruct ((1 <=? Z.of_nat k)%Z && (Z.of_nat k <? Z.of_nat (length p) - 1)%Z).
    + replace (Z.to_nat (Z.of_nat k + 1)) with (S k) by lia. cbn [rd]. rewrite (W _ _ _ Y). cbn [bind].
      eexists. split; [reflexivity|]. split; [reflexivity|]. left. exists k, x. split; [auto|]. split; [cbn; symmetry; exact PV|reflexivity].
    + cbn [bind]. eexists. split; [reflexivity|]. split; [reflexivity|]. left. exists k, x. split; [auto|]. split; [cbn; symmetry; exact PV|reflexivity].
  - eexists. split; [apply (solve_pa RF hgt tmsg crit CR' p t punit lapse phalf PU LT L1 L2 (pa_seen tmsg MS)); rewrite EM; exact N|].
    split; [reflexivity|]. right. split; [auto|]. cbn. split; [lra|auto].
Qed.

(** *** the standard atmosphere *)
Definition pb_at (i : nat) (b : R) : Prop := exists h g a, rd std_table i = Some (h, g, a, b).
Lemma std_index_ok p : 0 < p <= 101325 / 100 ->
  exists i b b', std_index p = Some i /\ (1 <= i <= 8)%nat /\ pb_at i b /\ pb_at (i + 1) b' /\ b' <= p <= b /\ (i <> 1%nat -> p < b).
Proof.
  intros [P0 P1]. unfold std_index. cbn [rd nth_error std_table bind].
  assert (E : Rltb (101325 / 100) p = false) by (apply Rltb_false; auto). rewrite E. clear E.
  assert (G : forall fuel i b, (fuel + i = 9)%nat -> (1 <= i)%nat -> pb_at i b -> p <= b -> (i <> 1%nat -> p < b) -> (fuel = 0%nat -> False) ->
    exists j b' b'', std_search fuel p i = Some j /\ (1 <= j <= 8)%nat /\ pb_at j b' /\ pb_at (j + 1) b'' /\ b'' <= p <= b' /\ (j <> 1%nat -> p < b')).
  { induction fuel as [|fuel IH]; intros i b F I PB LB SB NZ; [exfalso; auto|]. cbn [std_search].
    destruct (rd std_table (i + 1)) as [[[[h g] a] b1]|] eqn:R.
    2: { exfalso. do 10 (destruct i as [|i]; [cbn in R; discriminate || lia|]). lia. }
    cbn [bind]. destruct (Rltb p b1) eqn:C.
    - apply Rltb_true in C. destruct fuel as [|fuel].
      + exfalso. assert (i = 8%nat) as -> by lia. cbn in R. injection R as _ _ _ <-. lra.
      + apply (IH (i + 1)%nat b1); try lia; first [exists h, g, a; auto; fail | lra | auto | idtac].
    - apply Rltb_false in C. exists i, b, b1. split; [reflexivity|]. split; [lia|]. split; [auto|].
      split; [exists h, g, a; auto|]. split; [lra|auto]. }
  apply (G 8%nat 1%nat (101325 / 100)); try lia; auto.
  - do 3 eexists. reflexivity.
Qed.
Lemma Rpower_less x y e : 0 < x < y -> 0 < e -> Rpower x e < Rpower y e.
Proof. intros [H0 H1] E. unfold Rpower. apply exp_increasing. pose proof (ln_increasing x y H0 H1). nra. Qed.
Lemma Rpower_more x y e : 0 < x < y -> e < 0 -> Rpower y e < Rpower x e.
Proof. intros [H0 H1] E. unfold Rpower. apply exp_increasing. pose proof (ln_increasing x y H0 H1). nra. Qed.
Lemma std_decreasing h g a b p q : 0 < a -> 0 < b -> 0 < p < q -> std_formula (h, g, a, b) q < std_formula (h, g, a, b) p.
Proof.
  intros A B [P Q]. unfold std_formula.
  assert (K : 0 < std_r / (100 * std_g)) by (unfold std_r, std_g; lra).
  assert (PQ : 0 < p / b < q / b).
  { split; [apply Rdiv_lt_0_compat; lra|]. apply Rmult_lt_compat_r; [apply Rinv_0_lt_compat; auto|auto]. }
  destruct (Reqb g 0) eqn:E; cbn [negb].
  - assert (L : ln (b / q) < ln (b / p)).
    { apply ln_increasing; [apply Rdiv_lt_0_compat; lra|]. apply Rmult_lt_compat_l; auto. apply Rinv_lt_contravar; nra. }
    assert (C : 0 < 1 / 100 * std_r * a / std_g) by (assert (0 < std_r) by (unfold std_r; lra); assert (0 < std_g) by (unfold std_g; lra); apply Rdiv_lt_0_compat; nra).
    nra.
  - apply Reqb_false in E. replace (- g * std_r / (100 * std_g)) with (- g * (std_r / (100 * std_g))) by (unfold Rdiv; ring).
    set (kk := std_r / (100 * std_g)) in *.
    destruct (Rtotal_order g 0) as [G|[G|G]]; [|contradiction|].
    + assert (C : 0 < a / - g) by (apply Rdiv_lt_0_compat; lra).
      pose proof (Rpower_less _ _ (- g * kk) PQ ltac:(nra)). nra.
    + assert (C : a / - g < 0). { assert (0 < a / g) by (apply Rdiv_lt_0_compat; lra). replace (a / - g) with (- (a / g)) by (field; lra). lra. }
      pose proof (Rpower_more _ _ (- g * kk) PQ ltac:(nra)). nra.
Qed.
Lemma std_table_pos i h g a b : (1 <= i <= 8)%nat -> rd std_table i = Some (h, g, a, b) -> 0 < a /\ 0 < b.
Proof. intros I E. do 9 (destruct i as [|i]; [try lia; cbn in E; injection E as <- <- <- <-; lra|]). lia. Qed.
Lemma std_base i h g a b : (1 <= i <= 8)%nat -> rd std_table i = Some (h, g, a, b) -> std_formula (h, g, a, b) b = h.
Proof.
  intros I E. destruct (std_table_pos i h g a b I E) as [A B]. unfold std_formula.
  replace (b / b) with 1 by (field; lra). rewrite ln_1. unfold Rpower. rewrite ln_1, Rmult_0_r, exp_0.
  destruct (negb (Reqb g 0)); lra.
Qed.
