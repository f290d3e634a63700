(** Proofs about the partial Mann-Kendall kernels. *)
From Verif Require Import Base Buffer Loops OrderSpec OrderProofs MKSort_Model MKSort_Proofs MKSort_Props
  MKStat_Model MKStat_Spec MKStat_Proofs1 MKStat_Proofs2 MKStat_Proofs3 MKStat_Proofs4.
Set Implicit Arguments.
Local Open Scope nat_scope.

Lemma getz_rd a i v : rd a i = Some v -> getz a i = v.
Proof. destruct i; simpl. discriminate. unfold getz. simpl. rewrite Nat.sub_0_r. intros H. apply nth_error_nth; auto. Qed.
Lemma rd_getz a i : 1 <= i <= length a -> rd a i = Some (getz a i).
Proof. intros H. destruct (rd_Some a H) as [v E]. rewrite E. f_equal. symmetry. apply getz_rd; auto. Qed.
Lemma getz_wr a i j v : 1 <= i <= length a -> 1 <= j <= length a -> getz (wr a i v) j = if j =? i then v else getz a j.
Proof.
  intros Hi Hj. apply getz_rd. destruct (Nat.eqb_spec j i) as [->|N].
  - apply rd_wr_eq; auto.
  - rewrite rd_wr_neq by auto. apply rd_getz; auto.
Qed.

Lemma sign_of_sgnd a b : sign_of (b - a)%Qc = sgnd a b.
Proof. unfold sign_of, sgnd. repeat qc_case; auto; exfalso; qclra. Qed.

Definition upd_term (s : nat -> nat -> Z) (i : nat) (p : nat * nat) : Z :=
  let '(a, b) := p in ((if (b =? i)%nat then s a b else 0) - (if (a =? i)%nat then s a b else 0))%Z.

Lemma rank_update r i j v n : length r = n -> 1 <= i < j -> j <= n ->
  let r' := wr (wr r i (getz r i - v)%Z) j (getz (wr r i (getz r i - v)%Z) j + v)%Z in
  length r' = n /\ (forall k, 1 <= k <= n -> getz r' k = (getz r k + ((if (j =? k)%nat then v else 0) - (if (i =? k)%nat then v else 0)))%Z).
Proof.
  intros L Hi Hj r'. split. { unfold r'. rewrite !wr_length. auto. }
  intros k Hk. unfold r'. rewrite getz_wr by (rewrite ?wr_length; lia). rewrite !getz_wr by lia.
  destruct (Nat.eqb_spec k j) as [->|N1].
  - rewrite Nat.eqb_refl. replace (j =? i) with false by (symmetry; apply Nat.eqb_neq; lia).
    replace (i =? j) with false by (symmetry; apply Nat.eqb_neq; lia). lia.
  - replace (j =? k) with false by (symmetry; apply Nat.eqb_neq; lia).
    destruct (Nat.eqb_spec k i) as [->|N2]. rewrite Nat.eqb_refl. lia.
    replace (i =? k) with false by (symmetry; apply Nat.eqb_neq; lia). lia.
Qed.

Section Partial.
Variables x y : list Qc.
Let n := length x.
Let sx (a b : nat) := sgnd (get x a) (get x b).
Let sy (a b : nat) := sgnd (get y a) (get y b).

Lemma partial_fold : forall L xs ys k rx ry, (forall i j, In (i, j) L -> 1 <= i < j /\ j <= n) ->
  length rx = n -> length ry = n ->
  exists rx' ry', fold_left (fun st '(i, j) => partial_body x y i j st) L (xs, ys, k, rx, ry) =
    ((xs + zsum (map (fun '(i, j) => sx i j) L))%Z, (ys + zsum (map (fun '(i, j) => sy i j) L))%Z,
     (k + zsum (map (fun '(i, j) => sx i j * sy i j)%Z L))%Z, rx', ry') /\
    length rx' = n /\ length ry' = n /\
    (forall q, 1 <= q <= n -> getz rx' q = (getz rx q + zsum (map (upd_term sx q) L))%Z) /\
    (forall q, 1 <= q <= n -> getz ry' q = (getz ry q + zsum (map (upd_term sy q) L))%Z).
Proof.
  induction L as [|(i, j) L IH]; intros xs ys k rx ry HL Lx Ly.
  - exists rx, ry. cbn [fold_left map]. change (zsum []) with 0%Z. rewrite !Z.add_0_r. repeat split; auto; intros; lia.
  - destruct (HL i j (or_introl eq_refl)) as [Hij Hj]. cbn [fold_left]. unfold partial_body at 2.
    rewrite !sign_of_sgnd. fold (sx i j). fold (sy i j).
    destruct (@rank_update rx i j (sx i j) n Lx Hij Hj) as [L1 G1].
    destruct (@rank_update ry i j (sy i j) n Ly Hij Hj) as [L2 G2].
    edestruct (IH (xs + sx i j)%Z (ys + sy i j)%Z (k + sx i j * sy i j)%Z _ _ (fun a b h => HL a b (or_intror h)) L1 L2)
      as (rx' & ry' & E & A1 & A2 & A3 & A4).
    exists rx', ry'. split; [|split; [auto|split; [auto|split]]].
    + cbv zeta. rewrite E. cbn [map]. rewrite !zsum_cons, !Z.add_assoc. auto.
    + intros q Hq. rewrite A3, G1 by auto. cbn [map]. rewrite zsum_cons. cbn [upd_term]. lia.
    + intros q Hq. rewrite A4, G2 by auto. cbn [map]. rewrite zsum_cons. cbn [upd_term]. lia.
Qed.
End Partial.

Lemma getz_repeat n i : getz (repeat 0%Z n) i = 0%Z.
Proof. unfold getz. apply nth_repeat. Qed.

Lemma scores_final x : forall L (r : list Z), Permutation L (row_pairs (length x)) -> length r = length x ->
  (forall q, 1 <= q <= length x -> getz r q = (getz (repeat 0%Z (length x)) q + zsum (map (upd_term (fun a b => sgnd (get x a) (get x b)) q) L))%Z) ->
  r = map (rank_score x) x.
Proof.
  intros L r P Lr H. apply rd_ext. { rewrite map_length; auto. }
  intros i Hi. rewrite Lr in Hi. rewrite rd_getz by lia. rewrite rd_map, rd_get by lia. cbn [option_map]. f_equal.
  rewrite H, getz_repeat by auto. rewrite (zsum_perm (Permutation_map _ P)). unfold upd_term.
  rewrite (@pair_row_sum (fun a b => sgnd (get x a) (get x b))) by (auto; intros; apply sgnd_anti).
  unfold rank_score. rewrite (zsum_get (fun v => sgnd v (get x i))). lia.
Qed.

Definition pfinal (x y : list Qc) : pstate :=
  (mk_S x, mk_S y, kendall_K (combine x y), map (rank_score x) x, map (rank_score y) y).

Lemma mk_S_pairs x L : Permutation L (row_pairs (length x)) ->
  zsum (map (fun '(i, j) => sgnd (get x i) (get x j)) L) = mk_S x.
Proof.
  intros P. rewrite (zsum_perm (Permutation_map _ P)), mk_S_zsum, all_pairs_index, map_map. apply zsum_ext. intros (i, j) _.
  unfold pair_of, psign, sgnd, increasing, decreasing. auto.
Qed.

Lemma partial_scan x y L : length y = length x -> Permutation L (row_pairs (length x)) ->
  fold_left (fun st '(i, j) => partial_body x y i j st) L (pstate0 (length x)) = pfinal x y.
Proof.
  intros LY P. unfold pstate0.
  destruct (@partial_fold x y L 0%Z 0%Z 0%Z (repeat 0%Z (length x)) (repeat 0%Z (length x))) as (rx & ry & E & L1 & L2 & R1 & R2).
  - intros i j H. apply (Permutation_in _ P) in H. apply in_row_pairs in H. auto.
  - apply repeat_length.
  - apply repeat_length.
  - unfold pstate in E |- *. rewrite E. unfold pfinal. rewrite !Z.add_0_l.
    rewrite (mk_S_pairs x P). rewrite <- LY in P. rewrite (mk_S_pairs y P). rewrite LY in P.
    rewrite (zsum_perm (Permutation_map _ P)).
    assert (K : kendall_K (combine x y) = zsum (map (fun '(i, j) => (sgnd (get x i) (get x j) * sgnd (get y i) (get y j))%Z) (row_pairs (length x)))).
    { rewrite kendall_K_zsum, point_pairs_index, map_map by auto. apply zsum_ext. intros (i, j) _. auto. }
    rewrite <- K.
    rewrite (@scores_final x L rx P L1 R1).
    rewrite <- LY in P, L2, R2. rewrite (@scores_final y L ry P L2 R2).
    reflexivity.
Qed.

Lemma to_rank_average l v : ((qz (Z.of_nat (length l)) + 1 + qz (rank_score l v)) / 2)%Qc = average_rank l v.
Proof. rewrite average_rank_score, !qz_add, qz_1. auto. Qed.

Lemma partial_close_ok x y : length y = length x ->
  partial_close (length x) (pfinal x y) =
  (partial_S x y, partial_var x y,
   (qz (mk_S x) / (qz (Z.of_nat (length x)) * qz (Z.of_nat (length x) - 1) / 2))%Qc).
Proof.
  intros L. unfold partial_close, pfinal. cbv zeta. set (nr := qz (Z.of_nat (length x))).
  assert (V : (nr * qz (Z.of_nat (length x) - 1) * qz (2 * Z.of_nat (length x) + 5) / qz 18)%Qc = no_ties_variance (length x)).
  { unfold no_ties_variance. cbv zeta. rewrite !qz_mul. auto. }
  rewrite V.
  assert (R : map (fun '(a, b) => ((nr + 1 + qz a) / 2 * ((nr + 1 + qz b) / 2))%Qc) (combine (map (rank_score x) x) (map (rank_score y) y))
     = map (fun '(a, b) => (average_rank x a * average_rank y b)%Qc) (combine x y)).
  { assert (CM : forall (l l' : list Qc), combine (map (rank_score x) l) (map (rank_score y) l') = map (fun '(a, b) => (rank_score x a, rank_score y b)) (combine l l')).
    { induction l as [|a l IH]; intros [|b l']; simpl; auto. rewrite IH; auto. }
    rewrite CM, map_map. apply map_ext. intros (a, b). unfold nr. rewrite to_rank_average. rewrite <- L, to_rank_average. auto. }
  rewrite R. unfold partial_S, partial_var, partial_rho, dk_cov. change (fold_right Qcplus 0%Qc) with qsum. auto.
Qed.

Lemma compute_partial_stats_ok x y : length y = length x -> 3 <= length x ->
  compute_partial_stats x y = (partial_S x y, partial_var x y,
   (qz (mk_S x) / (qz (Z.of_nat (length x)) * qz (Z.of_nat (length x) - 1) / 2))%Qc).
Proof.
  intros L H. unfold compute_partial_stats. rewrite L, Nat.eqb_refl. cbn [negb orb].
  replace (length x <? 3) with false by (symmetry; apply Nat.ltb_ge; auto). cbv zeta.
  rewrite (do_loop_row (length x) (fun i j st => partial_body x y i j st)).
  rewrite (@partial_scan x y _ L (Permutation_refl _)). apply partial_close_ok. auto.
Qed.

Lemma partial_fused_ok x y work0 : length y = length x -> 2 <= length x ->
  length x * (length x - 1) / 2 <= length work0 ->
  partial_stats_and_sen_slope x y (make_inv_lag (length x - 1)) work0 =
  Some (partial_S x y, partial_var x y,
   (qz (mk_S x) / (qz (Z.of_nat (length x)) * qz (Z.of_nat (length x) - 1) / 2))%Qc, Some (sen x)).
Proof.
  intros L H W. unfold partial_stats_and_sen_slope. rewrite L, Nat.eqb_refl. cbn [negb orb].
  replace (length x <? 2) with false by (symmetry; apply Nat.ltb_ge; auto). cbv zeta.
  pose proof (half_pos H) as HP. set (ns := length x * (length x - 1) / 2) in *.
  replace (ns <=? 0) with false by (symmetry; apply Nat.leb_gt; lia).
  set (il := make_inv_lag (length x - 1)).
  set (F := fun i j (st : pstate * nat * list Qc) => let '(st, k, w) := st in
     (partial_body x y i j st, k + 1, wr w (k + 1) ((get x j - get x i) * get il (j - i))%Qc)).
  match goal with |- context [do_loop 1 (length x - 1) ?G ?s0] =>
    assert (E : do_loop 1 (length x - 1) G s0 = fold_left (fun st '(i, j) => F i j st) (lag_pairs (length x)) s0) end.
  { rewrite <- (do_loop_lag (length x) F). unfold do_loop. apply fold_left_ext_in. intros st lag _.
    apply fold_left_ext_in. intros ((s, k), w) i _. unfold F. replace (i + lag - i) with lag by lia. auto. }
  rewrite E. clear E.
  assert (SP : forall l s k w, fold_left (fun st '(i, j) => F i j st) l (s, k, w) =
    (fold_left (fun st '(i, j) => partial_body x y i j st) l s,
     fst (fold_left (fun '(k, w) '(i, j) => (S k, wr w (k + 1) ((get x j - get x i) * get il (j - i))%Qc)) l (k, w)),
     snd (fold_left (fun '(k, w) '(i, j) => (S k, wr w (k + 1) ((get x j - get x i) * get il (j - i))%Qc)) l (k, w)))).
  { induction l as [|(i, j) l IH]; intros s k w; cbn [fold_left]. auto. unfold F at 2. rewrite IH. rewrite Nat.add_1_r. auto. }
  pose proof (@partial_scan x y _ L (lag_row_perm (length x))) as PS.
  unfold pstate in *. rewrite SP, PS.
  pose proof (@fold_fill (nat * nat) work0 (fun '(i, j) => (get x j - get x i) * get il (j - i))%Qc (lag_pairs (length x)) []) as FF.
  cbn [length app plus] in FF. rewrite len_lag in FF. specialize (FF W (fun k _ => k + 1) ltac:(intros; cbv beta; lia)).
  rewrite (fold_left_ext_in _ (fun '(k, w) b => (S k, wr w (k + 1) (let '(i, j) := b in ((get x j - get x i) * get il (j - i))%Qc)))) by (intros (k, w) (i, j) _; auto).
  simpl skipn in FF. rewrite FF. cbn [snd fst].
  change (map (fun '(i, j) => ((get x j - get x i) * get il (j - i))%Qc) (lag_pairs (length x))) with (lag_slopes x il).
  rewrite firstn_app_exact by apply lag_slopes_length. unfold ns. rewrite <- (lag_slopes_length x il), median_of_work_maxval_ok.
  - unfold il. rewrite (median_perm (lag_slopes_perm x)). rewrite partial_close_ok by auto. auto.
  - intros E. pose proof (lag_slopes_length x il) as LL. rewrite E in LL. cbn [length] in LL. unfold ns in HP. rewrite <- LL in HP. lia.
Qed.

(** Cauchy-Schwarz over the integers. *)
Lemma cauchy_schwarz (A : Type) (f g : A -> Z) l :
  (zsum (map (fun a => f a * g a) l) * zsum (map (fun a => f a * g a) l) <= zsum (map (fun a => f a * f a) l) * zsum (map (fun a => g a * g a) l))%Z.
Proof.
  induction l as [|a l IH]. cbn; lia. cbn [map]. rewrite !zsum_cons.
  set (A0 := zsum (map (fun a => f a * f a) l)%Z) in *. set (B0 := zsum (map (fun a => g a * g a) l)%Z) in *.
  set (C0 := zsum (map (fun a => f a * g a) l)%Z) in *.
  assert (Q : (0 <= A0 * (g a * g a) - 2 * C0 * (f a * g a) + B0 * (f a * f a))%Z).
  { assert (E : (A0 * (g a * g a) - 2 * C0 * (f a * g a) + B0 * (f a * f a) = zsum (map (fun b => (f b * g a - g b * f a) * (f b * g a - g b * f a)) l))%Z).
    { unfold A0, B0, C0. clear. induction l as [|b l IH]. cbn; lia. cbn [map]. rewrite !zsum_cons, <- IH. ring. }
    rewrite E. apply zsum_nonneg. intros v Hv. apply in_map_iff in Hv. destruct Hv as (b & <- & _). apply Z.square_nonneg. }
  assert (E : ((f a * f a + A0) * (g a * g a + B0) - (f a * g a + C0) * (f a * g a + C0) =
    (A0 * B0 - C0 * C0) + (A0 * (g a * g a) - 2 * C0 * (f a * g a) + B0 * (f a * f a)))%Z) by ring.
  clearbody A0 B0 C0. lia.
Qed.

Lemma dk_form_split g h : length h = length g ->
  dk_form g h = zsum (map (fun p => match p with inl (i, j) => sgnd (get g i) (get g j) * sgnd (get h i) (get h j) | inr i => rank_score g (get g i) * rank_score h (get h i) end)%Z
    (map inl (row_pairs (length g)) ++ map inr (seq 1 (length g)))).
Proof.
  intros L. rewrite map_app, zsum_app, !map_map. unfold dk_form, rdot. f_equal.
Qed.
Lemma dk_form_cs g h : length h = length g -> (dk_form g h * dk_form g h <= dk_form g g * dk_form h h)%Z.
Proof.
  intros L. rewrite !dk_form_split by auto. rewrite L.
  set (f := fun (k : list Qc) (p : (nat * nat) + nat) => match p with inl (i, j) => sgnd (get k i) (get k j) | inr i => rank_score k (get k i) end).
  assert (E : forall k k' l, zsum (map (fun p => match p with inl (i, j) => sgnd (get k i) (get k j) * sgnd (get k' i) (get k' j) | inr i => rank_score k (get k i) * rank_score k' (get k' i) end)%Z l)
      = zsum (map (fun p => (f k p * f k' p)%Z) l)).
  { intros k k' l. apply zsum_ext. intros [(i, j)|i] _; auto. }
  rewrite !E. apply cauchy_schwarz.
Qed.

Lemma no_ties_pos n : 2 <= n -> (0 < no_ties_variance n)%Qc.
Proof.
  intros H. unfold no_ties_variance. cbv zeta. set (N := Z.of_nat n). assert (H' : (2 <= N)%Z) by lia. 
  assert (P : (0 < N * (N - 1) * (2 * N + 5))%Z) by nia. apply qz_lt in P. rewrite qz_0 in P.
  set (q := qz (N * (N - 1) * (2 * N + 5))) in *. clearbody q. qclra.
Qed.

Lemma dk_form_bound g h : length h = length g ->
  let t := tie_poly (Z.of_nat (length g)) in (36 * (dk_form g h * dk_form g h) <= t * t)%Z.
Proof.
  intros L t. pose proof (dk_form_cs g h L) as CS. pose proof (dk_form_diag g) as D1. pose proof (dk_form_diag h) as D2.
  destruct (@tie_correction_bounds (length g) g eq_refl) as [[T1 T2] _]. destruct (@tie_correction_bounds (length h) h eq_refl) as [[T3 T4] _].
  rewrite L in *. fold t in D1, D2, T2, T4.
  assert (B1 : (0 <= 6 * dk_form g g <= t)%Z) by lia. assert (B2 : (0 <= 6 * dk_form h h <= t)%Z) by lia.
  assert (M : (6 * dk_form g g * (6 * dk_form h h) <= t * t)%Z) by (apply Z.mul_le_mono_nonneg; lia). lia.
Qed.

Lemma partial_rho_bound x y : length y = length x -> 2 <= length x ->
  (-(1) <= partial_rho x y <= 1)%Qc.
Proof.
  intros L H. pose proof (dk_form_bound x y L) as B. cbv zeta in B. unfold partial_rho. rewrite dk_cov_form by auto.
  unfold no_ties_variance. cbv zeta.
  change (Z.of_nat (length x) * (Z.of_nat (length x) - 1) * (2 * Z.of_nat (length x) + 5))%Z with (tie_poly (Z.of_nat (length x))).
  assert (P : (0 < tie_poly (Z.of_nat (length x)))%Z). { unfold tie_poly. assert (2 <= Z.of_nat (length x))%Z by lia. nia. }
  set (t := tie_poly (Z.of_nat (length x))) in *. set (d := dk_form x y) in *.
  assert (B' : (- t <= 6 * d <= t)%Z).
  { clearbody t d. split.
    - enough (- (6 * d) <= t)%Z by lia. apply Z.square_le_simpl_nonneg; lia.
    - apply Z.square_le_simpl_nonneg; lia. }
  assert (E : (qz d / qz 3 / (qz t / qz 18))%Qc = (qz (6 * d) / qz t)%Qc).
  { change (qz 18) with (qz (6 * 3)%Z). rewrite !qz_mul. field. repeat split; apply qz_nonzero; lia. }
  rewrite E. destruct B' as [B1 B2]. apply qz_le in B1. apply qz_le in B2. apply qz_lt in P. rewrite qz_0 in P. rewrite qz_opp in B1.
  set (a := qz (6 * d)) in *. set (b := qz t) in *. clearbody a b. 
  assert (I : (a = (a / b) * b)%Qc) by (field; intros E0; rewrite E0 in P; qclra).
  set (c := (a / b)%Qc) in *. clearbody c. rewrite I in B1, B2. clear I E.
  split.
  - destruct (Qclt_le_dec c (-(1))) as [C|C]; auto. exfalso. assert (0 < (-(1) - c) * b)%Qc by (apply Qcmul_pos; qclra). qclra.
  - destruct (Qclt_le_dec 1 c) as [C|C]; auto. exfalso. assert (0 < (c - 1) * b)%Qc by (apply Qcmul_pos; qclra). qclra.
Qed.

Lemma one_minus_square r v : (-(1) <= r <= 1)%Qc -> (0 < v)%Qc -> (0 <= (1 - r * r) * v)%Qc.
Proof.
  intros [B1 B2] P. assert (R : (0 <= (1 - r) * (1 + r))%Qc) by (apply Qcmul_nonneg; qclra).
  replace (1 - r * r)%Qc with ((1 - r) * (1 + r))%Qc by ring. apply Qcmul_nonneg; auto. qclra.
Qed.
Lemma partial_var_eq x y : partial_var x y = ((1 - partial_rho x y * partial_rho x y) * no_ties_variance (length x))%Qc.
Proof. unfold partial_var. reflexivity. Qed.
(* implicit-argument inference would unfold Qcle and compute in the statement *)
Unset Implicit Arguments.
Lemma partial_var_nonneg x y : length y = length x -> 2 <= length x -> (0 <= partial_var x y)%Qc.
Proof. intros L H. rewrite partial_var_eq. apply one_minus_square. apply partial_rho_bound; auto. apply no_ties_pos; auto. Qed.

Lemma partial_self x : NoDup x -> 2 <= length x ->
  partial_rho x x = 1%Qc /\ partial_S x x = 0%Qc /\ partial_var x x = 0%Qc.
Proof.
  intros D H. assert (R : partial_rho x x = 1%Qc).
  { unfold partial_rho. rewrite dk_cov_diag, mk_variance_no_ties by auto.
    change (let n := Z.of_nat (length x) in (qz (n * (n - 1) * (2 * n + 5)) / qz 18)%Qc) with (no_ties_variance (length x)).
    pose proof (Qcpos_neq (no_ties_pos H)) as P. generalize dependent (no_ties_variance (length x)). intros v P. field. auto. }
  split; auto. unfold partial_S, partial_var. rewrite R. generalize (qz (mk_S x)) (no_ties_variance (length x)). intros. split; ring.
Qed.
