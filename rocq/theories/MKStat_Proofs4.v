(** Proofs about the rank-covariance kernels (correlated groups, partial test). *)
From Verif Require Import Base Buffer Loops OrderSpec OrderProofs MKSort_Model MKSort_Proofs MKSort_Props
  MKStat_Model MKStat_Spec MKStat_Proofs1 MKStat_Proofs2 MKStat_Proofs3.
Set Implicit Arguments.
Local Open Scope nat_scope.

Lemma zsum_ext (A : Type) (f g : A -> Z) l : (forall x, In x l -> f x = g x) -> zsum (map f l) = zsum (map g l).
Proof. intros H. f_equal. apply map_ext_in. auto. Qed.
Lemma zsum_map_scale (A : Type) (c : Z) (f : A -> Z) l : zsum (map (fun x => (c * f x)%Z) l) = (c * zsum (map f l))%Z.
Proof. induction l as [|x l IH]; cbn [map zsum fold_right]; [lia|]. unfold zsum in IH |- *. cbn. rewrite IH. lia. Qed.
Lemma zsum_cons x l : zsum (x :: l) = (x + zsum l)%Z. Proof. reflexivity. Qed.
Lemma zsum_const (A : Type) (c : Z) (l : list A) : zsum (map (fun _ => c) l) = (Z.of_nat (length l) * c)%Z.
Proof. induction l as [|x l IH]; cbn [map length]; [reflexivity|]. rewrite zsum_cons, IH. lia. Qed.
Lemma zsum_nonneg l : (forall x, In x l -> (0 <= x)%Z) -> (0 <= zsum l)%Z.
Proof. induction l as [|x l IH]; intros H. cbn; lia. rewrite zsum_cons. pose proof (H x (or_introl eq_refl)). pose proof (IH (fun y h => H y (or_intror h))). lia. Qed.

(** ** Sums over index pairs *)
Lemma row_pairs_snoc n : Permutation (row_pairs (S n)) (row_pairs n ++ map (fun a => (a, S n)) (seq 1 n)).
Proof.
  apply NoDup_Permutation.
  - apply NoDup_row_pairs.
  - assert (D : forall l l' : list (nat * nat), NoDup l -> NoDup l' -> (forall x, In x l -> ~ In x l') -> NoDup (l ++ l')).
    { induction l as [|x l IH]; simpl; auto. intros l' H H' K. inversion H; subst. constructor.
      - rewrite in_app_iff. intros [?|?]; auto. apply (K x); auto.
      - apply IH; auto. }
    apply D. apply NoDup_row_pairs. apply NoDup_map_inj; [|apply seq_NoDup]. intros x y _ _ E. congruence.
    intros (i, j) H K. apply in_row_pairs in H. apply in_map_iff in K. destruct K as (a & E & _). injection E as <- <-. lia.
  - intros (i, j). rewrite in_app_iff, !in_row_pairs, in_map_iff. split.
    + intros H. destruct (Nat.eq_dec j (S n)) as [->|N]. right. exists i. split; auto. apply in_seq. lia. left. lia.
    + intros [H|(a & E & H)]; [lia|]. injection E as <- <-. apply in_seq in H. lia.
Qed.

Lemma pair_row_sum (s : nat -> nat -> Z) : (forall a b, s b a = - s a b)%Z -> forall n i, 1 <= i <= n ->
  zsum (map (fun '(a, b) => ((if (b =? i)%nat then s a b else 0) - (if (a =? i)%nat then s a b else 0))%Z) (row_pairs n))
  = zsum (map (fun a => s a i) (seq 1 n)).
Proof.
  intros A. assert (S0 : forall a, s a a = 0%Z) by (intros a; specialize (A a a); lia).
  induction n as [|n IH]; intros i Hi; [lia|].
  rewrite (zsum_perm (Permutation_map _ (row_pairs_snoc n))), map_app, zsum_app, map_map.
  rewrite (seq_S n 1), map_app, zsum_app. change (1 + n) with (S n). cbn [map]. rewrite zsum_cons. change (zsum []) with 0%Z.
  destruct (Nat.eq_dec i (S n)) as [->|N].
  - rewrite (zsum_ext _ (fun _ => 0%Z)).
    2:{ intros (a, b) H. apply in_row_pairs in H. replace (b =? S n) with false by (symmetry; apply Nat.eqb_neq; lia).
        replace (a =? S n) with false by (symmetry; apply Nat.eqb_neq; lia). lia. }
    rewrite zsum_const. rewrite (zsum_ext _ (fun a => s a (S n))).
    2:{ intros a H. apply in_seq in H. rewrite Nat.eqb_refl. replace (a =? S n) with false by (symmetry; apply Nat.eqb_neq; lia). lia. }
    rewrite S0. lia.
  - rewrite IH by lia.
    enough (E : zsum (map (fun x => ((if (S n =? i)%nat then s x (S n) else 0) - (if (x =? i)%nat then s x (S n) else 0))%Z) (seq 1 n)) = s (S n) i) by (rewrite E; lia).
    assert (G : forall m lo, zsum (map (fun x => ((if (S n =? i)%nat then s x (S n) else 0) - (if (x =? i)%nat then s x (S n) else 0))%Z) (seq lo m)) =
       if (lo <=? i) && (i <? lo + m) then s (S n) i else 0%Z).
    { induction m as [|m IHm]; intros lo.
      - cbn [seq map]. destruct (lo <=? i) eqn:E1, (i <? lo + 0) eqn:E2; auto. apply Nat.leb_le in E1. apply Nat.ltb_lt in E2. lia.
      - cbn [seq map]. rewrite zsum_cons, IHm. replace (S n =? i) with false by (symmetry; apply Nat.eqb_neq; lia).
        destruct (Nat.eqb_spec lo i) as [->|NE].
        + rewrite Nat.leb_refl. replace (S i <=? i) with false by (symmetry; apply Nat.leb_gt; lia).
          replace (i <? i + S m) with true by (symmetry; apply Nat.ltb_lt; lia). cbn. rewrite (A i (S n)). lia.
        + replace (i <? lo + S m) with (i <? S lo + m) by (f_equal; lia).
          replace (S lo <=? i) with (lo <=? i). lia.
          destruct (Nat.leb_spec lo i), (Nat.leb_spec (S lo) i); auto; lia. }
    rewrite G. replace (1 <=? i) with true by (symmetry; apply Nat.leb_le; lia).
    replace (i <? 1 + n) with true by (symmetry; apply Nat.ltb_lt; lia). auto.
Qed.

Lemma pair_double_sum (f : nat -> nat -> Z) : (forall a b, f b a = f a b) -> (forall a, f a a = 0%Z) -> forall n,
  (2 * zsum (map (fun '(a, b) => f a b) (row_pairs n)) = zsum (map (fun a => zsum (map (f a) (seq 1 n))) (seq 1 n)))%Z.
Proof.
  intros Sy D. induction n as [|n IH]. reflexivity.
  rewrite (zsum_perm (Permutation_map _ (row_pairs_snoc n))), map_app, zsum_app, map_map.
  rewrite (seq_S n 1). change (1 + n) with (S n). rewrite map_app, zsum_app. cbn [map]. rewrite zsum_cons.
  rewrite map_app, zsum_app. cbn [map]. rewrite zsum_cons. change (zsum []) with 0%Z.
  rewrite (zsum_ext (fun a => zsum (map (f a) (seq 1 n ++ [S n]))) (fun a => (zsum (map (f a) (seq 1 n)) + f a (S n))%Z)).
  2:{ intros a _. rewrite map_app, zsum_app. cbn [map]. rewrite zsum_cons. cbn. lia. }
  rewrite zsum_map_add, <- IH, D. rewrite (zsum_ext (f (S n)) (fun a => f a (S n))) by (intros; apply Sy). cbn [zsum fold_right]. lia.
Qed.

(** ** Kendall's K *)
Definition ksign (q : (Qc * Qc) * (Qc * Qc)) : Z := let '((a, b), (c, d)) := q in (sgnd a c * sgnd b d)%Z.
Lemma kendall_K_zsum l : kendall_K l = zsum (map ksign (point_pairs l)).
Proof.
  unfold kendall_K. induction (point_pairs l) as [|q t IH]; auto. cbn [map filter]. rewrite zsum_cons, <- IH.
  destruct q as ((a, b), (c, d)). unfold ksign, sgnd, concordant, discordant.
  destruct (Qcltb_spec a c), (Qcltb_spec c a), (Qcltb_spec b d), (Qcltb_spec d b); cbn [andb orb length];
    try (exfalso; qclra); lia.
Qed.

Definition getp (g h : list Qc) (i : nat) : Qc * Qc := (get g i, get h i).
Lemma point_pairs_index g : forall h, length h = length g ->
  point_pairs (combine g h) = map (fun '(i, j) => (getp g h i, getp g h j)) (row_pairs (length g)).
Proof.
  induction g as [|a g IH]; intros [|b h] L; try discriminate; auto.
  injection L as L. cbn [combine point_pairs length]. rewrite row_pairs_S, map_app, !map_map. f_equal.
  - rewrite <- seq_shift, map_map.
    assert (E : combine g h = map (getp g h) (seq 1 (length g))).
    { clear IH. apply nth_ext with (d := (0%Qc, 0%Qc)) (d' := (0%Qc, 0%Qc)).
      - rewrite combine_length, map_length, seq_length, L. apply Nat.min_id.
      - intros n Hn. rewrite combine_length, L, Nat.min_id in Hn. rewrite combine_nth by auto.
        rewrite (nth_indep _ _ (getp g h 0)) by (rewrite map_length, seq_length; auto).
        rewrite map_nth, seq_nth by auto. unfold getp, get. simpl. rewrite Nat.sub_0_r. auto. }
    rewrite E, map_map. apply map_ext_in. intros i Hi. apply in_seq in Hi. unfold getp. rewrite (@get_cons_S a g i), (@get_cons_S b h i) by lia. auto.
  - rewrite IH by auto. apply map_ext_in. intros (i, j) H. apply in_row_pairs in H. unfold getp. rewrite !get_cons_S by lia. auto.
Qed.

Lemma product_sign a b c d :
  (if (0 <? (b - a) * (d - c))%Qc then 1 else if ((b - a) * (d - c) <? 0)%Qc then -1 else 0)%Z = (sgnd a b * sgnd c d)%Z.
Proof.
  unfold sgnd. destruct (Qcltb_spec a b), (Qcltb_spec b a), (Qcltb_spec c d), (Qcltb_spec d c);
    try (exfalso; qclra); destruct (Qcltb_spec 0 ((b - a) * (d - c))), (Qcltb_spec ((b - a) * (d - c)) 0); auto; exfalso;
    try (assert (b = a) by (apply Qcle_antisym; apply Qcnot_lt_le; auto); subst; qcnra);
    try (assert (d = c) by (apply Qcle_antisym; apply Qcnot_lt_le; auto); subst; qcnra); qcnra.
Qed.

Lemma compute_k_stat_sum g h n : compute_k_stat g h n =
  zsum (map (fun '(i, j) => sgnd (get g i) (get g j) * sgnd (get h i) (get h j))%Z (row_pairs n)).
Proof.
  unfold compute_k_stat. destruct (Nat.leb_spec n 1) as [L|L]. { destruct n as [|[|n]]; auto; lia. }
  rewrite (do_loop_row n (fun i j k => let product := ((get g j - get g i) * (get h j - get h i))%Qc in
      if (0 <? product)%Qc then (k + 1)%Z else if (product <? 0)%Qc then (k - 1)%Z else k)).
  rewrite (fold_left_ext_in _ (fun s p => (s + (fun '(i, j) => sgnd (get g i) (get g j) * sgnd (get h i) (get h j))%Z p)%Z)).
  - rewrite fold_left_zsum. lia.
  - intros s (i, j) _. cbv beta iota zeta. rewrite <- product_sign.
    destruct (0 <? (get g j - get g i) * (get h j - get h i))%Qc; [lia|].
    destruct ((get g j - get g i) * (get h j - get h i) <? 0)%Qc; lia.
Qed.
Lemma compute_k_stat_ok g h : length h = length g -> compute_k_stat g h (length g) = kendall_K (combine g h).
Proof.
  intros L. rewrite compute_k_stat_sum, kendall_K_zsum, point_pairs_index, map_map by auto. f_equal. apply map_ext. intros (i, j). auto.
Qed.

(** ** The covariance as a sum of squares form *)
Definition rdot (g h : list Qc) : Z :=
  zsum (map (fun i => rank_score g (get g i) * rank_score h (get h i))%Z (seq 1 (length g))).
Definition dk_form (g h : list Qc) : Z :=
  (zsum (map (fun '(i, j) => sgnd (get g i) (get g j) * sgnd (get h i) (get h j))%Z (row_pairs (length g))) + rdot g h)%Z.

Lemma rank_score_total l : zsum (map (rank_score l) l) = 0%Z.
Proof.
  assert (G : forall l', (zsum (map (rank_score l) l') + zsum (map (rank_score l') l) = 0)%Z).
  { intros l'. unfold rank_score. induction l' as [|x l' IH].
    - cbn [map]. rewrite zsum_const. cbn. lia.
    - cbn [map]. rewrite zsum_cons. rewrite (zsum_ext (fun v => zsum (sgnd x v :: map (fun x0 => sgnd x0 v) l')) (fun v => (sgnd x v + zsum (map (fun x0 => sgnd x0 v) l'))%Z)) by (intros; reflexivity).
      rewrite zsum_map_add. rewrite (zsum_ext (sgnd x) (fun v => (- sgnd v x)%Z)) by (intros; apply sgnd_anti). rewrite zsum_map_opp. lia. }
  specialize (G l). lia.
Qed.

Lemma zsum_get (F : Qc -> Z) l : zsum (map (fun i => F (get l i)) (seq 1 (length l))) = zsum (map F l).
Proof. rewrite <- (map_map (get l) F), map_get_seq. auto. Qed.

Lemma combine_index g h : length h = length g -> combine g h = map (getp g h) (seq 1 (length g)).
Proof.
  intros L. apply nth_ext with (d := (0%Qc, 0%Qc)) (d' := (0%Qc, 0%Qc)).
  - rewrite combine_length, map_length, seq_length, L. apply Nat.min_id.
  - intros n Hn. rewrite combine_length, L, Nat.min_id in Hn. rewrite combine_nth by auto.
    rewrite (nth_indep _ _ (getp g h 0)) by (rewrite map_length, seq_length; auto).
    rewrite map_nth, seq_nth by auto. unfold getp, get. simpl. rewrite Nat.sub_0_r. auto.
Qed.

Lemma rank_products g h : length h = length g ->
  let n := qz (Z.of_nat (length g)) in
  (qz 4 * qsum (map (fun '(a, b) => average_rank g a * average_rank h b) (combine g h)) - n * ((n + 1) * (n + 1)) = qz (rdot g h))%Qc.
Proof.
  intros L n. rewrite combine_index, map_map by auto. unfold getp.
  rewrite <- qsum_map_scale.
  rewrite (qsum_ext _ (fun i => ((n + 1) * (n + 1) + ((n + 1) * (qz (rank_score g (get g i)) + qz (rank_score h (get h i)))
     + qz (rank_score g (get g i) * rank_score h (get h i))%Z))%Qc)).
  2:{ intros i _. rewrite !average_rank_score, L, !qz_add, qz_mul. fold n. change (qz 4) with (qz (2 * 2)%Z). rewrite qz_mul.
      rewrite qz_1. field. apply qz_nonzero. lia. }
  rewrite !qsum_map_add, qsum_const, seq_length. fold n.
  rewrite qsum_map_scale, qsum_map_add, !qsum_qz, (zsum_get (rank_score g)).
  rewrite <- L, (zsum_get (rank_score h)), !rank_score_total, L. unfold rdot. change (qz 0) with 0%Qc. ring.
Qed.

Lemma dk_cov_form g h : length h = length g -> dk_cov g h = (qz (dk_form g h) / qz 3)%Qc.
Proof.
  intros L. unfold dk_cov. change (fold_right Qcplus 0%Qc) with qsum.
  pose proof (rank_products g h L) as R. cbv zeta in R |- *.
  rewrite <- (@compute_k_stat_ok g h L), compute_k_stat_sum. unfold dk_form. rewrite qz_add, <- R.
  f_equal. ring.
Qed.

Lemma gamma_term_ok g h : length h = length g -> gamma_term g h (length g) = dk_cov g h.
Proof.
  intros L. unfold gamma_term, dk_cov. cbv zeta. rewrite (@compute_k_stat_ok g h L), !compute_rank_vector_ok.
  assert (E : map (fun '(a, b) => (a * b)%Qc) (combine (map (average_rank g) g) (map (average_rank h) h)) =
    map (fun '(a, b) => (average_rank g a * average_rank h b)%Qc) (combine g h)).
  { rewrite combine_index by (rewrite !map_length; auto). rewrite combine_index by auto. rewrite !map_map, map_length.
    apply map_ext_in. intros i Hi. apply in_seq in Hi. unfold getp. rewrite !get_map by lia. auto. }
  rewrite E. reflexivity.
Qed.

(** ** The diagonal is the tie-corrected variance *)
Definition ddot (l : list Qc) : Z := zsum (map (fun x => zsum (map (fun y => sgnd y x * sgnd y x)%Z l)) l).
Definition edot (l : list Qc) : Z := zsum (map (fun x => rank_score l x * rank_score l x)%Z l).

Lemma rank_score_perm l l' v : Permutation l l' -> rank_score l v = rank_score l' v.
Proof. intros P. unfold rank_score. apply zsum_perm. apply Permutation_map. auto. Qed.
Lemma ddot_perm l l' : Permutation l l' -> ddot l = ddot l'.
Proof.
  intros P. unfold ddot. rewrite (zsum_perm (Permutation_map _ P)). apply zsum_ext. intros x _.
  apply zsum_perm. apply Permutation_map. auto.
Qed.
Lemma edot_perm l l' : Permutation l l' -> edot l = edot l'.
Proof.
  intros P. unfold edot. rewrite (zsum_perm (Permutation_map _ P)). apply zsum_ext. intros x _.
  rewrite (rank_score_perm x P). auto.
Qed.
Lemma sgnd_refl x : sgnd x x = 0%Z.
Proof. unfold sgnd. repeat qc_case; auto; exfalso; qclra. Qed.
Lemma sgnd_lt x y : (x < y)%Qc -> sgnd x y = 1%Z.
Proof. intros H. unfold sgnd. repeat qc_case; auto; exfalso; qclra. Qed.
Lemma sgnd_gt x y : (y < x)%Qc -> sgnd x y = (-1)%Z.
Proof. intros H. unfold sgnd. repeat qc_case; auto; exfalso; qclra. Qed.

Lemma zsum_repeat (F : Qc -> Z) v t : zsum (map F (repeat v t)) = (Z.of_nat t * F v)%Z.
Proof. induction t as [|t IH]; cbn [repeat map]. reflexivity. rewrite zsum_cons, IH. lia. Qed.

Lemma min_group_step v t m : (forall x, In x m -> (v < x)%Qc) ->
  let T := Z.of_nat t in let M := Z.of_nat (length m) in
  (ddot (repeat v t ++ m) = ddot m + 2 * T * M /\ edot (repeat v t ++ m) = edot m + T * M * (M + T))%Z.
Proof.
  intros H T M.
  assert (V0 : zsum (map (fun y => sgnd y v * sgnd y v)%Z m) = M).
  { rewrite (zsum_ext _ (fun _ => 1%Z)). rewrite zsum_const. lia. intros x Hx. rewrite sgnd_gt by auto. lia. }
  assert (V1 : zsum (map (fun y => sgnd y v) m) = (- M)%Z).
  { rewrite (zsum_ext _ (fun _ => (-1)%Z)). rewrite zsum_const. lia. intros x Hx. rewrite sgnd_gt by auto. lia. }
  split.
  - unfold ddot. rewrite map_app, zsum_app, zsum_repeat, map_app, zsum_app, zsum_repeat, V0, sgnd_refl.
    rewrite (zsum_ext _ (fun x => (T + zsum (map (fun y => sgnd y x * sgnd y x) m))%Z)).
    + rewrite zsum_map_add, zsum_const. fold T. fold M. lia.
    + intros x Hx. rewrite map_app, zsum_app, zsum_repeat, sgnd_lt by auto. fold T. lia.
  - unfold edot. rewrite map_app, zsum_app, zsum_repeat.
    replace (rank_score (repeat v t ++ m) v) with (- M)%Z.
    2:{ unfold rank_score. rewrite map_app, zsum_app, zsum_repeat, V1, sgnd_refl. lia. }
    rewrite (zsum_ext _ (fun x => (T * T + (2 * T * rank_score m x + rank_score m x * rank_score m x))%Z)).
    + rewrite !zsum_map_add, zsum_const, zsum_map_scale, rank_score_total. fold T. fold M. lia.
    + intros x Hx. unfold rank_score at 1 2. rewrite map_app, zsum_app, zsum_repeat, sgnd_lt by auto. fold (rank_score m x). fold T. lia.
Qed.

Lemma rank_square_identity : forall n l, length l = n ->
  (3 * ddot l + 6 * edot l = tie_poly (Z.of_nat n) - tie_correction l)%Z.
Proof.
  induction n as [n IH] using lt_wf_ind. intros l Hl.
  destruct (sorted_copy l) as [|v r] eqn:E.
  - pose proof (sorted_copy_perm l) as P. rewrite E in P. pose proof (Permutation_length P) as PL. simpl in PL.
    destruct l; [|discriminate]. subst n. reflexivity.
  - pose proof (sorted_copy_perm l) as P. pose proof (sorted_copy_ascending l) as A. rewrite E in P, A.
    pose proof (group_perm v l) as G. set (t := count (fun z => (z =? v)%Qc) l) in *. set (m := filter (fun z => negb (z =? v)%Qc) l) in *.
    assert (Mm : forall x, In x m -> (v < x)%Qc).
    { intros x Hx. apply filter_In in Hx. destruct Hx as [Hx N]. apply (Permutation_in _ (Permutation_sym P)) in Hx.
      destruct Hx as [->|Hx]. { destruct (Qceqb_spec x x); [discriminate|]. congruence. }
      destruct (Qceqb_spec x v) as [|NE]; [discriminate|].
      assert ((v <= x)%Qc) by (apply StronglySorted_inv in A; destruct A as [_ A1]; rewrite Forall_forall in A1; auto).
      destruct (Qclt_le_dec v x); auto. exfalso. apply NE. apply Qcle_antisym; auto. }
    assert (T1 : 1 <= t).
    { assert (I : In v l) by (apply (Permutation_in _ P); left; auto). unfold t, count.
      assert (I2 : In v (filter (fun z => (z =? v)%Qc) l)). { apply filter_In. split; auto. destruct (Qceqb_spec v v); auto. }
      destruct (filter (fun z => (z =? v)%Qc) l); [destruct I2 | simpl; lia]. }
    assert (Lm : t + length m = n). { rewrite <- Hl, (Permutation_length G), app_length, repeat_length. auto. }
    rewrite (ddot_perm G), (edot_perm G), (tie_correction_perm G).
    rewrite (@tie_correction_group v t m T1) by (intros I; apply Mm in I; qclra).
    destruct (@min_group_step v t m Mm) as [D1 D2]. rewrite D1, D2.
    specialize (IH (length m) ltac:(lia) m eq_refl).
    pose proof (@tie_poly_super (Z.of_nat t) (Z.of_nat (length m)) ltac:(lia) ltac:(lia)) as TS.
    rewrite <- Lm, Nat2Z.inj_add. lia.
Qed.

Lemma dk_form_diag g : (6 * dk_form g g = tie_poly (Z.of_nat (length g)) - tie_correction g)%Z.
Proof.
  rewrite <- (@rank_square_identity (length g) g eq_refl). unfold dk_form.
  assert (D : (2 * zsum (map (fun '(i, j) => sgnd (get g i) (get g j) * sgnd (get g i) (get g j)) (row_pairs (length g))) = ddot g)%Z).
  { rewrite (pair_double_sum (fun a b => (sgnd (get g a) (get g b) * sgnd (get g a) (get g b))%Z)).
    - unfold ddot. rewrite <- (zsum_get (fun x => zsum (map (fun y => (sgnd y x * sgnd y x)%Z) g))). apply zsum_ext. intros a _.
      rewrite <- (zsum_get (fun y => (sgnd y (get g a) * sgnd y (get g a))%Z)). apply zsum_ext. intros b _.
      rewrite (sgnd_anti (get g b) (get g a)). lia.
    - intros a b. rewrite (sgnd_anti (get g a) (get g b)). lia.
    - intros a. rewrite sgnd_refl. lia. }
  assert (R : rdot g g = edot g). { unfold rdot, edot. apply (zsum_get (fun x => (rank_score g x * rank_score g x)%Z)). }
  lia.
Qed.
Lemma dk_cov_diag g : dk_cov g g = mk_variance g.
Proof.
  rewrite dk_cov_form by auto. pose proof (dk_form_diag g) as D. unfold mk_variance. cbv zeta.
  change (Z.of_nat (length g) * (Z.of_nat (length g) - 1) * (2 * Z.of_nat (length g) + 5))%Z with (tie_poly (Z.of_nat (length g))).
  rewrite <- D, qz_mul. change (qz 18) with (qz (6 * 3)%Z). rewrite qz_mul. field. split; apply qz_nonzero; lia.
Qed.

(** ** Correlated groups *)
Lemma group_column_series y P g : 1 <= P -> 1 <= g <= P ->
  group_column y P (length y / P) g = group_series y P (g - 1).
Proof.
  intros HP Hg. unfold group_column, group_series. rewrite <- seq_shift, map_map. apply map_ext. intros c.
  unfold get. f_equal. replace (S c - 1) with c by lia. lia.
Qed.
Lemma group_series_length y P g : length (group_series y P g) = length y / P.
Proof. unfold group_series. rewrite map_length, seq_length. auto. Qed.

(** The full double sum of covariances over groups [0..P-1]. *)
Definition groups (y : list Qc) (P : nat) : list (list Qc) := map (group_series y P) (seq 0 P).
Definition cov_sum (gs : list (list Qc)) : Qc :=
  qsum (map (fun g => qsum (map (fun h => dk_cov g h) gs)) gs).

Lemma dk_form_sym g h : length h = length g -> dk_form h g = dk_form g h.
Proof.
  intros L. unfold dk_form, rdot. rewrite L. f_equal; apply zsum_ext.
  - intros (i, j) _. lia.
  - intros i _. lia.
Qed.
Lemma dk_cov_sym g h : length h = length g -> dk_cov h g = dk_cov g h.
Proof. intros L. rewrite !dk_cov_form, (@dk_form_sym g h) by auto. auto. Qed.

Lemma qsum_cons x l : qsum (x :: l) = (x + qsum l)%Qc. Proof. reflexivity. Qed.
Lemma triangle_sum (f : nat -> nat -> Qc) : (forall a b, f b a = f a b) -> forall n,
  do_loop 1 n (fun gi v => do_loop 1 (gi - 1) (fun gj v => (v + 2 * f gi gj)%Qc) (v + f gi gi)%Qc) 0%Qc
  = qsum (map (fun a => qsum (map (f a) (seq 1 n))) (seq 1 n)).
Proof.
  intros Sy. unfold do_loop. intros n. rewrite Nat.add_sub. induction n as [|n IH]. reflexivity.
  rewrite (seq_S n 1) at 1. rewrite fold_left_app, IH. cbn [fold_left]. change (1 + n) with (S n).
  replace (S n - 1 + 1 - 1) with n by lia.
  rewrite (fold_left_qsum (fun gj => (2 * f (S n) gj)%Qc)), qsum_map_scale.
  rewrite (seq_S n 1). change (1 + n) with (S n). rewrite map_app, qsum_app. cbn [map]. rewrite qsum_cons. change (qsum []) with 0%Qc.
  rewrite (map_app (f (S n))), qsum_app. cbn [map]. rewrite qsum_cons. change (qsum []) with 0%Qc.
  rewrite (qsum_ext (fun a => qsum (map (f a) (seq 1 n ++ [S n]))) (fun a => (qsum (map (f a) (seq 1 n)) + f (S n) a)%Qc)).
  2:{ intros a _. rewrite map_app, qsum_app. cbn [map]. rewrite qsum_cons. change (qsum []) with 0%Qc. rewrite Sy. ring. }
  rewrite qsum_map_add. change (qz 2) with (qz (1 + 1)). rewrite qz_add, qz_1.
  change (qsum (map (fun x => f (S n) x) (seq 1 n))) with (qsum (map (f (S n)) (seq 1 n))). ring.
Qed.

Lemma map_seq_shift1 (A : Type) (f : nat -> A) n : map f (seq 0 n) = map (fun g => f (g - 1)) (seq 1 n).
Proof. rewrite <- seq_shift, map_map. apply map_ext. intros i. f_equal. lia. Qed.

Lemma correlated_ok y P : 1 <= P -> P <= length y ->
  correlated_grouped_stats y P =
   (zsum (map mk_S (groups y P)), cov_sum (groups y P),
    (qz (Z.of_nat P) * (qz (Z.of_nat (length y / P * (length y / P - 1))) / 2))%Qc).
Proof.
  intros HP HL. unfold correlated_grouped_stats.
  replace (P =? 0) with false by (symmetry; apply Nat.eqb_neq; lia).
  assert (N1 : 1 <= length y / P). { apply Nat.div_le_lower_bound; lia. }
  set (nc := length y / P) in *. cbv zeta.
  replace (nc <=? 0) with false by (symmetry; apply Nat.leb_gt; lia).
  assert (V : do_loop 1 P (fun gi v =>
    do_loop 1 (gi - 1) (fun gj v => (v + 2 * gamma_term (group_column y P nc gi) (group_column y P nc gj) nc)%Qc)
      (v + gamma_term (group_column y P nc gi) (group_column y P nc gi) nc)%Qc) 0%Qc = cov_sum (groups y P)).
  { rewrite (triangle_sum (fun gi gj => gamma_term (group_column y P nc gi) (group_column y P nc gj) nc)).
    - unfold cov_sum, groups. rewrite map_map, (map_seq_shift1 (fun x => qsum (map (dk_cov (group_series y P x)) (map (group_series y P) (seq 0 P))))).
      apply qsum_ext. intros a Ha. apply in_seq in Ha. rewrite map_map, (map_seq_shift1 (fun x => dk_cov (group_series y P (a - 1)) (group_series y P x))).
      apply qsum_ext. intros b Hb. apply in_seq in Hb. unfold nc. rewrite !group_column_series by lia.
      rewrite <- (group_series_length y P (a - 1)). apply gamma_term_ok. rewrite !group_series_length. auto.
    - intros a b.
      assert (LA : forall a, length (group_column y P nc a) = nc) by (intros; unfold group_column; rewrite map_length, seq_length; auto).
      rewrite <- (LA b) at 3. rewrite <- (LA a) at 6. rewrite !gamma_term_ok by (rewrite !LA; auto). apply dk_cov_sym. rewrite !LA; auto. }
  rewrite V. clear V.
  assert (SS : forall l, (forall g, In g l -> 1 <= g <= P) -> forall s0 d0, fold_left (fun '(s, d) g => ((s + compute_s_value (group_column y P nc g))%Z, (d + qz (Z.of_nat (nc * (nc - 1))) / 2)%Qc)) l (s0, d0)
     = ((s0 + zsum (map (fun g => mk_S (group_series y P (g - 1))) l))%Z, (d0 + qz (Z.of_nat (length l)) * (qz (Z.of_nat (nc * (nc - 1))) / 2))%Qc)).
  { induction l as [|g l IH]; intros Hl s0 d0; cbn [fold_left].
    - cbn [length map Z.of_nat]. rewrite qz_0. f_equal. cbn; lia. ring.
    - rewrite IH by (intros; apply Hl; right; auto). cbn [map length]. rewrite zsum_cons, compute_s_value_ok. unfold nc at 1.
      rewrite group_column_series by (auto; apply Hl; left; auto). rewrite Nat2Z.inj_succ. unfold Z.succ. rewrite qz_add, qz_1. f_equal. lia. ring. }
  destruct (1 <? nc) eqn:C.
  - unfold do_loop at 1. rewrite Nat.add_sub.
    rewrite (fold_left_ext_in _ (fun '(s, d) g => ((s + compute_s_value (group_column y P nc g))%Z, (d + qz (Z.of_nat (nc * (nc - 1))) / 2)%Qc))) by (intros (s, d) g _; reflexivity).
    rewrite SS by (intros g Hg; apply in_seq in Hg; lia). rewrite seq_length. unfold groups. rewrite map_map, (map_seq_shift1 (fun x => mk_S (group_series y P x))).
    apply f_equal2; [reflexivity | ring].
  - apply Nat.ltb_ge in C. replace nc with 1 by lia. change (qz (Z.of_nat (1 * (1 - 1)))) with (qz 0). rewrite qz_0. apply f_equal2; [apply f_equal2; [|reflexivity]|].
    + unfold groups. rewrite map_map. symmetry. rewrite (zsum_ext _ (fun _ => 0%Z)). rewrite zsum_const. lia.
      intros g _. assert (X : length (group_series y P g) = 1) by (rewrite group_series_length; fold nc; lia).
      destruct (group_series y P g) as [|a [|b t]]; try discriminate. reflexivity.
    + unfold Qcdiv. ring.
Qed.

(** The covariance sum is a sum of squares: never negative. *)
Lemma zsum_swap (A B : Type) (f : A -> B -> Z) l l' :
  zsum (map (fun a => zsum (map (f a) l')) l) = zsum (map (fun b => zsum (map (fun a => f a b) l)) l').
Proof.
  induction l as [|x l IH]; cbn [map]. { rewrite zsum_const. cbn. lia. }
  rewrite zsum_cons, IH. rewrite <- zsum_map_add. apply zsum_ext. intros; rewrite zsum_cons. auto.
Qed.
Lemma zsum_square (A : Type) (f : A -> Z) l :
  zsum (map (fun a => zsum (map (fun b => f a * f b)%Z l)) l) = (zsum (map f l) * zsum (map f l))%Z.
Proof.
  rewrite (zsum_ext _ (fun a => (zsum (map f l) * f a)%Z)). apply zsum_map_scale.
  intros a _. rewrite zsum_map_scale. lia.
Qed.
Lemma cov_sum_form gs n : (forall g, In g gs -> length g = n) ->
  cov_sum gs = (qz (zsum (map (fun '(i, j) => (zsum (map (fun g => sgnd (get g i) (get g j)) gs) * zsum (map (fun g => sgnd (get g i) (get g j)) gs))%Z) (row_pairs n))
    + zsum (map (fun i => (zsum (map (fun g => rank_score g (get g i)) gs) * zsum (map (fun g => rank_score g (get g i)) gs))%Z) (seq 1 n)))%Z / qz 3)%Qc.
Proof.
  intros H. unfold cov_sum.
  rewrite (qsum_ext _ (fun g => (1 / qz 3) * qz (zsum (map (fun h => dk_form g h) gs)))%Qc).
  2:{ intros g Hg. rewrite <- qsum_qz, <- qsum_map_scale. apply qsum_ext. intros h Hh. rewrite dk_cov_form by (rewrite !H; auto). unfold Qcdiv. ring. }
  rewrite qsum_map_scale, qsum_qz. set (tot := zsum (map (fun g => zsum (map (fun h => dk_form g h) gs)) gs)). transitivity (qz tot / qz 3)%Qc. unfold Qcdiv; ring.
  f_equal. f_equal. unfold tot.
  rewrite (zsum_ext _ (fun g => (zsum (map (fun h => zsum (map (fun p => sgnd (get g (fst p)) (get g (snd p)) * sgnd (get h (fst p)) (get h (snd p))) (row_pairs n))) gs)
     + zsum (map (fun h => zsum (map (fun i => rank_score g (get g i) * rank_score h (get h i)) (seq 1 n))) gs))%Z)).
  2:{ intros g Hg. rewrite <- zsum_map_add. apply zsum_ext. intros h Hh. unfold dk_form, rdot. rewrite (H g Hg). f_equal. apply zsum_ext. intros (i, j) _. auto. }
  rewrite zsum_map_add. f_equal.
  - rewrite (zsum_ext _ (fun g => zsum (map (fun p => zsum (map (fun h => sgnd (get g (fst p)) (get g (snd p)) * sgnd (get h (fst p)) (get h (snd p)))%Z gs)) (row_pairs n)))) by (intros; apply zsum_swap).
    rewrite zsum_swap. apply zsum_ext. intros (i, j) _. cbn [fst snd]. apply (zsum_square (fun g => sgnd (get g i) (get g j))).
  - rewrite (zsum_ext _ (fun g => zsum (map (fun i => zsum (map (fun h => rank_score g (get g i) * rank_score h (get h i))%Z gs)) (seq 1 n)))) by (intros; apply zsum_swap).
    rewrite zsum_swap. apply zsum_ext. intros i _. apply (zsum_square (fun g => rank_score g (get g i))).
Qed.
Lemma cov_sum_nonneg gs n : (forall g, In g gs -> length g = n) -> (0 <= cov_sum gs)%Qc.
Proof.
  intros H. rewrite (cov_sum_form gs H). set (z := (_ + _)%Z).
  assert (Z0 : (0 <= z)%Z).
  { unfold z. apply Z.add_nonneg_nonneg; apply zsum_nonneg; intros v Hv; apply in_map_iff in Hv; destruct Hv as (p & <- & _).
    destruct p. apply Z.square_nonneg. apply Z.square_nonneg. }
  apply qz_le in Z0. rewrite qz_0 in Z0. clearbody z. qclra.
Qed.
