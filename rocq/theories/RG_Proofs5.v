From Verif Require Import Base Buffer Loops VH_Model VH_Proofs VH_Proofs3 LI_Proofs TG_Model TG_Proofs2 RG_Model RG_Spec RG_Proofs RG_Proofs2 RG_Proofs3 RG_Proofs4.
Local Open Scope nat_scope.

Lemma two : qz 2 = (1 + 1)%Qc. Proof. apply Qc_is_canon; reflexivity. Qed.
Lemma twice_half P : (P / qz 2 + P / qz 2 = P)%Qc.
Proof. rewrite two. field. discriminate. Qed.
Lemma zmul_lt P a b : (0 < P)%Qc -> (qz a * P < qz b * P)%Qc -> (a < b)%Z.
Proof.
  intros H L. destruct (Z.lt_ge_cases a b) as [X|X]; auto. exfalso. revert L. apply Qcle_not_lt. apply Qcmult_le_compat_r; [apply (proj2 (qz_le _ _)); auto|apply Qclt_le_weak; auto].
Qed.
Lemma zmul_le P a b : (0 < P)%Qc -> (a <= b)%Z -> (qz a * P <= qz b * P)%Qc.
Proof. intros H L. apply Qcmult_le_compat_r; [apply (proj2 (qz_le _ _)); auto|apply Qclt_le_weak; auto]. Qed.
Lemma qz_m1 : qz (-1) = (- (1))%Qc. Proof. apply Qc_is_canon; reflexivity. Qed.

(** * Phase *)
Lemma reduce_ok P x : (0 < P)%Qc -> exists k, reduce P x = (x + qz k * P)%Qc /\ (0 <= reduce P x)%Qc /\ (reduce P x < P)%Qc.
Proof.
  intros H. unfold reduce, c_fmod. assert (E : (x = x / P * P)%Qc) by (field; apply Qcpos_neq; auto).
  destruct (Qclt_le_dec (x / P)%Qc 0%Qc) as [N|N].
  - destruct (f_int_neg _ N) as [A B]. set (k := f_int (x / P)) in *. set (q := (x / P)%Qc) in *. rewrite qz_opp in *. rewrite qz_add, qz_opp, qz_1 in B.
    assert (A' : (0 <= (qz k - q) * P)%Qc \/ True) by auto. 
    assert (U : (- P < x - P * qz k)%Qc). { assert (X : (0 < (q - qz k + 1) * P)%Qc) by (apply Qcmul_pos; auto; qclra). replace (x - P * qz k)%Qc with ((q - qz k + 1) * P - P)%Qc by (rewrite E; ring). set (z := ((q - qz k + 1) * P)%Qc) in *. clearbody z. qclra. }
    assert (V : (x - P * qz k <= 0)%Qc). { assert (X : (0 <= (qz k - q) * P)%Qc) by (apply Qcmul_nonneg; [qclra|apply Qclt_le_weak; auto]). replace (x - P * qz k)%Qc with (- ((qz k - q) * P))%Qc by (rewrite E; ring). set (z := ((qz k - q) * P)%Qc) in *. clearbody z. qclra. }
    destruct (Qcltb_spec (x - P * qz k)%Qc 0%Qc) as [L|L].
    + exists (1 - k)%Z. rewrite qz_sub, qz_1. set (z := (x - P * qz k)%Qc) in *. split; [unfold z; ring|]. clearbody z. split; qclra.
    + exists (- k)%Z. rewrite qz_opp. split; [ring|]. set (z := (x - P * qz k)%Qc) in *. clearbody z. split; [apply Qcnot_lt_le; auto|qclra].
  - destruct (f_int_pos _ N) as [A B]. set (k := f_int (x / P)) in *. set (q := (x / P)%Qc) in *. rewrite qz_add, qz_1 in B.
    assert (U : (x - P * qz k < P)%Qc). { assert (X : (0 < (qz k + 1 - q) * P)%Qc) by (apply Qcmul_pos; auto; qclra). replace (x - P * qz k)%Qc with (P - (qz k + 1 - q) * P)%Qc by (rewrite E; ring). set (z := ((qz k + 1 - q) * P)%Qc) in *. clearbody z. qclra. }
    assert (V : (0 <= x - P * qz k)%Qc). { assert (X : (0 <= (q - qz k) * P)%Qc) by (apply Qcmul_nonneg; [qclra|apply Qclt_le_weak; auto]). replace (x - P * qz k)%Qc with ((q - qz k) * P)%Qc by (rewrite E; ring). auto. }
    destruct (Qcltb_spec (x - P * qz k)%Qc 0%Qc) as [L|L]; [exfalso; revert L; apply Qcle_not_lt; auto|].
    exists (- k)%Z. rewrite qz_opp. split; [ring|]. auto.
Qed.
Lemma align_within P x t : (0 < P)%Qc -> (t - P - P / qz 2 <= x)%Qc -> (x <= t + P + P / qz 2)%Qc ->
  exists m, align_phase_with x t P = (x + qz m * P)%Qc /\ (t - P / qz 2 <= x + qz m * P)%Qc /\ (x + qz m * P <= t + P / qz 2)%Qc.
Proof.
  intros H A B. pose proof (twice_half P) as T. unfold align_phase_with. set (h := (P / qz 2)%Qc) in *. clearbody h.
  destruct (Qcltb_spec (t + h)%Qc x) as [L|L].
  - destruct (Qcltb_spec (x - P)%Qc (t - h)%Qc) as [L2|L2]; [exfalso; qclra|]. exists (-1)%Z. rewrite qz_m1. apply Qcnot_lt_le in L2. split; [ring|]. split; qclra.
  - apply Qcnot_lt_le in L. destruct (Qcltb_spec x (t - h)%Qc) as [L2|L2].
    + exists 1%Z. rewrite qz_1. split; [ring|]. split; qclra.
    + exists 0%Z. rewrite qz_0. apply Qcnot_lt_le in L2. split; [ring|]. split; qclra.
Qed.
Lemma align_exact P x t d : (0 < P)%Qc -> (- (P / qz 2) < d)%Qc -> (d < P / qz 2)%Qc -> (x = t + d \/ x = t + d + P \/ x = t + d - P)%Qc -> align_phase_with x t P = (t + d)%Qc.
Proof.
  intros H A B C. pose proof (twice_half P) as T. unfold align_phase_with. set (h := (P / qz 2)%Qc) in *. clearbody h.
  destruct (Qcltb_spec (t + h)%Qc x) as [L|L].
  - assert (E : x = (t + d + P)%Qc) by (destruct C as [->|[->| ->]]; auto; exfalso; qclra). subst x.
    destruct (Qcltb_spec (t + d + P - P)%Qc (t - h)%Qc) as [L2|L2]; [exfalso; qclra|]. ring.
  - apply Qcnot_lt_le in L. destruct (Qcltb_spec x (t - h)%Qc) as [L2|L2].
    + destruct C as [->|[->| ->]]; try (exfalso; qclra). ring.
    + apply Qcnot_lt_le in L2. destruct C as [->|[->| ->]]; auto; exfalso; qclra.
Qed.
(** two positions brought into [0, P) whose distance around the circle is [d] *)
Lemma align_reduced P x t d m : (0 < P)%Qc -> (- (P / qz 2) < d)%Qc -> (d < P / qz 2)%Qc -> (0 <= x)%Qc -> (x < P)%Qc -> (0 <= t)%Qc -> (t < P)%Qc -> (x = t + d + qz m * P)%Qc ->
  align_phase_with x t P = (t + d)%Qc.
Proof.
  intros H A B x0 x1 t0 t1 E. apply align_exact; auto. pose proof (twice_half P) as T. set (h := (P / qz 2)%Qc) in *. clearbody h.
  assert (M1 : (m < 2)%Z). { apply (zmul_lt P); auto. replace (qz 2) with (1 + 1)%Qc by (symmetry; apply two). set (z := (qz m * P)%Qc) in *. clearbody z. replace ((1 + 1) * P)%Qc with (P + P)%Qc by ring. qclra. }
  assert (M2 : (-2 < m)%Z). { apply (zmul_lt P); auto. replace (qz (-2)) with (- (1 + 1))%Qc by (apply Qc_is_canon; reflexivity). set (z := (qz m * P)%Qc) in *. clearbody z. replace (- (1 + 1) * P)%Qc with (- P - P)%Qc by ring. qclra. }
  assert (m = 0 \/ m = 1 \/ m = -1)%Z as [->|[->| ->]] by lia; rewrite E; rewrite ?qz_0, ?qz_1, ?qz_m1; [left|right; left|right; right]; ring.
Qed.

(** * Cells *)
Lemma nth_err (l : list Qc) k : k < length l -> nth_error l k = Some (nth k l 0%Qc).
Proof. intros; apply nth_error_nth'; auto. Qed.
Lemma global_gap P l i : global P l -> i < length l -> (0 < nth i l 0 - lon_prev P l i)%Qc /\ (nth i l 0 - lon_prev P l i < P / qz 2)%Qc.
Proof.
  intros [L [A G]] I. unfold lon_prev. destruct i as [|p].
  - destruct (G (length l - 1)) as [G1 G2]; [lia|]. unfold lon_next in *. replace (length l - 1 + 1) with (length l) in * by lia. rewrite Nat.eqb_refl in *. set (u := nth 0 l 0%Qc) in *. set (v := nth (length l - 1) l 0%Qc) in *. clearbody u v. clear - G1 G2. set (h := (P / qz 2)%Qc) in *. clearbody h. split; qclra.
  - destruct (G p) as [G1 G2]; [lia|]. unfold lon_next in *. destruct (Nat.eqb_spec (p + 1) (length l)); [lia|]. replace (p + 1) with (Datatypes.S p) in * by lia. auto.
Qed.
Lemma lon_bounds_ok P l : (0 < P)%Qc -> global P l -> exists sb, lon_bounds P (map (reduce P) l) = Some sb /\ length sb = length l /\
  forall i, i < length l -> exists k, nth_error sb i = Some ((lon_lower P l i + qz k * P)%Qc, (lon_upper P l i + qz k * P)%Qc) /\
     (0 <= nth i l 0 + qz k * P)%Qc /\ (nth i l 0 + qz k * P < P)%Qc.
Proof.
  intros H G. pose proof G as [L [A Gap]]. unfold lon_bounds. rewrite map_length.
  match goal with |- context [mapM ?g _] => set (fn := g) end.
  destruct (mapM_okR _ _ fn (fun i c => exists k, c = ((lon_lower P l i + qz k * P)%Qc, (lon_upper P l i + qz k * P)%Qc) /\ (0 <= nth i l 0 + qz k * P)%Qc /\ (nth i l 0 + qz k * P < P)%Qc) (seq 0 (length l))) as [sb [E [Ls K]]].
  - intros i I. apply in_seq in I. assert (Ii : i < length l) by lia. unfold fn.
    set (n := length l) in *.
    assert (N1 : (i + 1) mod n < n) by (apply Nat.mod_upper_bound; lia). assert (N2 : (i + n - 1) mod n < n) by (apply Nat.mod_upper_bound; lia).
    rewrite (map_nth_error _ _ _ (nth_err l i Ii)), (map_nth_error _ _ _ (nth_err l _ N1)), (map_nth_error _ _ _ (nth_err l _ N2)). cbn [bind].
    destruct (reduce_ok P (nth i l 0%Qc) H) as [k [Ek [k0 k1]]]. destruct (reduce_ok P (nth ((i + 1) mod n) l 0%Qc) H) as [kn [En [n0 n1]]]. destruct (reduce_ok P (nth ((i + n - 1) mod n) l 0%Qc) H) as [kp [Ep [p0 p1]]].
    pose proof (Gap i Ii) as [g1 g2]. destruct (global_gap P l i G Ii) as [g3 g4].
    assert (Hp : (0 < P / qz 2)%Qc) by (apply Qcmul_pos; auto; reflexivity).
    assert (AN : align_phase_with (reduce P (nth ((i + 1) mod n) l 0%Qc)) (reduce P (nth i l 0%Qc)) P = (reduce P (nth i l 0%Qc) + (lon_next P l i - nth i l 0%Qc))%Qc).
    { assert (X : exists w, lon_next P l i = (nth ((i + 1) mod n) l 0%Qc + qz w * P)%Qc).
      { unfold lon_next. fold n. destruct (Nat.eqb_spec (i + 1) n) as [Q|Q].
        - exists 1%Z. rewrite Q, Nat.mod_same by lia. rewrite qz_1. ring.
        - exists 0%Z. rewrite Nat.mod_small by lia. rewrite qz_0. ring. }
      destruct X as [w X]. apply align_reduced with (m := (kn - k - w)%Z); auto.
      + apply Qclt_trans with 0%Qc; auto. set (h := (P / qz 2)%Qc) in *. clearbody h. clear - Hp. qclra.
      + rewrite En, Ek, X. rewrite !qz_sub. ring. }
    assert (AP : align_phase_with (reduce P (nth ((i + n - 1) mod n) l 0%Qc)) (reduce P (nth i l 0%Qc)) P = (reduce P (nth i l 0%Qc) + (lon_prev P l i - nth i l 0%Qc))%Qc).
    { assert (X : exists w, lon_prev P l i = (nth ((i + n - 1) mod n) l 0%Qc + qz w * P)%Qc).
      { unfold lon_prev. fold n. destruct i as [|p].
        - exists (-1)%Z. rewrite Nat.mod_small by lia. replace (0 + n - 1) with (n - 1) by lia. rewrite qz_m1. ring.
        - exists 0%Z. replace (Datatypes.S p + n - 1) with (p + 1 * n) by lia. rewrite Nat.mod_add, Nat.mod_small by lia. rewrite qz_0. ring. }
      destruct X as [w X]. apply align_reduced with (m := (kp - k - w)%Z); auto.
      + set (h := (P / qz 2)%Qc) in *. set (u := (nth i l 0)%Qc) in *. set (v := lon_prev P l i) in *. clearbody h u v. clear - g4. qclra.
      + apply Qclt_trans with 0%Qc; auto. set (u := (nth i l 0)%Qc) in *. set (v := lon_prev P l i) in *. clearbody u v. clear - g3. qclra.
      + rewrite Ep, Ek, X. rewrite !qz_sub. ring. }
    rewrite AN, AP. eexists. split; [reflexivity|]. exists k. rewrite <- Ek. split; [|auto]. unfold lon_lower, lon_upper. rewrite Ek. unfold dec. rewrite qz_1. f_equal; rewrite two; field; discriminate.
  - exists sb. rewrite seq_length in Ls. split; auto. split; auto. intros i I. destruct (K i i) as [c [Ec [k [-> Hk]]]]; [apply nth_seq0; auto|]. exists k. auto.
Qed.
Lemma lon_cell P l i : global P l -> i < length l -> (lon_lower P l i < nth i l 0)%Qc /\ (nth i l 0 < lon_upper P l i)%Qc /\ (nth i l 0 - lon_lower P l i < P / qz 2 / qz 2)%Qc /\ (lon_upper P l i - nth i l 0 < P / qz 2 / qz 2)%Qc.
Proof.
  intros G I. destruct (global_gap P l i G I) as [g3 g4]. pose proof G as [L [A Gap]]. destruct (Gap i I) as [g1 g2]. unfold lon_lower, lon_upper.
  set (x := nth i l 0%Qc) in *. set (p := lon_prev P l i) in *. set (q := lon_next P l i) in *. clearbody x p q.
  pose proof (twice_half (p + x)%Qc) as T1. pose proof (twice_half (x + q)%Qc) as T2. pose proof (twice_half (P / qz 2)%Qc) as T3.
  set (h1 := ((p + x) / qz 2)%Qc) in *. set (h2 := ((x + q) / qz 2)%Qc) in *. set (h3 := (P / qz 2 / qz 2)%Qc) in *. set (h := (P / qz 2)%Qc) in *. clearbody h1 h2 h3 h. clear - g1 g2 g3 g4 T1 T2 T3.
  split; [|split; [|split]]; qclra.
Qed.
