From Verif Require Import Base Buffer Loops VH_Model VH_Proofs VH_Proofs3 LI_Proofs TG_Model TG_Proofs2 RG_Model RG_Spec RG_Proofs RG_Proofs2 RG_Proofs3 RG_Proofs4 RG_Proofs5.
Local Open Scope nat_scope.

Definition idq (x : Qc) : Qc := x.
Lemma common_id a b c d : common a b c d = common_area idq a b c d.
Proof. reflexivity. Qed.
Lemma common_shift a b c d z : common (a + z) (b + z) (c + z) (d + z) = common a b c d.
Proof.
  unfold common.
  assert (Q : forall x y, Qcleb (x + z)%Qc (y + z)%Qc = Qcleb x y). { intros x y. destruct (Qcleb_spec (x + z)%Qc (y + z)%Qc), (Qcleb_spec x y); auto; exfalso; qclra. }
  rewrite !Q. assert (F : forall (t : bool) x y, (if t then x + z else y + z)%Qc = ((if t then x else y) + z)%Qc) by (intros []; auto). rewrite !F, Q. destruct (Qcleb _ _); auto. ring.
Qed.
Lemma common_sym a b c d : common a b c d = common c d a b.
Proof. rewrite !common_id. apply common_area_sym. Qed.
Lemma common_apart a b c d : (b <= c)%Qc \/ (d <= a)%Qc -> common a b c d = 0%Qc.
Proof. rewrite common_id. apply common_area_apart. Qed.
Lemma common_nonneg a b c d : (0 <= common a b c d)%Qc.
Proof. unfold common. destruct (Qcleb_spec (if Qcleb b d then b else d) (if Qcleb a c then c else a)) as [H|H]; [discriminate|]. apply Qcnot_le_lt in H. qclra. Qed.
Lemma lon_overlap_common P a b c d : lon_overlap P (a, b) (c, d) = common a b (align_phase_with c a P) (align_phase_with d a P).
Proof.
  unfold lon_overlap, common, qcmin, qcmax. cbn [fst snd]. set (y0 := align_phase_with c a P). set (y1 := align_phase_with d a P). clearbody y0 y1.
  set (u := if Qcleb b y1 then b else y1). set (l := if Qcleb a y0 then y0 else a). destruct (Qcltb_spec 0%Qc (u - l)%Qc), (Qcleb_spec u l); auto; exfalso; [|apply Qcnot_le_lt in n0]; qclra.
Qed.

Lemma far_below P a b c d k k0 : (0 < P)%Qc -> (b - a <= P / qz 2)%Qc -> (a - P / qz 2 <= c + qz k0 * P)%Qc -> (k0 < k)%Z -> common a b (c + qz k * P) (d + qz k * P) = 0%Qc.
Proof.
  intros H W C K. apply common_apart. left. assert (X : (qz (k0 + 1) * P <= qz k * P)%Qc) by (apply zmul_le; auto; lia). rewrite qz_add, qz_1 in X. pose proof (twice_half P) as T. set (h := (P / qz 2)%Qc) in *.
  replace ((qz k0 + 1) * P)%Qc with (qz k0 * P + P)%Qc in X by ring. set (z := (qz k * P)%Qc) in *. set (z0 := (qz k0 * P)%Qc) in *. clearbody z z0 h. clear - W C X T. qclra.
Qed.
Lemma far_above P a b c d k k0 : (0 < P)%Qc -> (d - c <= P / qz 2)%Qc -> (c + qz k0 * P <= a + P / qz 2)%Qc -> (k < k0)%Z -> common a b (c + qz k * P) (d + qz k * P) = 0%Qc.
Proof.
  intros H W C K. apply common_apart. right. assert (X : (qz (k + 1) * P <= qz k0 * P)%Qc) by (apply zmul_le; auto; lia). rewrite qz_add, qz_1 in X. pose proof (twice_half P) as T. set (h := (P / qz 2)%Qc) in *.
  replace ((qz k + 1) * P)%Qc with (qz k * P + P)%Qc in X by ring. set (z := (qz k * P)%Qc) in *. set (z0 := (qz k0 * P)%Qc) in *. clearbody z z0 h. clear - W C X T. qclra.
Qed.
Lemma one_turn P a b c d k0 v : (forall k, k <> k0 -> common a b (c + qz k * P) (d + qz k * P) = 0%Qc) -> v = common a b (c + qz k0 * P) (d + qz k0 * P) -> circle_common P a b c d v.
Proof.
  intros H ->. exists (Z.to_nat (Z.abs k0)). intros K' L. rewrite (sum_pick _ (Z.to_nat (k0 + Z.of_nat K'))).
  - replace (Z.of_nat (Z.to_nat (k0 + Z.of_nat K')) - Z.of_nat K')%Z with k0 by lia. auto.
  - lia.
  - intros i I N. apply H. lia.
Qed.
Lemma overlap_circle P a b c d mt ms : (0 < P)%Qc -> (a < b)%Qc -> (c < d)%Qc -> (b - a + (d - c) <= P / qz 2)%Qc ->
  (a + qz mt * P - P - P / qz 2 <= c + qz ms * P)%Qc -> (c + qz ms * P <= a + qz mt * P + P + P / qz 2)%Qc ->
  (a + qz mt * P - P - P / qz 2 <= d + qz ms * P)%Qc -> (d + qz ms * P <= a + qz mt * P + P + P / qz 2)%Qc ->
  circle_common P a b c d (lon_overlap P ((a + qz mt * P)%Qc, (b + qz mt * P)%Qc) ((c + qz ms * P)%Qc, (d + qz ms * P)%Qc)).
Proof.
  intros H ab cd W C1 C2 D1 D2. rewrite lon_overlap_common.
  destruct (align_within P _ _ H C1 C2) as [m0 [E0 [l0 u0]]]. destruct (align_within P _ _ H D1 D2) as [m1 [E1 [l1 u1]]]. rewrite E0, E1. clear E0 E1 C1 C2 D1 D2.
  assert (Hp : (0 < P / qz 2)%Qc) by (apply Qcmul_pos; auto; reflexivity). pose proof (twice_half P) as T.
  set (k0 := (ms + m0 - mt)%Z). set (k1 := (ms + m1 - mt)%Z).
  assert (F0 : (c + qz ms * P + qz m0 * P = c + qz k0 * P + qz mt * P)%Qc) by (unfold k0; rewrite qz_sub, qz_add; ring).
  assert (F1 : (d + qz ms * P + qz m1 * P = d + qz k1 * P + qz mt * P)%Qc) by (unfold k1; rewrite qz_sub, qz_add; ring).
  rewrite F0 in *. rewrite F1 in *. clear F0 F1. rewrite common_shift. clearbody k0 k1. clear ms m0 m1.
  assert (l0' : (a - P / qz 2 <= c + qz k0 * P)%Qc). { set (h := (P / qz 2)%Qc) in *. set (z := (qz mt * P)%Qc) in *. set (z0 := (qz k0 * P)%Qc) in *. clearbody h z z0. clear - l0. qclra. }
  assert (u0' : (c + qz k0 * P <= a + P / qz 2)%Qc). { set (h := (P / qz 2)%Qc) in *. set (z := (qz mt * P)%Qc) in *. set (z0 := (qz k0 * P)%Qc) in *. clearbody h z z0. clear - u0. qclra. }
  assert (l1' : (a - P / qz 2 <= d + qz k1 * P)%Qc). { set (h := (P / qz 2)%Qc) in *. set (z := (qz mt * P)%Qc) in *. set (z0 := (qz k1 * P)%Qc) in *. clearbody h z z0. clear - l1. qclra. }
  assert (u1' : (d + qz k1 * P <= a + P / qz 2)%Qc). { set (h := (P / qz 2)%Qc) in *. set (z := (qz mt * P)%Qc) in *. set (z0 := (qz k1 * P)%Qc) in *. clearbody h z z0. clear - u1. qclra. }
  clear l0 u0 l1 u1.
  assert (wa : (b - a <= P / qz 2)%Qc). { set (h := (P / qz 2)%Qc) in *. clearbody h. clear - W cd. qclra. } assert (wc : (d - c <= P / qz 2)%Qc). { set (h := (P / qz 2)%Qc) in *. clearbody h. clear - W ab. qclra. }
  assert (K1 : (k1 < k0 + 1)%Z). { apply (zmul_lt P); auto. rewrite qz_add, qz_1. replace ((qz k0 + 1) * P)%Qc with (qz k0 * P + P)%Qc by ring. set (h := (P / qz 2)%Qc) in *. set (z1 := (qz k1 * P)%Qc) in *. set (z0 := (qz k0 * P)%Qc) in *. clearbody h z1 z0. clear - l0' u1' cd T. qclra. }
  assert (K2 : (k0 - 2 < k1)%Z). { apply (zmul_lt P); auto. rewrite qz_sub, two. replace ((qz k0 - (1 + 1)) * P)%Qc with (qz k0 * P - P - P)%Qc by ring. set (h := (P / qz 2)%Qc) in *. set (z1 := (qz k1 * P)%Qc) in *. set (z0 := (qz k0 * P)%Qc) in *. clearbody h z1 z0. clear - u0' l1' wc T Hp. qclra. }
  apply one_turn with k0.
  - intros k N. destruct (Z.lt_total k k0) as [L|[L|L]]; [|contradiction|].
    + apply far_above with k0; auto.
    + apply far_below with k0; auto.
  - assert (k1 = k0 \/ k1 = k0 - 1)%Z as [->| ->] by lia; auto.
    rewrite !common_apart; auto.
    + left. rewrite qz_sub, qz_1 in l1'. replace (d + (qz k0 - 1) * P)%Qc with (d + qz k0 * P - P)%Qc in l1' by ring. set (h := (P / qz 2)%Qc) in *. set (z0 := (qz k0 * P)%Qc) in *. clearbody h z0. clear - W l1' T. qclra.
    + right. rewrite qz_sub, qz_1. replace (d + (qz k0 - 1) * P)%Qc with (d + qz k0 * P - P)%Qc by ring. set (h := (P / qz 2)%Qc) in *. set (z0 := (qz k0 * P)%Qc) in *. clearbody h z0. clear - u0' wc T. qclra.
Qed.

(** * Totals around the circle *)
Lemma circle_unique P a b c d v w : circle_common P a b c d v -> circle_common P a b c d w -> v = w.
Proof. intros [K H] [K' H']. rewrite (H (Nat.max K K')), (H' (Nat.max K K')); auto; lia. Qed.
Lemma sum_rev n f : sum n f = sum n (fun i => f (n - 1 - i)).
Proof.
  assert (G : forall n (f : nat -> Qc), sum (Datatypes.S n) f = (f 0%nat + sum n (fun i => f (Datatypes.S i)))%Qc).
  { clear. induction n as [|n IH]; intros f; [unfold sum; simpl; ring|]. rewrite sum_S, IH, sum_S. ring. }
  revert f. induction n as [|n IH]; intros f; auto. rewrite sum_S, G. rewrite (IH f). rewrite Qcplus_comm. f_equal; [f_equal; lia|]. apply sum_ext. intros i I. f_equal. lia.
Qed.
Lemma circle_sym P a b c d v : circle_common P a b c d v -> circle_common P c d a b v.
Proof.
  intros [K H]. exists K. intros K' L. rewrite (H K' L). rewrite sum_rev. apply sum_ext. intros i I.
  rewrite common_sym. set (z := (qz (Z.of_nat i - Z.of_nat K') * P)%Qc). replace (qz (Z.of_nat (2 * K' + 1 - 1 - i) - Z.of_nat K') * P)%Qc with (- z)%Qc.
  - rewrite <- (common_shift (c + - z) (d + - z) a b z). f_equal; ring.
  - unfold z. replace (Z.of_nat (2 * K' + 1 - 1 - i) - Z.of_nat K')%Z with (- (Z.of_nat i - Z.of_nat K'))%Z by lia. rewrite qz_opp. ring.
Qed.
Lemma eventually_all (Q : nat -> nat -> Prop) n : (forall j, j < n -> exists K, forall K', K <= K' -> Q j K') -> exists K, forall K', K <= K' -> forall j, j < n -> Q j K'.
Proof.
  induction n as [|n IH]; intros H; [exists 0; lia|]. destruct IH as [K1 H1]; [intros; apply H; lia|]. destruct (H n) as [K2 H2]; [lia|]. exists (Nat.max K1 K2). intros K' L j J.
  destruct (Nat.eq_dec j n) as [->|N]; [apply H2; lia|apply H1; lia].
Qed.
Lemma archimed P x : (0 < P)%Qc -> exists K, forall K', K <= K' -> (x <= qz (Z.of_nat K') * P)%Qc.
Proof.
  intros H. destruct (reduce_ok P x H) as [k [E [_ L]]]. exists (Z.to_nat (1 - k)). intros K' Hk. rewrite E in L.
  apply Qcle_trans with (qz (1 - k) * P)%Qc; [|apply zmul_le; auto; lia]. rewrite qz_sub, qz_1. replace ((1 - qz k) * P)%Qc with (P - qz k * P)%Qc by ring. set (z := (qz k * P)%Qc) in *. clearbody z. clear - L. qclra.
Qed.
Definition edge (P : Qc) (l : list Qc) (j : nat) : Qc := if j =? length l then (lon_lower P l 0 + P)%Qc else lon_lower P l j.
Lemma edge_upper P l j : j < length l -> edge P l (j + 1) = lon_upper P l j.
Proof.
  intros J. unfold edge. unfold lon_upper, lon_lower, lon_next. destruct (Nat.eqb_spec (j + 1) (length l)) as [E|E].
  - cbn [lon_prev]. replace (length l - 1) with j by lia. rewrite two. field. discriminate.
  - replace (j + 1) with (Datatypes.S j) by lia. reflexivity.
Qed.
Lemma edge_lower P l j : j < length l -> edge P l j = lon_lower P l j.
Proof. intros J. unfold edge. destruct (Nat.eqb_spec j (length l)); auto. lia. Qed.
Lemma lon_width_pos P l i : global P l -> i < length l -> (lon_lower P l i < lon_upper P l i)%Qc.
Proof. intros G I. destruct (lon_cell P l i G I) as [A [B _]]. apply Qclt_trans with (nth i l 0%Qc); auto. Qed.
Lemma circle_total P l a b v : (0 < P)%Qc -> global P l -> (a <= b)%Qc -> (forall j, j < length l -> circle_common P a b (lon_lower P l j) (lon_upper P l j) (v j)) -> sum (length l) v = (b - a)%Qc.
Proof.
  intros H G ab C. destruct (eventually_all _ _ C) as [K1 H1]. set (e := lon_lower P l 0).
  destruct (archimed P (e - a)%Qc H) as [K2 H2]. destruct (archimed P (b - e)%Qc H) as [K3 H3].
  set (K := Nat.max K1 (Nat.max K2 K3)). rewrite (sum_ext _ v (fun j => sum (2 * K + 1) (fun k => common a b (lon_lower P l j + qz (Z.of_nat k - Z.of_nat K) * P)%Qc (lon_upper P l j + qz (Z.of_nat k - Z.of_nat K) * P)%Qc))) by (intros; apply H1; auto; lia).
  rewrite sum_swap.
  rewrite (sum_ext _ _ (fun k => (clampq a b (e + qz (Z.of_nat (k + 1) - Z.of_nat K) * P) - clampq a b (e + qz (Z.of_nat k - Z.of_nat K) * P))%Qc)).
  - rewrite (sum_tele _ (fun k => clampq a b (e + qz (Z.of_nat k - Z.of_nat K) * P))). f_equal; [|f_equal]; unfold clampq.
    + replace (Z.of_nat (2 * K + 1) - Z.of_nat K)%Z with (Z.of_nat (K + 1)) by lia. assert (X : (b - e <= qz (Z.of_nat (K + 1)) * P)%Qc) by (apply H3; lia). set (z := (qz (Z.of_nat (K + 1)) * P)%Qc) in *. clearbody z e.
      destruct (Qcleb_spec (e + z)%Qc a); [qclra|]. destruct (Qcleb_spec b (e + z)%Qc); auto. exfalso. apply n0. qclra.
    + assert (X : (e - a <= qz (Z.of_nat K) * P)%Qc) by (apply H2; lia). replace (Z.of_nat 0 - Z.of_nat K)%Z with (- Z.of_nat K)%Z by lia. rewrite qz_opp. replace (- qz (Z.of_nat K) * P)%Qc with (- (qz (Z.of_nat K) * P))%Qc by ring. set (z := (qz (Z.of_nat K) * P)%Qc) in *. clearbody z e.
      destruct (Qcleb_spec (e + - z)%Qc a); auto. exfalso. apply n. qclra.
  - intros k Hk. set (z := (qz (Z.of_nat k - Z.of_nat K) * P)%Qc). replace (qz (Z.of_nat (k + 1) - Z.of_nat K) * P)%Qc with (P + z)%Qc by (unfold z; replace (Z.of_nat (k + 1) - Z.of_nat K)%Z with (Z.of_nat k - Z.of_nat K + 1)%Z by lia; rewrite qz_add, qz_1; ring).
    rewrite (sum_ext _ _ (fun j => (clampq a b (edge P l (j + 1) + z) - clampq a b (edge P l j + z))%Qc)).
    + rewrite (sum_tele _ (fun j => clampq a b (edge P l j + z))). rewrite (edge_lower P l 0) by apply G. unfold edge. rewrite Nat.eqb_refl. f_equal. f_equal. fold e. ring.
    + intros j J. rewrite edge_upper, edge_lower by auto. rewrite common_id. rewrite common_area_clamp; auto. pose proof (lon_width_pos P l j G J). qclra.
Qed.
