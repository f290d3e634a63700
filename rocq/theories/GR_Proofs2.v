From Coq Require Import Lia Arith.
From Verif Require Import Base GR_Model GR_Spec GR_Proofs.
Local Open Scope Qc_scope.

(** ** Absolute value *)
Lemma mag_pos x : 0 <= x -> mag x = x.
Proof. intro H. unfold mag. destruct (Qcltb_spec x 0); [exfalso; qclra|reflexivity]. Qed.
Lemma mag_neg x : x <= 0 -> mag x = - x.
Proof. intro H. unfold mag. destruct (Qcltb_spec x 0); [reflexivity|]. assert (x = 0) by qclra. subst. ring. Qed.
Lemma mag_cases x : (0 <= x /\ mag x = x) \/ (x <= 0 /\ mag x = - x).
Proof. destruct (Qcltb_spec x 0); [right|left]; (split; [qclra|]); [apply mag_neg; qclra|apply mag_pos; qclra]. Qed.
Lemma mag_mul x y : mag (x * y) = mag x * mag y.
Proof.
  destruct (mag_cases x) as [[Hx ->]|[Hx ->]], (mag_cases y) as [[Hy ->]|[Hy ->]].
  - apply mag_pos. qcnra.
  - rewrite mag_neg by qcnra. ring.
  - rewrite mag_neg by qcnra. ring.
  - rewrite mag_pos by qcnra. ring.
Qed.
Lemma mag_add x y : mag (x + y) <= mag x + mag y.
Proof.
  destruct (mag_cases (x + y)) as [[H ->]|[H ->]]; destruct (mag_cases x) as [[Hx ->]|[Hx ->]], (mag_cases y) as [[Hy ->]|[Hy ->]]; qclra.
Qed.
Lemma mag_nonneg x : 0 <= mag x.
Proof. destruct (mag_cases x) as [[H ->]|[H ->]]; qclra. Qed.
Lemma mag_0 x : mag x = 0 -> x = 0.
Proof. destruct (mag_cases x) as [[H ->]|[H ->]]; intro E; [exact E|qclra]. Qed.
Lemma tol_pos h : 0 < atol + rtol * mag h.
Proof.
  pose proof (mag_nonneg h). assert (0 < atol) by reflexivity. assert (0 < rtol) by reflexivity.
  generalize dependent (mag h). intros m Hm. generalize dependent atol. generalize dependent rtol. intros. qcnra.
Qed.

Definition visibly_uneven (d : nat -> Qc) (n : nat) : Prop :=
  exists i, (S i < n)%nat /\ atol + rtol * mag (d 1%nat - d 0%nat) < mag ((d (S i) - d i) - (d 1%nat - d 0%nat)).

Lemma close_false l : visibly_uneven (fun i => nth i l q0) (length l) -> close l = false.
Proof.
  intros (i & Hi & H). destruct (close l) eqn:E; [|reflexivity]. exfalso.
  pose proof (allclose_spec l i E Hi) as A. change qabs with mag in A. qclra.
Qed.
Lemma close_true_even l : (2 <= length l)%nat -> evenly_spaced (fun i => nth i l q0) (length l) -> close l = true.
Proof.
  intros H2 H. unfold close, allclose. apply forallb_forall. intros x Hx. apply (In_nth _ _ q0) in Hx. destruct Hx as (i & Hi & <-).
  rewrite diff_length in Hi. rewrite !diff_nth by lia. specialize (H i ltac:(lia)). cbv beta in H. rewrite H.
  destruct (Qcleb_spec (qabs (nth 1 l q0 - nth 0 l q0 - (nth 1 l q0 - nth 0 l q0))) (atol + rtol * qabs (nth 1 l q0 - nth 0 l q0))) as [L|L]; [reflexivity|].
  exfalso. apply L. replace (nth 1 l q0 - nth 0 l q0 - (nth 1 l q0 - nth 0 l q0)) with 0 by ring.
  pose proof (tol_pos (nth 1 l q0 - nth 0 l q0)) as P. change qabs with mag. rewrite (mag_pos 0) by apply Qcle_refl. apply Qclt_le_weak. exact P.
Qed.

(** ** Spacings *)
Section Spacing.
Variables (d : nat -> Qc) (n : nat).
Hypothesis M : strictly_monotonic d n.
Lemma step_nz i : (S i < n)%nat -> d (S i) - d i <> 0.
Proof.
  intros Hi E. destruct M as [I|I]; specialize (I i Hi); cbv beta in I; generalize dependent (d (S i)); generalize (d i); intros; qclra.
Qed.
Lemma two_steps_nz i : (S (S i) < n)%nat -> (d (S i) - d i) + (d (S (S i)) - d (S i)) <> 0.
Proof.
  intros Hi E. destruct M as [I|I]; pose proof (I i ltac:(lia)) as I1; specialize (I (S i) Hi); cbv beta in *;
  generalize dependent (d (S (S i))); generalize dependent (d (S i)); generalize dependent (d i); intros; qclra.
Qed.
End Spacing.

Lemma two_nz : qz 2 <> 0. Proof. discriminate. Qed.
Lemma sub_add i : (0 < i)%nat -> exists j, i = S j /\ (i - 1 = j)%nat /\ (i + 1 = S (S j))%nat.
Proof. intro H. exists (i - 1)%nat. lia. Qed.

(** ** The stencil on lines and parabolas *)
Section Stencil.
Variables (d : nat -> Qc) (n : nat).
Hypothesis H2 : (2 <= n)%nat.
Hypothesis M : strictly_monotonic d n.

Lemma slope_parabola F a b c i cl : (0 < i)%nat -> (i < n - 1)%nat ->
  (forall j, (j < n)%nat -> F j = parabola a b c (d j)) ->
  (cl = true -> evenly_spaced d n) ->
  slope_at F d n i cl = parabola' a b (d i).
Proof.
  intros Hi Hn HF HE. unfold slope_at. cbv zeta.
  destruct (Nat.eqb_spec i (n - 1)); [lia|]. destruct (Nat.eqb_spec i 0); [lia|].
  destruct (sub_add i Hi) as (j & -> & -> & ->). rewrite !HF by lia.
  pose proof (step_nz d n M j ltac:(lia)) as N1. pose proof (step_nz d n M (S j) ltac:(lia)) as N2.
  pose proof (two_steps_nz d n M j ltac:(lia)) as N3.
  destruct cl.
  - specialize (HE eq_refl). pose proof (HE j ltac:(lia)) as E1. pose proof (HE (S j) ltac:(lia)) as E2.
    set (h := d 1%nat - d 0%nat) in *. rewrite <- E1 in *.
    unfold parabola, parabola'. set (x := d j) in *. set (y := d (S j)) in *. set (z := d (S (S j))) in *. clearbody x y z h.
    assert (Ez : z = qz 2 * y - x) by (change (qz 2) with (1 + 1); rewrite <- (Qcplus_0_l (z)); transitivity ((z - y) + y); [ring|rewrite E2; ring]).
    rewrite Ez. change (qz 2) with (1 + 1). field. split; [exact N1|discriminate].
  - unfold parabola, parabola'. set (x := d j) in *. set (y := d (S j)) in *. set (z := d (S (S j))) in *. clearbody x y z.
    change (qz 2) with (1 + 1). field. repeat split; try assumption.
Qed.
Lemma slope_line F a b i cl : (i < n)%nat ->
  (forall j, (j < n)%nat -> F j = line a b (d j)) ->
  (cl = true -> evenly_spaced d n) ->
  slope_at F d n i cl = a.
Proof.
  intros Hi HF HE. pose proof (step_nz d n M 0 ltac:(lia)) as N0.
  destruct (Nat.eq_dec i 0) as [->|Z].
  - unfold slope_at. cbv zeta. destruct cl; rewrite ?Nat.eqb_refl.
    + destruct (Nat.eqb_spec 0 (n - 1)); [lia|]. rewrite !HF by lia. unfold line. field. exact N0.
    + rewrite !HF by lia. unfold line. field. exact N0.
  - destruct (Nat.eq_dec i (n - 1)) as [->|L].
    + unfold slope_at. cbv zeta. rewrite Nat.eqb_refl. destruct (Nat.eqb_spec (n - 1) 0); [lia|].
      replace (n - 1 - 1)%nat with (n - 2)%nat by lia. rewrite !HF by lia.
      assert (En : (n - 1)%nat = S (n - 2)) by lia. pose proof (step_nz d n M (n - 2) ltac:(lia)) as N1.
      rewrite En in *. destruct cl.
      * specialize (HE eq_refl (n - 2)%nat ltac:(lia)). rewrite HE in N1. unfold line.
        replace (a * d (S (n - 2)) + b - (a * d (n - 2)%nat + b)) with (a * (d (S (n - 2)) - d (n - 2)%nat)) by ring.
        rewrite HE. field. exact N0.
      * unfold line. field. exact N1.
    + rewrite (slope_parabola F 0 a b i cl) by (try lia; try exact HE; intros; rewrite HF by assumption; unfold line, parabola; ring).
      unfold parabola'. ring.
Qed.

Lemma div_eq x y z : z <> 0 -> x = y * z -> x / z = y.
Proof. intros Hz ->. field. exact Hz. Qed.
Lemma slope_close F a b i : (i < n)%nat ->
  (forall j, (j < n)%nat -> F j = line a b (d j)) ->
  let h := d 1%nat - d 0%nat in let tol := atol + rtol * mag h in
  (forall j, (S j < n)%nat -> mag ((d (S j) - d j) - h) <= tol) ->
  mag (slope_at F d n i true - a) * mag h <= mag a * tol.
Proof.
  intros Hi HF h tol HE. pose proof (step_nz d n M 0 ltac:(lia)) as N0. fold h in N0.
  assert (K : forall j, (S j < n)%nat -> (F (S j) - F j) / h - a = a * ((d (S j) - d j - h) / h)).
  { intros j Hj. rewrite !HF by lia. unfold line. field. exact N0. }
  assert (B : forall j, (S j < n)%nat -> mag ((F (S j) - F j) / h - a) * mag h <= mag a * tol).
  { intros j Hj. rewrite K by exact Hj. rewrite <- mag_mul.
    replace (a * ((d (S j) - d j - h) / h) * h) with (a * (d (S j) - d j - h)) by (field; exact N0).
    rewrite mag_mul. pose proof (HE j Hj) as B. pose proof (mag_nonneg a).
    generalize dependent (mag (d (S j) - d j - h)). generalize dependent (mag a). generalize tol. intros. qcnra. }
  unfold slope_at. fold h. cbv zeta. destruct (Nat.eqb_spec i (n - 1)).
  - replace (n - 1)%nat with (S (n - 2)) by lia. apply B. lia.
  - destruct (Nat.eqb_spec i 0); [apply B; lia|].
    destruct (sub_add i ltac:(lia)) as (j & -> & -> & ->).
    rewrite <- mag_mul.
    assert (E : ((F (S (S j)) - F j) / (qz 2 * h) - a) * h
                = (((F (S j) - F j) / h - a) * h + ((F (S (S j)) - F (S j)) / h - a) * h) / qz 2).
    { change (qz 2) with (1 + 1). field. split; [exact N0|discriminate]. }
    rewrite E. unfold Qcdiv at 1. rewrite mag_mul.
    pose proof (mag_add (((F (S j) - F j) / h - a) * h) (((F (S (S j)) - F (S j)) / h - a) * h)) as T.
    rewrite !(mag_mul (_ - a) h) in T.
    pose proof (B j ltac:(lia)) as B1. pose proof (B (S j) ltac:(lia)) as B2.
    change (mag (/ qz 2)) with (/ qz 2).
    set (X := mag (((F (S j) - F j) / h - a) * h + ((F (S (S j)) - F (S j)) / h - a) * h)) in *.
    set (Y := mag ((F (S j) - F j) / h - a) * mag h) in *.
    set (Z := mag ((F (S (S j)) - F (S j)) / h - a) * mag h) in *.
    set (W := mag a * tol) in *. clearbody X Y Z W.
    assert (X <= qz 2 * W) by (change (qz 2) with (1 + 1); qclra).
    assert (P : 0 <= / qz 2) by discriminate.
    replace W with (qz 2 * W * / qz 2) by (field; discriminate).
    apply Qcmult_le_compat_r; assumption.
Qed.
End Stencil.

Lemma slope_combo F G x y d n i cl :
  slope_at (fun j => x * F j + y * G j) d n i cl = x * slope_at F d n i cl + y * slope_at G d n i cl.
Proof. unfold slope_at. cbv zeta. unfold Qcdiv. destruct cl, (i =? n - 1)%nat, (i =? 0)%nat; ring. Qed.
Lemma slope_ext F G d n i cl : (forall j, (j < n)%nat -> F j = G j) -> (2 <= n)%nat -> (i < n)%nat ->
  slope_at F d n i cl = slope_at G d n i cl.
Proof.
  intros H H2 Hi. unfold slope_at. cbv zeta.
  destruct cl; destruct (Nat.eqb_spec i (n - 1)), (Nat.eqb_spec i 0); rewrite ?H by lia; reflexivity.
Qed.

(** ** Coordinates and distances *)
Lemma pi_pos : 0 < np_pi. Proof. reflexivity. Qed.
Lemma scale_mono (c : nat -> Qc) (k : Qc) n : 0 < k -> strictly_monotonic c n -> strictly_monotonic (fun i => c i * k) n.
Proof.
  intros Hk [I|I]; [left|right]; intros i Hi; specialize (I i Hi); cbv beta in *; generalize dependent (c (S i)); generalize (c i); intros; qcnra.
Qed.
Lemma scale_even (c : nat -> Qc) (k : Qc) n : evenly_spaced c n -> evenly_spaced (fun i => c i * k) n.
Proof.
  intros H i Hi. specialize (H i Hi). transitivity ((c (S i) - c i) * k); [ring|]. rewrite H. ring.
Qed.
Lemma mono_ext (c c' : nat -> Qc) n : (forall i, (i < n)%nat -> c i = c' i) -> strictly_monotonic c n -> strictly_monotonic c' n.
Proof.
  intros E [I|I]; [left|right]; intros i Hi; rewrite <- !E by lia; apply (I i Hi).
Qed.
Lemma even_ext (c c' : nat -> Qc) n : (2 <= n)%nat -> (forall i, (i < n)%nat -> c i = c' i) -> evenly_spaced c n -> evenly_spaced c' n.
Proof. intros H2 E H i Hi. rewrite <- !E by lia. apply (H i Hi). Qed.
Definition per_degree (radius : option Qc) : Qc := match radius with Some r => np_pi / qz 180 * r | None => 1 end.
Lemma distances_nth radius c i : nth i (distances radius c) q0 = nth i c q0 * per_degree radius.
Proof.
  destruct radius as [r|]; cbn [distances per_degree].
  - transitivity (nth i (map (to_distance r) c) (to_distance r q0)); [f_equal; unfold to_distance, q0, Qcdiv; ring|].
    rewrite (map_nth (to_distance r)). unfold to_distance, Qcdiv. ring.
  - ring.
Qed.
