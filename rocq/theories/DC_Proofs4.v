From Coq Require Import Reals Lra.
From Verif Require Import Base Buffer VH_Model TP_Model TP_Proofs3 DC_Model DC_Spec DC_Proofs DC_Proofs2 DC_Proofs3.
Local Close Scope Qc_scope.
Local Open Scope R_scope.

Section DR.
Variable trunc : R -> nat.
Notation level := (level RF).
Notation lp := (lp RF).
Definition all (x : R) : bool := true.

Lemma area_cons d x e y r : area ((d, x) :: (e, y) :: r) = (d + e) / 2 * (x - y) + area ((e, y) :: r).
Proof. reflexivity. Qed.
Lemma trap_area : forall (l : list (R * R)) (s : R), fold_left (fadd RF) (trapezoids RF l) s = s - area l.
Proof.
  induction l as [|[d x] l IH]; intros s; [cbn; ring|]. destruct l as [|[e y] l]; [cbn; ring|].
  rewrite area_cons.
  change (fold_left (fadd RF) (trapezoids RF ((d, x) :: (e, y) :: l)) s)
    with (fold_left (fadd RF) (trapezoids RF ((e, y) :: l)) (s + (5 / 10 * (d + e)) * (y - x))).
  etransitivity; [apply IH|]. toR. field.
Qed.
Lemma energy_area pw u s : energy RF pw trunc u s = 28705 / 100 * area (buoyancy RF u (descent RF trunc u (lp s) (wet_bulb RF pw trunc s))).
Proof.
  unfold energy. set (l := buoyancy RF u _). pose proof (trap_area l (0 / 1)) as H.
  unfold dneg, rd_air. change (0 / 1 - 28705 / 100 * fold_left (fadd RF) (trapezoids RF l) (0 / 1) = 28705 / 100 * area l).
  change (fold_left (fadd RF) (trapezoids RF l) (0 / 1)) with (fold_left (fadd RF) (trapezoids RF l) (0 / 1) : R).
  etransitivity; [apply f_equal, f_equal; exact H|]. toR. field.
Qed.
Lemma cut_real nan (x : R) : cut RF all nan x = Rmax 0 x.
Proof.
  unfold cut, all. cbn [negb RF fltb fc]. destruct (Rlt_dec x (0 / 1)) as [H|H].
  - rewrite ltb_yes by auto. rewrite Rmax_left; lra.
  - rewrite ltb_no by lra. rewrite Rmax_right; lra.
Qed.

Lemma area_sign (l : list (R * R)) : (forall k p q, nth_error l k = Some p -> nth_error l (Datatypes.S k) = Some q -> snd q <= snd p) ->
  ((forall p, In p l -> 0 <= fst p) -> 0 <= area l) /\ ((forall p, In p l -> fst p <= 0) -> area l <= 0).
Proof.
  induction l as [|[d x] l IH]; intros H; [cbn; split; intros; lra|]. destruct l as [|[e y] l]; [cbn; split; intros; lra|].
  rewrite area_cons. pose proof (H 0%nat (d, x) (e, y) eq_refl eq_refl) as Hxy. cbn [snd] in Hxy.
  destruct IH as [I1 I2]. { intros k p q Hp Hq. apply (H (Datatypes.S k)); auto. }
  split; intros Hs; pose proof (Hs (d, x) (or_introl eq_refl)) as Hd; pose proof (Hs (e, y) (or_intror (or_introl eq_refl))) as He; cbn [fst] in *.
  - assert (0 <= area ((e, y) :: l)) by (apply I1; intros p Hp; apply Hs; right; auto). assert (0 <= (d + e) / 2 * (x - y)) by (apply Rmult_le_pos; lra). lra.
  - assert (area ((e, y) :: l) <= 0) by (apply I2; intros p Hp; apply Hs; right; auto).
    assert (0 <= - ((d + e) / 2) * (x - y)) by (apply Rmult_le_pos; lra). lra.
Qed.
Lemma buoyancy_falling : forall (u : list level) vs, (forall x, In x u -> 0 < lp x) -> falling RF u -> length vs = length u ->
  forall k p q, nth_error (buoyancy RF u vs) k = Some p -> nth_error (buoyancy RF u vs) (Datatypes.S k) = Some q -> snd q <= snd p.
Proof.
  unfold buoyancy. induction u as [|x u IH]; intros vs Hp Hf L k p q Ep Eq; [destruct k; discriminate|].
  destruct vs as [|v vs]; [discriminate|]. cbn [combine map nth_error] in *. destruct k.
  - injection Ep as <-. destruct u as [|y u]; [discriminate|]. destruct vs as [|w vs]; [discriminate|]. cbn [combine map nth_error] in Eq. injection Eq as <-.
    cbn [snd fst]. destruct Hf as [Hf _]. apply Rltb_true in Hf. left. apply ln_increasing; auto. apply Hp. right. left. reflexivity.
  - apply (IH vs) with (k := k); auto; [intros; apply Hp; right; auto|]. destruct u; [exact I|apply Hf].
Qed.

Hypothesis Htr : forall x, 0 <= x -> INR (trunc x) <= x < INR (trunc x) + 1.
Lemma moist_warms (p0 t0 p1 : R) : 0 < p0 -> 0 < t0 -> p0 <= p1 -> t0 <= moist_t RF trunc p0 t0 p1.
Proof. intros. unfold moist_t. apply (rk4_warms trunc); auto. intros p t Hp Ht. apply moist_rate; auto. Qed.
Lemma hpa_eq (x : R) : hpa RF x = 100 * x.
Proof. unfold hpa. cbn [RF fmul fc]. toR. field. Qed.
Lemma hpa_le (x y : R) : 0 < x -> x <= y -> 0 < hpa RF x /\ hpa RF x <= hpa RF y.
Proof. intros H1 H2. rewrite !hpa_eq. split; lra. Qed.
Lemma descent_warms : forall (u : list level) (p t : R), 0 < p -> 0 < t -> falling RF u -> (forall x, In x u -> p <= lp x) ->
  warming_down (descent RF trunc u p t) /\ forall v, In v (descent RF trunc u p t) -> t <= v.
Proof.
  induction u as [|x u IH]; intros p t Hp Ht Hf Hu; [split; [exact I|intros v []]|].
  assert (Hx : p <= lp x) by (apply Hu; left; auto).
  destruct u as [|y u].
  - destruct (hpa_le p (lp x) Hp Hx) as [H1 H2]. split; [exact I|]. intros v [<-|[]]. apply moist_warms; auto.
  - rewrite descent_cons. pose proof (descent_len RF trunc (y :: u) p t) as L.
    destruct Hf as [Hyx Hf]. apply Rltb_true in Hyx.
    destruct (IH p t Hp Ht Hf) as [Hw Hv]. { intros z Hz. apply Hu. right; auto. }
    destruct (descent RF trunc (y :: u) p t) as [|v vs]; [discriminate|].
    assert (Hvt : t <= v) by (apply Hv; left; auto).
    assert (Hy : p <= lp y) by (apply Hu; right; left; auto).
    assert (Hy0 : 0 < lp y) by exact (Rlt_le_trans _ _ _ Hp Hy). destruct (hpa_le (lp y) (lp x) Hy0 (Rlt_le _ _ Hyx)) as [H1 H2].
    assert (Hm : v <= moist_t RF trunc (hpa RF (lp y)) v (hpa RF (lp x))) by (apply moist_warms; [exact H1|exact (Rlt_le_trans _ _ _ Ht Hvt)|exact H2]).
    split.
    + split; auto.
    + intros z [<-|Hz]; [exact (Rle_trans _ _ _ Hvt Hm)|apply Hv; auto].
Qed.
Lemma wet_bulb_ge (s : level) : 0 < lp s -> snd s <= snd (fst s) -> -100 <= snd (fst s) ->
  56 < snd (lcl_bolton RF Rpower (fst (fst s)) (snd (fst s)) (snd s)) <= wet_bulb RF Rpower trunc s.
Proof.
  intros Hp Ht H100. unfold wet_bulb. pose proof (lcl_above (fst (fst s)) (snd (fst s)) (snd s) Hp Ht H100) as H.
  destruct (lcl_bolton RF Rpower (fst (fst s)) (snd (fst s)) (snd s)) as [plcl tlcl]. cbn [snd]. destruct H as [[H1 H2] [H3 H4]]. split; auto.
  destruct (hpa_le plcl (lp s) H1 H2) as [H5 H6]. apply moist_warms; auto. eapply Rlt_trans; [|exact H3]. lra.
Qed.
End DR.

(** A truncation of the reals *)
Definition rtrunc (x : R) : nat := Z.to_nat (Int_part x).
Lemma rtrunc_ok x : 0 <= x -> INR (rtrunc x) <= x < INR (rtrunc x) + 1.
Proof.
  intros H. destruct (base_Int_part x) as [H1 H2]. assert (0 <= Int_part x)%Z. { apply Z.lt_succ_r. apply lt_IZR. rewrite succ_IZR. lra. }
  unfold rtrunc. rewrite INR_IZR_INZ, Z2Nat.id by auto. lra.
Qed.

Lemma RF_order : order_laws RF.
Proof.
  assert (Hle : forall x y : R, dle RF x y = true <-> x <= y).
  { intros x y. unfold dle. cbn [RF fltb feqb]. rewrite orb_true_iff, Rltb_true, Reqb_true. split; [intros [H|H]; lra|intros [H|H]; auto]. }
  constructor.
  - intros x. cbn [RF fltb]. apply ltb_no, Rle_refl.
  - intros x y z H1 H2. cbn [RF fltb] in *. apply Rltb_true in H1, H2. apply ltb_yes. eapply Rlt_trans; eauto.
  - intros x y z H1 H2. apply Hle in H1, H2. apply Hle. eapply Rle_trans; eauto.
  - intros x y H. cbn [RF fltb] in H. apply Rltb_true in H. destruct (dle RF y x) eqn:E; auto. apply Hle in E. exfalso. apply (Rlt_not_le _ _ H E).
  - apply Hle, Rle_refl.
  - cbn [RF fltb fc]. apply ltb_yes. lra.
  - apply Hle, Rle_refl.
Qed.
