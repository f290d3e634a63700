From Coq Require Import Lia Arith ZArith List Bool Reals Lra.
From Verif Require Import Base SH_Model TP_Model CA_Model CA_Spec.
Import ListNotations.
Local Close Scope Qc_scope.
Local Open Scope R_scope.

Lemma total_nil f : total f [] = 0. Proof. reflexivity. Qed.
Lemma total_cons f e l : total f (e :: l) = f e + total f l. Proof. reflexivity. Qed.
Lemma total_app f l m : total f (l ++ m) = total f l + total f m.
Proof. induction l as [|e l IH]; cbn [app]; rewrite ?total_nil, ?total_cons, ?IH; ring. Qed.
Lemma total_ext f g l : (forall e, In e l -> f e = g e) -> total f l = total g l.
Proof.
  induction l as [|e l IH]; [reflexivity|]. intro H. rewrite !total_cons, (H e) by (left; reflexivity). f_equal. apply IH. intros; apply H; right; assumption.
Qed.
Lemma total_add f g l : total (fun e => f e + g e) l = total f l + total g l.
Proof. induction l as [|e l IH]; rewrite ?total_nil, ?total_cons, ?IH; ring. Qed.
Lemma total_scale c f l : total (fun e => c * f e) l = c * total f l.
Proof. induction l as [|e l IH]; rewrite ?total_nil, ?total_cons, ?IH; ring. Qed.
Lemma total_const c l : total (fun _ => c) l = INR (length l) * c.
Proof. induction l as [|e l IH]; cbn [length]; rewrite ?total_nil, ?total_cons, ?IH, ?S_INR; [cbn [INR]; ring|ring]. Qed.
Lemma total_nonneg f l : (forall e, 0 <= f e) -> 0 <= total f l.
Proof. intro H. induction l as [|e l IH]; rewrite ?total_nil, ?total_cons; [lra|]. specialize (H e). lra. Qed.
Lemma total_map f g l : total f (map g l) = total (fun e => f (g e)) l.
Proof. induction l as [|e l IH]; cbn [map]; rewrite ?total_nil, ?total_cons, ?IH; reflexivity. Qed.

Definition both (e : option R * option R) : bool := negb (is_nan (snd e)) && negb (is_nan (fst e)).
Ltac ro := cbn [RO obase RR T radd rsub rmul rdiv ropp rsqrt rz rltb b2r both fst snd is_nan negb andb].
Lemma rsum_right (l : list R) : rsum RO l = fold_right Rplus 0 l.
Proof. unfold rsum. rewrite fold_symmetric; [reflexivity|intros; symmetry; apply Rplus_assoc|intros; apply Rplus_comm]. Qed.
Lemma rsum_map {X : Type} (g : X -> R) (l : list X) : rsum RO (map g l) = fold_right (fun e s => g e + s) 0 l.
Proof. rewrite rsum_right. induction l as [|x l IH]; cbn; [reflexivity|]. f_equal. exact IH. Qed.
Lemma rsum_total f l : rsum RO (map f l) = total f l.
Proof. apply rsum_map. Qed.

Lemma combine_map_both {X Y Z : Type} (f : X -> Y) (g : X -> Z) l : combine (map f l) (map g l) = map (fun e => (f e, g e)) l.
Proof. induction l; cbn; [reflexivity|]. f_equal; assumption. Qed.
Lemma zip2_map {W X Y Z : Type} (f : X -> Y -> Z) (g : W -> X) (h : W -> Y) l :
  zip2 f (map g l) (map h l) = map (fun e => f (g e) (h e)) l.
Proof. unfold zip2. rewrite combine_map_both, map_map. reflexivity. Qed.
Lemma combine_fst {X Y : Type} (x : list X) (y : list Y) : length x = length y -> map fst (combine x y) = x.
Proof. revert y. induction x as [|a x IH]; intros [|b y]; cbn; try discriminate; [reflexivity|]. intro H. f_equal. apply IH. lia. Qed.
Lemma combine_snd {X Y : Type} (x : list X) (y : list Y) : length x = length y -> map snd (combine x y) = y.
Proof. revert y. induction x as [|a x IH]; intros [|b y]; cbn; try discriminate; [reflexivity|]. intro H. f_equal. apply IH. lia. Qed.

Definition pres (L : list (option R * option R)) : list (R * R) :=
  flat_map (fun e => match e with (Some a, Some b) => [(a, b)] | _ => [] end) L.
Lemma pres_total (F : option R * option R -> R) (G : R * R -> R) L :
  (forall a b, F (Some a, Some b) = G (a, b)) -> (forall e, both e = false -> F e = 0) ->
  rsum RO (map F L) = total G (pres L).
Proof.
  intros H1 H2. rewrite rsum_map. induction L as [|[[a|] [b|]] L IH]; cbn [fold_right pres flat_map app];
    [reflexivity| |rewrite H2 by reflexivity|rewrite H2 by reflexivity|rewrite H2 by reflexivity].
  - rewrite H1. cbn. f_equal. exact IH.
  - rewrite IH. apply Rplus_0_l.
  - rewrite IH. apply Rplus_0_l.
  - rewrite IH. apply Rplus_0_l.
Qed.
Lemma pres_count L : length (filter (fun b => b) (map both L)) = length (pres L).
Proof. induction L as [|[[a|] [b|]] L IH]; cbn; rewrite ?IH; reflexivity. Qed.

(** p-value in terms of the specification *)
Definition pval (tcdf : R -> Z -> option R) (r : R) (n : nat) : option R :=
  if Rlt_dec (Rabs r) 1 then
    option_map (fun c => 2 * (1 - c)) (tcdf (Rabs (r * R_sqrt.sqrt ((INR n - 2) / (1 - r * r)))) (Z.of_nat n - 2)%Z)
  else Some 0.
Lemma rabs_R (x : R) : rabs RO x = Rabs x.
Proof.
  unfold rabs; cbn. unfold Rltb. destruct (Rlt_dec x 0); [rewrite Rabs_left; lra|rewrite Rabs_right; lra].
Qed.
Lemma p_value_R tcdf r n : p_value RO tcdf r n = pval tcdf r n.
Proof.
  unfold p_value, pval. rewrite rabs_R. cbn [RO obase RR rltb rz T rsub rmul rdiv rsqrt]. unfold Rltb.
  destruct (Rlt_dec (Rabs r) 1); [|reflexivity]. rewrite rabs_R, minus_IZR, <- INR_IZR_INZ. reflexivity.
Qed.
Definition result (tcdf : R -> Z -> option R) (l : list (R * R)) : option R * option R :=
  match pearson l with Some r => (Some r, pval tcdf r (length l)) | None => (None, None) end.

Lemma corr_nan_result tcdf x y : length x = length y ->
  corr_nan RO tcdf x y = if (length (present x y) <? 3)%nat then (None, None) else result tcdf (present x y).
Proof.
  intro Hl. unfold corr_nan. cbv zeta.
  set (L := combine x y).
  assert (Ex : zeroed RO x = map (fun e => match fst e with Some v => v | None => 0 end) L).
  { unfold zeroed. rewrite <- (combine_fst x y Hl) at 1. rewrite map_map. reflexivity. }
  assert (Ey : zeroed RO y = map (fun e => match snd e with Some v => v | None => 0 end) L).
  { unfold zeroed. rewrite <- (combine_snd x y Hl) at 1. rewrite map_map. reflexivity. }
  assert (Em : zip2 (fun a b : option (T RO) => negb (is_nan b) && negb (is_nan a)) x y = map both L) by reflexivity.
  rewrite Em, Ex, Ey. rewrite pres_count. change (pres L) with (present x y).
  set (P := present x y). change (rz RO 0) with 0 in *.
  destruct (Nat.leb_spec 3 (length P)) as [H3|H3].
  2:{ destruct (Nat.ltb_spec (length P) 3); [|lia]. reflexivity. }
  destruct (Nat.ltb_spec (length P) 3); [lia|].
  destruct (Nat.ltb_spec 0 (length P)); [|lia].
  rewrite !zip2_map.
  assert (Mx : rdiv RO (rsum RO (map (fun e => rmul RO (match fst e with Some v => v | None => 0 end) (b2r RO (both e))) L)) (rnat RO (length P)) = mean_x P).
  { rewrite (pres_total _ fst).
    - change (total fst P / IZR (Z.of_nat (length P)) = mean_x P). rewrite <- INR_IZR_INZ. reflexivity.
    - intros a b. cbn. ring.
    - intros e He. rewrite He. cbn. ring. }
  assert (My : rdiv RO (rsum RO (map (fun e => rmul RO (match snd e with Some v => v | None => 0 end) (b2r RO (both e))) L)) (rnat RO (length P)) = mean_y P).
  { rewrite (pres_total _ snd).
    - change (total snd P / IZR (Z.of_nat (length P)) = mean_y P). rewrite <- INR_IZR_INZ. reflexivity.
    - intros a b. cbn. ring.
    - intros e He. rewrite He. cbn. ring. }
  change (T (obase RO)) with R in *. rewrite Mx, My. rewrite !map_map.
  rewrite (pres_total _ (fun e => (fst e - mean_x P) * (fst e - mean_x P))); [|intros a b; ro; ring|intros e He; rewrite He; ro; ring].
  rewrite (pres_total _ (fun e => (snd e - mean_y P) * (snd e - mean_y P))); [|intros a b; ro; ring|intros e He; rewrite He; ro; ring].
  rewrite (pres_total _ (fun e => (fst e - mean_x P) * (snd e - mean_y P))); [|intros a b; ro; ring|intros e He; rewrite He; ro; ring].
  change (pres L) with P. fold (Sxx P) (Syy P) (Sxy P).
  unfold result, pearson. cbn [RO obase RR rltb rz T rsub rmul rdiv rsqrt]. unfold Rltb.
  destruct (Rlt_dec 0 (Sxx P)); [|reflexivity]. destruct (Rlt_dec 0 (Syy P)); [|reflexivity].
  cbn [andb]. rewrite p_value_R. reflexivity.
Qed.

Lemma present_some (x y : list R) : present (map Some x) (map Some y) = combine x y.
Proof. revert y. unfold present. induction x as [|a x IH]; intros [|b y]; cbn; try reflexivity. f_equal. apply IH. Qed.
Lemma corr_full_result tcdf x y : length x = length y ->
  corr_full RO tcdf x y = result tcdf (combine x y).
Proof.
  intro Hl. unfold corr_full. cbv zeta.
  assert (Hn : length x = length (combine x y)) by (rewrite combine_length; lia).
  rewrite Hn. set (P := combine x y) in *.
  assert (Sx : rsum RO x = total fst P) by (rewrite <- (combine_fst x y Hl), rsum_total; reflexivity).
  assert (Sy : rsum RO y = total snd P) by (rewrite <- (combine_snd x y Hl), rsum_total; reflexivity).
  assert (Mx : rdiv RO (rsum RO x) (rnat RO (length P)) = mean_x P).
  { rewrite Sx. change (total fst P / IZR (Z.of_nat (length P)) = mean_x P). rewrite <- INR_IZR_INZ. reflexivity. }
  assert (My : rdiv RO (rsum RO y) (rnat RO (length P)) = mean_y P).
  { rewrite Sy. change (total snd P / IZR (Z.of_nat (length P)) = mean_y P). rewrite <- INR_IZR_INZ. reflexivity. }
  rewrite Mx, My.
  assert (Ex : map (fun v => rsub RO v (mean_x P)) x = map (fun e => fst e - mean_x P) P).
  { rewrite <- (combine_fst x y Hl) at 1. rewrite map_map. reflexivity. }
  assert (Ey : map (fun v => rsub RO v (mean_y P)) y = map (fun e => snd e - mean_y P) P).
  { rewrite <- (combine_snd x y Hl) at 1. rewrite map_map. reflexivity. }
  rewrite Ex, Ey, zip2_map, !map_map, !rsum_total.
  unfold result, pearson. cbn [RO obase RR rltb rz T rsub rmul rdiv rsqrt]. unfold Rltb.
  fold (Sxx P) (Syy P) (Sxy P).
  destruct (Rlt_dec 0 (Sxx P)); [|reflexivity]. destruct (Rlt_dec 0 (Syy P)); [|reflexivity].
  cbn [andb]. rewrite p_value_R. reflexivity.
Qed.

(** columns *)
Lemma column_series {X : Type} (d : X) n np j (a : list X) : length a = (n * np)%nat -> (j < np)%nat ->
  column n np j a = series d n np j a.
Proof.
  intros Hl Hj. unfold column, series.
  assert (G : forall l, (forall t, In t l -> (t < n)%nat) ->
     flat_map (fun t => firstn 1 (skipn (t * np + j) a)) l = map (fun t => nth (t * np + j) a d) l).
  { induction l as [|t l IH]; [reflexivity|]. intro H. cbn [flat_map map]. rewrite IH by (intros; apply H; right; assumption).
    assert (B : (t * np + j < length a)%nat) by (specialize (H t (or_introl eq_refl)); rewrite Hl; nia).
    assert (E : skipn (t * np + j) a = nth (t * np + j) a d :: skipn (S (t * np + j)) a).
    { clear -B. revert B. generalize (t * np + j)%nat as k. induction a as [|x a IH]; intros k B; cbn in B; [lia|].
      destruct k; [reflexivity|]. cbn [skipn nth]. apply IH. lia. }
    rewrite E. reflexivity. }
  apply G. intros t Ht. apply in_seq in Ht. lia.
Qed.
Lemma series_length {X : Type} (d : X) n np j a : length (series d n np j a) = n.
Proof. unfold series. rewrite map_length, seq_length. reflexivity. Qed.
Lemma any_nan_zeroed (l : list (option R)) : any_nan l = false -> l = map Some (zeroed RO l).
Proof.
  induction l as [|[v|] l IH]; cbn; [reflexivity| |discriminate]. intro H. f_equal. apply IH. exact H.
Qed.
Lemma any_nan_nth {X : Type} (l : list (option X)) : any_nan l = false -> forall k d, (k < length l)%nat -> is_nan (nth k l d) = false.
Proof.
  intros H k d Hk. destruct (is_nan (nth k l d)) eqn:E; [|reflexivity].
  assert (any_nan l = true) by (apply existsb_exists; exists (nth k l d); split; [apply nth_In; exact Hk|exact E]). congruence.
Qed.
Lemma any_nan_series {X : Type} n np j (a : list (option X)) : length a = (n * np)%nat -> (j < np)%nat -> any_nan a = false ->
  any_nan (series None n np j a) = false.
Proof.
  intros Hl Hj H. destruct (any_nan (series None n np j a)) eqn:E; [|reflexivity].
  apply existsb_exists in E. destruct E as (c & Hc & Hn). apply in_map_iff in Hc. destruct Hc as (t & <- & Ht). apply in_seq in Ht.
  rewrite any_nan_nth in Hn; [discriminate|exact H|]. rewrite Hl. nia.
Qed.

(** ** Cauchy-Schwarz *)
Lemma cauchy f g l : total (fun e => f e * g e) l * total (fun e => f e * g e) l
  <= total (fun e => f e * f e) l * total (fun e => g e * g e) l.
Proof.
  induction l as [|e l IH]; [cbn; lra|].
  pose proof (total_nonneg (fun e => f e * f e) l ltac:(intro; nra)) as HU.
  pose proof (total_nonneg (fun e => g e * g e) l ltac:(intro; nra)) as HV.
  change (total (fun e => f e * g e) (e :: l)) with (f e * g e + total (fun e => f e * g e) l).
  change (total (fun e => f e * f e) (e :: l)) with (f e * f e + total (fun e => f e * f e) l).
  change (total (fun e => g e * g e) (e :: l)) with (g e * g e + total (fun e => g e * g e) l).
  revert IH HU HV. generalize (total (fun e => f e * g e) l) (total (fun e => f e * f e) l) (total (fun e => g e * g e) l) (f e) (g e).
  intros S U V u v IH HU HV.
  assert (H : 2 * S * (u * v) <= U * (v * v) + V * (u * u)).
  { assert (HX : 0 <= U * (v * v) + V * (u * u)) by (pose proof (Rle_0_sqr u); pose proof (Rle_0_sqr v); unfold Rsqr in *; nra).
    assert (HS : (2 * S * (u * v)) * (2 * S * (u * v)) <= (U * (v * v) + V * (u * u)) * (U * (v * v) + V * (u * u))).
    { assert (4 * (S * S) * ((u * v) * (u * v)) <= 4 * (U * V) * ((u * v) * (u * v))) by (apply Rmult_le_compat_r; [apply Rle_0_sqr|lra]).
      pose proof (Rle_0_sqr (U * (v * v) - V * (u * u))) as Q. unfold Rsqr in Q. lra. }
    apply Rsqr_incr_0_var; [exact HS|exact HX]. }
  nra.
Qed.
Lemma Sxy_sq l : Sxy l * Sxy l <= Sxx l * Syy l.
Proof. apply (cauchy (fun e => fst e - mean_x l) (fun e => snd e - mean_y l)). Qed.
Lemma sqrt_bound s u v : s * s <= u * v -> 0 < u -> 0 < v -> -1 <= s / R_sqrt.sqrt (u * v) <= 1.
Proof.
  intros H Hu Hv. assert (Hp : 0 < u * v) by nra. pose proof (R_sqrt.sqrt_lt_R0 _ Hp) as Hs.
  pose proof (R_sqrt.sqrt_sqrt (u * v) ltac:(lra)) as Hq. revert Hs Hq. generalize (R_sqrt.sqrt (u * v)). intros q Hs Hq.
  rewrite <- Hq in H.
  split; apply Rmult_le_reg_r with q; try assumption; unfold Rdiv; rewrite Rmult_assoc, Rinv_l by lra; nra.
Qed.
Lemma pearson_range l r : pearson l = Some r -> -1 <= r <= 1.
Proof.
  unfold pearson. destruct (Rlt_dec 0 (Sxx l)); [|discriminate]. destruct (Rlt_dec 0 (Syy l)); [|discriminate].
  intro E; injection E as <-. apply sqrt_bound; try assumption. apply Sxy_sq.
Qed.

(** ** Affine changes *)
Definition affine (a b c d : R) (e : R * R) : R * R := (a * fst e + b, c * snd e + d).
Lemma mean_affine a b c d l : l <> [] ->
  mean_x (map (affine a b c d) l) = a * mean_x l + b /\ mean_y (map (affine a b c d) l) = c * mean_y l + d.
Proof.
  intro Hl. assert (Hn : 0 < INR (length l)) by (destruct l; [congruence|cbn [length]; rewrite S_INR; pose proof (pos_INR (length l)); lra]).
  unfold mean_x, mean_y. rewrite map_length, !total_map. cbn [affine fst snd].
  rewrite !total_add, !total_scale, !total_const. split; field; lra.
Qed.
Lemma S_affine a b c d l : l <> [] ->
  Sxx (map (affine a b c d) l) = a * a * Sxx l /\ Syy (map (affine a b c d) l) = c * c * Syy l /\
  Sxy (map (affine a b c d) l) = a * c * Sxy l.
Proof.
  intro Hl. destruct (mean_affine a b c d l Hl) as [Ex Ey]. unfold Sxx, Syy, Sxy. rewrite Ex, Ey, !total_map.
  rewrite <- !total_scale. repeat split; apply total_ext; intros e _; cbn [affine fst snd]; ring.
Qed.
Lemma pearson_affine a b c d l : 0 < a -> 0 < c -> pearson (map (affine a b c d) l) = pearson l.
Proof.
  intros Ha Hc. destruct l as [|e l]; [reflexivity|]. set (m := e :: l).
  destruct (S_affine a b c d m ltac:(discriminate)) as (E1 & E2 & E3). unfold pearson. rewrite E1, E2, E3.
  assert (Ha2 : 0 < a * a) by nra. assert (Hc2 : 0 < c * c) by nra.
  destruct (Rlt_dec 0 (Sxx m)); destruct (Rlt_dec 0 (a * a * Sxx m)); try reflexivity; try (exfalso; nra).
  destruct (Rlt_dec 0 (Syy m)); destruct (Rlt_dec 0 (c * c * Syy m)); try reflexivity; try (exfalso; nra).
  f_equal. replace (a * a * Sxx m * (c * c * Syy m)) with ((a * c) * (a * c) * (Sxx m * Syy m)) by ring.
  rewrite R_sqrt.sqrt_mult by nra. rewrite R_sqrt.sqrt_square by nra.
  assert (0 < R_sqrt.sqrt (Sxx m * Syy m)) by (apply R_sqrt.sqrt_lt_R0; nra). field. repeat split; lra.
Qed.
(** One variable reversed. *)
Lemma pearson_negate a b c d l : 0 < a -> c < 0 -> pearson (map (affine a b c d) l) = option_map Ropp (pearson l).
Proof.
  intros Ha Hc. destruct l as [|e l].
  { unfold pearson, Sxx; cbn. destruct (Rlt_dec 0 0); [lra|reflexivity]. }
  set (m := e :: l).
  destruct (S_affine a b c d m ltac:(discriminate)) as (E1 & E2 & E3). unfold pearson. rewrite E1, E2, E3.
  assert (Ha2 : 0 < a * a) by nra. assert (Hc2 : 0 < c * c) by nra.
  destruct (Rlt_dec 0 (Sxx m)); destruct (Rlt_dec 0 (a * a * Sxx m)); try reflexivity; try (exfalso; nra).
  destruct (Rlt_dec 0 (Syy m)); destruct (Rlt_dec 0 (c * c * Syy m)); try reflexivity; try (exfalso; nra).
  cbn [option_map]. f_equal. replace (a * a * Sxx m * (c * c * Syy m)) with ((a * - c) * (a * - c) * (Sxx m * Syy m)) by ring.
  rewrite R_sqrt.sqrt_mult by nra. rewrite R_sqrt.sqrt_square by nra.
  assert (0 < R_sqrt.sqrt (Sxx m * Syy m)) by (apply R_sqrt.sqrt_lt_R0; nra). field. repeat split; lra.
Qed.
Lemma pearson_linear a b x l : 0 < a -> l = map (fun v => (v, a * v + b)) x -> 0 < Sxx l -> pearson l = Some 1.
Proof.
  intros Ha El Hs.
  assert (Hl : l <> []) by (intros ->; unfold Sxx in Hs; cbn in Hs; lra).
  assert (E : l = map (affine 1 0 a b) (map (fun v => (v, v)) x)).
  { rewrite El, map_map. apply map_ext. intro v. unfold affine; cbn. f_equal; ring. }
  rewrite E, pearson_affine by lra. rewrite E in Hs. set (m := map (fun v => (v, v)) x) in *.
  assert (Hm : m <> []) by (intro Z; apply Hl; rewrite E, Z; reflexivity).
  destruct (S_affine 1 0 a b m Hm) as (E1 & _). rewrite E1 in Hs.
  assert (Ht : forall f g : R * R -> R, (forall v, f (v, v) = g (v, v)) -> total f m = total g m).
  { intros f g H. apply total_ext. intros e He. apply in_map_iff in He. destruct He as (v & <- & _). apply H. }
  assert (Em : mean_x m = mean_y m) by (unfold mean_x, mean_y; f_equal; apply Ht; reflexivity).
  assert (E2 : Syy m = Sxx m) by (unfold Sxx, Syy; rewrite Em; apply Ht; reflexivity).
  assert (E3 : Sxy m = Sxx m) by (unfold Sxx, Sxy; rewrite Em; apply Ht; reflexivity).
  unfold pearson. rewrite E2, E3. destruct (Rlt_dec 0 (Sxx m)); [|lra]. f_equal.
  rewrite R_sqrt.sqrt_square by lra. field. lra.
Qed.
Lemma pearson_swap l : pearson (map (fun e => (snd e, fst e)) l) = pearson l.
Proof.
  set (m := map _ l).
  assert (Mx : mean_x m = mean_y l) by (unfold mean_x, mean_y, m; rewrite total_map, map_length; reflexivity).
  assert (My : mean_y m = mean_x l) by (unfold mean_x, mean_y, m; rewrite total_map, map_length; reflexivity).
  assert (E1 : Sxx m = Syy l) by (unfold Sxx, Syy; rewrite Mx; unfold m; rewrite total_map; reflexivity).
  assert (E2 : Syy m = Sxx l) by (unfold Sxx, Syy; rewrite My; unfold m; rewrite total_map; reflexivity).
  assert (E3 : Sxy m = Sxy l) by (unfold Sxy; rewrite Mx, My; unfold m; rewrite total_map; apply total_ext; intros; ro; ring).
  unfold pearson. rewrite E1, E2, E3, (Rmult_comm (Syy l)).
  destruct (Rlt_dec 0 (Sxx l)); destruct (Rlt_dec 0 (Syy l)); reflexivity.
Qed.
