(** Vertical remapping of hybrid and sigma columns: what holds, for all inputs. *)
From Coq Require Import Permutation.
From Verif Require Import Base Buffer Loops MKStat_Model I2P_Model I2P_Proofs VH_Model VH_Spec VH_Proofs VH_Proofs2 VH_Proofs3 VH_Proofs4 VH_Proofs5 VH_Proofs6 VH_Proofs7 VH_Proofs8 VH_Proofs9.
Local Open Scope nat_scope.
Local Opaque spvl.

(** a rational function that passes for a logarithm in the examples *)
Definition demo_log (x : Qc) : Qc := ((x - / x) / qz 2)%Qc.
Lemma demo_log_bounds : log_bounds demo_log.
Proof.
  assert (H2 : (0 < / qz 2)%Qc) by (vm_compute; reflexivity).
  assert (Half : forall x y, (x < y)%Qc -> (x / qz 2 < y / qz 2)%Qc) by (intros; unfold Qcdiv; apply Qcmult_lt_compat_r; auto).
  assert (Two : (qz 2 * / qz 2 = 1)%Qc) by (apply Qc_is_canon; reflexivity).
  split; [split|].
  - apply Qc_is_canon. reflexivity.
  - intros a b Ha Hab. assert (Hb : (0 < b)%Qc) by (eapply Qclt_trans; eauto).
    pose proof (Qcinv_pos Ha) as Ia. pose proof (Qcinv_pos Hb) as Ib.
    assert (L : (/ b < / a)%Qc).
    { replace (/ b)%Qc with (a * (/ a * / b))%Qc by (field; split; apply Qcpos_neq; auto).
      replace (/ a)%Qc with (b * (/ a * / b))%Qc at 2 by (field; split; apply Qcpos_neq; auto). apply Qcmult_lt_compat_r; auto. apply Qcmul_pos; auto. }
    apply Half. set (u := (/ a)%Qc) in *. set (v := (/ b)%Qc) in *. clearbody u v. qclra.
  - intros x Hx. destruct (Qcinv_gt1 x Hx) as [I E]. unfold demo_log.
    assert (D : (0 < x - 1)%Qc) by qclra.
    assert (D2 : (0 < (x - 1) * (x - 1))%Qc) by (apply Qcmul_pos; auto).
    assert (D3 : (0 < (x - 1) * (x - 1) * / x)%Qc) by (apply Qcmul_pos; auto).
    assert (E3 : ((x - 1) * (x - 1) * / x = x - 1 - 1 + / x)%Qc) by (transitivity (x * / x * x - x * / x - x * / x + / x)%Qc; [ring|rewrite E; ring]).
    set (u := (/ x)%Qc) in *. clearbody u. rewrite E3 in D3. clear E3.
    split.
    + replace (1 - u)%Qc with ((1 - u + (1 - u)) / qz 2)%Qc; [apply Half; qclra|].
      unfold Qcdiv. transitivity ((1 - u) * (qz 2 * / qz 2))%Qc; [|rewrite Two; ring].
      replace (qz 2) with (1 + 1)%Qc by (apply Qc_is_canon; reflexivity). ring.
    + replace (x - 1)%Qc with ((x - 1 + (x - 1)) / qz 2)%Qc; [apply Half; qclra|].
      unfold Qcdiv. transitivity ((x - 1) * (qz 2 * / qz 2))%Qc; [|rewrite Two; ring].
      replace (qz 2) with (1 + 1)%Qc by (apply Qc_is_canon; reflexivity). ring.
Qed.

(** ** C25: the two execution paths *)
(** With extrapolation both paths give the same array, whatever the data (NaN
    included), the level order and the order of the targets. *)
Theorem hybrid_paths_agree_extrapolating lg dati ps a b p0 plevo intyp varflg tb ph nouter ninner e1 e2 :
  2 <= length a -> length a = length b -> length dati = nouter * length a * ninner ->
  length ps = nouter * ninner -> length tb = nouter * ninner -> length ph = nouter * ninner ->
  length e1 = nouter * length plevo * ninner -> length e2 = nouter * length plevo * ninner ->
  exists out, length out = nouter * length plevo * ninner /\
    interp_hybrid_to_pressure lg true dati ps a b p0 plevo intyp (Some (varflg, (tb, ph))) nouter ninner e1 = Some out /\
    interp_hybrid_to_pressure lg false dati ps a b p0 plevo intyp (Some (varflg, (tb, ph))) nouter ninner e2 = Some out.
Proof.
  intros. destruct (hybrid_result_ecmwf lg true dati ps a b p0 plevo intyp varflg tb ph nouter ninner e1) as [c1 [o1 [E1 [B1 C1]]]]; auto.
  destruct (hybrid_result_ecmwf lg false dati ps a b p0 plevo intyp varflg tb ph nouter ninner e2) as [c2 [o2 [E2 [B2 C2]]]]; auto.
  exists o1. split; [apply B1|]. split; auto. rewrite E2. f_equal. symmetry. eapply by_columns_unique; eauto. cbv beta.
  intros o i Ho Hi. f_equal. specialize (C1 o i Ho Hi). specialize (C2 o i Ho Hi). congruence.
Qed.

(** Without extrapolation they agree when every column's pressures are strictly
    monotone and either the column has no NaN or no target equals one of its
    pressures.  What is missing from the full claim: a NaN in a column together
    with a target exactly on a level (see [hybrid_paths_nan_refuted]). *)
Theorem hybrid_paths_agree_partial lg dati ps a b p0 plevo intyp nouter ninner e1 e2 :
  2 <= length a -> length a = length b -> length dati = nouter * length a * ninner ->
  length ps = nouter * ninner ->
  length e1 = nouter * length plevo * ninner -> length e2 = nouter * length plevo * ninner ->
  (forall o i p X, o < nouter -> i < ninner -> nth_error ps (o * ninner + i) = Some (Some p) ->
     column3 dati (length a) ninner o i X ->
     goes_down (hybrid_pressures a b p0 p) \/
     goes_up (hybrid_pressures a b p0 p) /\ usable lg intyp (hybrid_pressures a b p0 p) /\
       (~ In None X \/ forall t, In t plevo -> ~ In t (hybrid_pressures a b p0 p))) ->
  exists out, length out = nouter * length plevo * ninner /\
    interp_hybrid_to_pressure lg true dati ps a b p0 plevo intyp None nouter ninner e1 = Some out /\
    interp_hybrid_to_pressure lg false dati ps a b p0 plevo intyp None nouter ninner e2 = Some out.
Proof.
  intros H1 H2 Ld Lp L1 L2 HC. destruct (hybrid_result lg true dati ps a b p0 plevo intyp nouter ninner e1) as [c1 [o1 [E1 [B1 C1]]]]; auto.
  destruct (hybrid_result lg false dati ps a b p0 plevo intyp nouter ninner e2) as [c2 [o2 [E2 [B2 C2]]]]; auto.
  exists o1. split; [apply B1|]. split; auto. rewrite E2. f_equal. symmetry. eapply by_columns_unique; eauto. cbv beta.
  intros o i Ho Hi. f_equal. specialize (C1 o i Ho Hi). specialize (C2 o i Ho Hi). cbv zeta in C1, C2.
  destruct (all_finite ps) as [psf|] eqn:AF; [|cbn [andb] in *; congruence]. cbn [andb] in *.
  assert (exists p, nth_error ps (o * ninner + i) = Some (Some p)) as [p Hp].
  { destruct (all_finite_spec _ _ AF) as [_ ->]. rewrite map_length in Lp. rewrite nth_error_map, (nth_error_nth' psf 0%Qc) by nia. simpl. eauto. }
  rewrite (ps_nth _ _ _ Hp) in C1, C2.
  assert (CX := take_column_spec _ None dati nouter (length a) ninner o i Ld Ho Hi).
  set (X := take_column None dati (length a) ninner o i) in *.
  assert (LX : length X = length a) by apply take_column_length.
  destruct (HC o i p X Ho Hi Hp CX) as [D|[U [Us N]]].
  - rewrite column_nodes_search_down in C2 by auto. congruence.
  - rewrite column_nodes_search in C2; auto; [congruence|left; auto].
Qed.
Definition q (n d : Z) : Qc := (qz n / qz d)%Qc.
(** three levels at 100, 500 and 900 hPa for a surface pressure of 1000 hPa *)
Definition demo_a : list Qc := [q 1 10; q 2 10; 0%Qc].
Definition demo_b : list Qc := [0%Qc; q 3 10; q 9 10].
Definition demo_p0 : Qc := qz 100000.
Definition demo_ps : list (option Qc) := [Some (qz 100000); Some (qz 90000)].
Definition demo_data : list (option Qc) := [Some (qz 10); Some (qz 11); Some (qz 20); Some (qz 22); Some (qz 40); Some (qz 44)].
Definition blank (n : nat) : list (option Qc) := repeat None n.
Ltac up3 := intros [|[|[|i]]] [|[|[|j]]] x y Hij Hx Hy; simpl in *; try lia; try (destruct i; discriminate); try (destruct j; discriminate);
  injection Hx as <-; injection Hy as <-; vm_compute; reflexivity.
Lemma demo_up p : (qz 50000 < p)%Qc -> goes_up (hybrid_pressures demo_a demo_b demo_p0 p).
Proof.
  intros Hp [|[|[|i]]] [|[|[|j]]] x y Hij Hx Hy; simpl in *; try lia; try (destruct i; discriminate); try (destruct j; discriminate);
  injection Hx as <-; injection Hy as <-.
  - replace (q 1 10 * demo_p0 + 0 * p)%Qc with (qz 10000) by (replace (0 * p)%Qc with 0%Qc by ring; apply Qc_is_canon; reflexivity).
    replace (q 2 10 * demo_p0)%Qc with (qz 20000) by (apply Qc_is_canon; reflexivity).
    assert (0 < q 3 10 * p)%Qc by (apply Qcmul_pos; [reflexivity|]; apply Qclt_trans with (qz 50000); auto; reflexivity).
    set (m := (q 3 10 * p)%Qc) in *. clearbody m. assert (qz 10000 < qz 20000)%Qc by reflexivity. set (u := qz 10000) in *. set (v := qz 20000) in *. clearbody u v. qclra.
  - replace (q 1 10 * demo_p0 + 0 * p)%Qc with (qz 10000) by (replace (0 * p)%Qc with 0%Qc by ring; apply Qc_is_canon; reflexivity).
    replace (0 * demo_p0)%Qc with 0%Qc by ring.
    assert (L : (qz 50000 * q 9 10 < p * q 9 10)%Qc) by (apply Qcmult_lt_compat_r; [reflexivity|auto]).
    rewrite (Qcmult_comm (q 9 10)). set (m := (p * q 9 10)%Qc) in *. clearbody m.
    assert (qz 10000 < qz 50000 * q 9 10)%Qc by reflexivity. set (u := qz 10000) in *. set (v := (qz 50000 * q 9 10)%Qc) in *. clearbody u v. qclra.
  - replace (q 2 10 * demo_p0)%Qc with (qz 20000) by (apply Qc_is_canon; reflexivity).
    replace (0 * demo_p0)%Qc with 0%Qc by ring.
    assert (L : (qz 50000 * q 6 10 < p * q 6 10)%Qc) by (apply Qcmult_lt_compat_r; [reflexivity|auto]).
    replace (q 9 10 * p)%Qc with (q 3 10 * p + p * q 6 10)%Qc.
    2:{ replace (q 9 10) with (q 3 10 + q 6 10)%Qc by (apply Qc_is_canon; reflexivity). ring. }
    set (m := (p * q 6 10)%Qc) in *. set (m' := (q 3 10 * p)%Qc) in *. clearbody m m'.
    assert (qz 20000 < qz 50000 * q 6 10)%Qc by reflexivity. set (u := qz 20000) in *. set (v := (qz 50000 * q 6 10)%Qc) in *. clearbody u v. qclra.
Qed.
Lemma demo_goes_up o i p : nth_error demo_ps (o * 2 + i) = Some (Some p) -> goes_up (hybrid_pressures demo_a demo_b demo_p0 p).
Proof.
  intros H. apply demo_up. unfold demo_ps in H. destruct (o * 2 + i) as [|[|n]]; simpl in H; [| |destruct n; discriminate]; injection H as <-; reflexivity.
Qed.
Lemma positive_up P x : (0 < x)%Qc -> nth_error P 0 = Some x -> goes_up P -> all_positive P.
Proof.
  intros Hx H0 U p Hp. apply In_nth_error in Hp. destruct Hp as [k Hk]. destruct k; [congruence|]. apply Qclt_trans with x; auto. apply (U 0 (S k) x p); auto. lia.
Qed.
Lemma demo_usable p intyp : (qz 50000 < p)%Qc -> usable demo_log intyp (hybrid_pressures demo_a demo_b demo_p0 p).
Proof.
  intros Hp. right. split; [apply demo_log_bounds|]. apply positive_up with (x := (q 1 10 * demo_p0 + 0 * p)%Qc); [|reflexivity|apply demo_up; auto].
  replace (q 1 10 * demo_p0 + 0 * p)%Qc with (qz 10000) by (replace (0 * p)%Qc with 0%Qc by ring; apply Qc_is_canon; reflexivity). reflexivity.
Qed.
(** the hypotheses of both agreement theorems hold on two columns of three levels,
    with targets on a level, between levels and below ground; log method *)
Example hybrid_paths_agree_demo :
  2 <= length demo_a /\ length demo_a = length demo_b /\ length demo_data = 1 * length demo_a * 2 /\ length demo_ps = 1 * 2 /\
  (forall o i p X, o < 1 -> i < 2 -> nth_error demo_ps (o * 2 + i) = Some (Some p) ->
     column3 demo_data (length demo_a) 2 o i X ->
     goes_down (hybrid_pressures demo_a demo_b demo_p0 p) \/
     goes_up (hybrid_pressures demo_a demo_b demo_p0 p) /\ usable demo_log 2 (hybrid_pressures demo_a demo_b demo_p0 p) /\
       (~ In None X \/ forall t, In t [qz 95000; qz 50000; qz 30000] -> ~ In t (hybrid_pressures demo_a demo_b demo_p0 p))) /\
  option_map (map (option_map this)) (interp_hybrid_to_pressure demo_log true demo_data demo_ps demo_a demo_b demo_p0
     [qz 95000; qz 50000; qz 30000] 2 None 1 2 (blank 6)) =
  option_map (map (option_map this)) (interp_hybrid_to_pressure demo_log false demo_data demo_ps demo_a demo_b demo_p0
     [qz 95000; qz 50000; qz 30000] 2 None 1 2 (blank 6)) /\
  option_map (map (option_map this)) (interp_hybrid_to_pressure demo_log true demo_data demo_ps demo_a demo_b demo_p0
     [qz 95000; qz 50000; qz 30000] 1 None 1 2 (blank 6)) =
  Some [None; None; Some 20%Q; Some (407 # 17)%Q; Some 15%Q; Some (627 # 37)%Q].
Proof.
  split; [simpl; lia|]. do 3 (split; [reflexivity|]). split.
  - intros o i p X Ho Hi Hp [LX HX]. right. split; [eapply demo_goes_up; eauto|]. split.
    + apply demo_usable. unfold demo_ps in Hp. destruct (o * 2 + i) as [|[|n]]; simpl in Hp; [| |destruct n; discriminate]; injection Hp as <-; reflexivity.
    + left. intros N. apply In_nth_error in N. destruct N as [k Hk].
      assert (k < length demo_a) by (rewrite <- LX; apply nth_error_Some; congruence). rewrite HX in Hk by auto.
      assert (o = 0) by lia. subst o. simpl in H. destruct i as [|[|i]]; [| |lia]; destruct k as [|[|[|k]]]; try lia; discriminate.
  - split; vm_compute; reflexivity.
Qed.
(** Four levels at 100, 200, 300 and 400 hPa, NaN at the first, and a target
    exactly on the second: the fast path pairs the first two levels and returns
    NaN, the fallback pairs the second and third and returns 20. *)
Theorem hybrid_paths_nan_refuted : exists dati ps a b p0 plevo e,
  strictly_monotone (hybrid_pressures a b p0 ps) /\ length dati = length a /\
  option_map (map (option_map this)) (interp_hybrid_to_pressure demo_log true dati (Some ps :: nil) a b p0 plevo 1 None 1 1 e) = Some (None :: nil) /\
  option_map (map (option_map this)) (interp_hybrid_to_pressure demo_log false dati (Some ps :: nil) a b p0 plevo 1 None 1 1 e) = Some (Some 20%Q :: nil).
Proof.
  exists [None; Some (qz 20); Some (qz 30); Some (qz 40)], (qz 100000), [q 1 10; q 2 10; q 3 10; q 4 10], [0%Qc; 0%Qc; 0%Qc; 0%Qc], demo_p0, (qz 20000 :: nil), (blank 1).
  split.
  - left. intros i j x y Hij Hi Hj. destruct i as [|[|[|[|i]]]]; destruct j as [|[|[|[|j]]]]; try lia;
      cbn in Hi, Hj; try (destruct i; discriminate); try (destruct j; discriminate); injection Hi as <-; injection Hj as <-; reflexivity.
  - split; [reflexivity|]. split; vm_compute; reflexivity.
Qed.

(** ** C26: values without extrapolation *)
Theorem hybrid_values lg contiguous dati ps a b p0 plevo intyp nouter ninner e :
  2 <= length a -> length a = length b -> length dati = nouter * length a * ninner ->
  length ps = nouter * ninner -> length e = nouter * length plevo * ninner -> (1 <= intyp <= 3)%Z ->
  exists out, interp_hybrid_to_pressure lg contiguous dati ps a b p0 plevo intyp None nouter ninner e = Some out /\
    length out = nouter * length plevo * ninner /\
    forall o i k Y p t, o < nouter -> i < ninner -> nth_error plevo k = Some t ->
      column3 dati (length a) ninner o i (map Some Y) -> nth_error ps (o * ninner + i) = Some (Some p) -> p <> spvl ->
      strictly_monotone (hybrid_pressures a b p0 p) -> usable lg intyp (hybrid_pressures a b p0 p) ->
      exists w, column_value (part lg intyp) (hybrid_pressures a b p0 p) Y None t w /\
        (elt3 out (length plevo) ninner o k i = Some w \/ w = Some spvl /\ elt3 out (length plevo) ninner o k i = Some None).
Proof.
  intros H1 H2 Ld Lp Le KI. destruct (hybrid_result lg contiguous dati ps a b p0 plevo intyp nouter ninner e) as [col [out [E [B C]]]]; auto.
  exists out. split; auto. split; [apply B|]. intros o i k Y p t Ho Hi Hk HY Hp Np M U.
  assert (CX := take_column_spec _ None dati nouter (length a) ninner o i Ld Ho Hi).
  assert (EX := column3_unique _ _ _ _ _ _ _ _ CX HY). specialize (C o i Ho Hi). cbv zeta in C. rewrite EX in C. rewrite (ps_nth _ _ _ Hp) in C.
  assert (LY : length (map Some Y) = length a) by (destruct HY; auto).
  assert (CC : Some (col o i) = column_search lg intyp (map Some Y) a b p0 plevo p).
  { destruct (contiguous && _); auto. rewrite column_nodes_search in C; auto. left. intros N. apply in_map_iff in N. destruct N as [x [N _]]. discriminate. }
  unfold column_search in CC. destruct (Qceqb_spec p spvl) as [|_]; [contradiction|].
  assert (KK : intyp_known intyp = true) by (unfold intyp_known; destruct (Z.eqb_spec intyp 1), (Z.eqb_spec intyp 2), (Z.eqb_spec intyp 3); auto; lia).
  rewrite KK in CC. symmetry in CC.
  assert (LP : length (hybrid_pressures a b p0 p) = length a) by (apply pressures_length; auto).
  destruct (search1_value lg intyp (hybrid_pressures a b p0 p) Y t) as [w [Ew V]]; auto; [lia|rewrite map_length in LY; lia|].
  exists w. split; auto. destruct (mapM_nth _ _ _ _ _ _ _ CC Hk) as [v [Ev1 Ev2]]. rewrite Ew in Ev1. injection Ev1 as <-.
  assert (k < length plevo) by (apply nth_error_Some; congruence).
  destruct B as [_ B]. rewrite B by auto. rewrite nth_error_map, Ev2. cbn [option_map].
  destruct w as [x|]; [|rewrite restore_spvl; auto]. unfold restore_nan. destruct (Qceqb_spec x spvl) as [->|]; auto.
Qed.
(** what [column_value] says about a target inside the column, below it, on a level *)
Lemma column_value_range part0 P X t w : strictly_monotone P ->
  (forall p q, In p P -> In q P -> strictly_between t p q -> (0 < part0 t p q)%Qc /\ (part0 t p q < 1)%Qc) ->
  column_value part0 P X None t w ->
  ((forall p, In p P -> (p < t)%Qc) -> P <> [] -> w = None) /\
  ((exists p q, In p P /\ In q P /\ (p <= t)%Qc /\ (t <= q)%Qc) -> exists v x y, w = Some v /\ In x X /\ In y X /\ (x <= v)%Qc /\ (v <= y)%Qc).
Proof.
  intros M H V. destruct V as [i x Hi Hx|i p q x y Hp Hq Hx Hy Bt|Hb|i p q x y Ht _ Hp Hq Hx Hy].
  - split.
    + intros Hl _. apply nth_error_In in Hi. pose proof (Hl _ Hi) as L. destruct (Qclt_not_eq _ _ L eq_refl).
    + intros _. exists x, x, x. apply nth_error_In in Hx. repeat split; auto; apply Qcle_refl.
  - split.
    + intros Hl _. apply nth_error_In in Hp, Hq. pose proof (Hl _ Hp). pose proof (Hl _ Hq). destruct Bt as [[B1 B2]|[B1 B2]]; exfalso; qclra.
    + intros _. apply nth_error_In in Hp, Hq, Hx, Hy. destruct (H p q Hp Hq Bt) as [W0 W1].
      exists (along x y (part0 t p q)). set (w := part0 t p q) in *. clearbody w. unfold along.
      destruct (Qclt_le_dec x y) as [L|L].
      * exists x, y. split; auto. split; auto. split; auto.
        assert (0 <= (y - x) * w)%Qc by (apply Qcmul_nonneg; qclra). assert (0 <= (y - x) * (1 - w))%Qc by (apply Qcmul_nonneg; qclra).
        replace ((y - x) * (1 - w))%Qc with (y - x - (y - x) * w)%Qc in H1 by ring. set (m := ((y - x) * w)%Qc) in *. clearbody m. split; qclra.
      * exists y, x. split; auto. split; auto. split; auto.
        assert (0 <= (x - y) * w)%Qc by (apply Qcmul_nonneg; qclra). assert (0 <= (x - y) * (1 - w))%Qc by (apply Qcmul_nonneg; qclra).
        replace ((x - y) * (1 - w))%Qc with (x - y - (x - y) * w)%Qc in H1 by ring.
        replace ((y - x) * w)%Qc with (- ((x - y) * w))%Qc by ring. set (m := ((x - y) * w)%Qc) in *. clearbody m. split; qclra.
  - split; auto. intros [p [q [_ [Hq [_ L]]]]]. exfalso. apply (Qcle_not_lt _ _ L). auto.
  - split.
    + intros Hl _. apply nth_error_In in Hp. pose proof (Hl _ Hp). pose proof (Ht _ Hp). exfalso. qclra.
    + intros [r [s [Hr [_ [L _]]]]]. exfalso. apply (Qcle_not_lt _ _ L). auto.
Qed.
(** Below the lowest level the result is missing; between the extreme pressures
    it is finite and within the column's values.  Missing from the full claim:
    targets above the model top (see [hybrid_above_top_refuted]). *)
Theorem hybrid_no_invention_partial lg contiguous dati ps a b p0 plevo intyp nouter ninner e out :
  2 <= length a -> length a = length b -> length dati = nouter * length a * ninner ->
  length ps = nouter * ninner -> length e = nouter * length plevo * ninner -> (1 <= intyp <= 3)%Z ->
  interp_hybrid_to_pressure lg contiguous dati ps a b p0 plevo intyp None nouter ninner e = Some out ->
  forall o i k Y p t, o < nouter -> i < ninner -> nth_error plevo k = Some t ->
    column3 dati (length a) ninner o i (map Some Y) -> nth_error ps (o * ninner + i) = Some (Some p) -> p <> spvl ->
    let P := hybrid_pressures a b p0 p in
    strictly_monotone P -> usable lg intyp P -> (forall x, In x Y -> (x < spvl)%Qc) ->
    ((forall r, In r P -> (r < t)%Qc) -> elt3 out (length plevo) ninner o k i = Some None) /\
    (forall j x, nth_error P j = Some t -> nth_error Y j = Some x -> elt3 out (length plevo) ninner o k i = Some (Some x)) /\
    ((exists r s, In r P /\ In s P /\ (r <= t)%Qc /\ (t <= s)%Qc) ->
       exists v x y, elt3 out (length plevo) ninner o k i = Some (Some v) /\ In x Y /\ In y Y /\ (x <= v)%Qc /\ (v <= y)%Qc).
Proof.
  intros H1 H2 Ld Lp Le KI E o i k Y p t Ho Hi Hk HY Hp Np P M U Small.
  destruct (hybrid_values lg contiguous dati ps a b p0 plevo intyp nouter ninner e) as [out' [E' [_ V]]]; auto.
  rewrite E in E'. injection E' as <-. destruct (V o i k Y p t) as [w [CV D]]; auto. fold P in CV.
  assert (LP : length P = length a) by (apply pressures_length; auto).
  destruct (column_value_range (part lg intyp) P Y t w M) as [R1 R2]; auto.
  { intros r s Hr Hs. apply (part_unit lg intyp P); auto. }
  split; [|split].
  - intros Hl. rewrite R1 in D; auto; [destruct D as [D|[D _]]; [auto|discriminate]|]. intros Z. rewrite Z in LP. simpl in LP. lia.
  - intros j x Hj Hx. assert (w = Some x).
    { destruct CV as [i' x' Hi' Hx'|i' r s x' y' Hr Hs Hx' Hy' Bt|Hb|i' r s x' y' Ht _ Hr _ _ _].
      - f_equal. destruct (Nat.eq_dec i' j) as [->|N]; [congruence|]. exfalso.
        destruct (lt_eq_lt_dec i' j) as [[L|L]|L]; [|congruence|]; destruct M as [M|M].
        + pose proof (M i' j t t L Hi' Hj) as Z. destruct (Qclt_not_eq _ _ Z eq_refl).
        + pose proof (M i' j t t L Hi' Hj) as Z. destruct (Qclt_not_eq _ _ Z eq_refl).
        + pose proof (M j i' t t L Hj Hi') as Z. destruct (Qclt_not_eq _ _ Z eq_refl).
        + pose proof (M j i' t t L Hj Hi') as Z. destruct (Qclt_not_eq _ _ Z eq_refl).
      - exfalso. assert (J : j <= i' \/ i' + 1 <= j) by lia. destruct M as [M|M].
        + destruct Bt as [[B1 B2]|[B1 B2]].
          * destruct J as [J|J].
            -- assert (j = i' \/ j < i') as [->|J'] by lia; [rewrite Hr in Hj; injection Hj as ->; qclra|]. pose proof (M _ _ _ _ J' Hj Hr). qclra.
            -- assert (j = i' + 1 \/ i' + 1 < j) as [->|J'] by lia; [rewrite Hs in Hj; injection Hj as ->; qclra|]. pose proof (M _ _ _ _ J' Hs Hj). qclra.
          * pose proof (M i' (i' + 1) r s ltac:(lia) Hr Hs). qclra.
        + destruct Bt as [[B1 B2]|[B1 B2]].
          * pose proof (M i' (i' + 1) r s ltac:(lia) Hr Hs). qclra.
          * destruct J as [J|J].
            -- assert (j = i' \/ j < i') as [->|J'] by lia; [rewrite Hr in Hj; injection Hj as ->; qclra|]. pose proof (M _ _ _ _ J' Hj Hr). qclra.
            -- assert (j = i' + 1 \/ i' + 1 < j) as [->|J'] by lia; [rewrite Hs in Hj; injection Hj as ->; qclra|]. pose proof (M _ _ _ _ J' Hs Hj). qclra.
      - exfalso. apply nth_error_In in Hj. pose proof (Hb _ Hj) as Z. destruct (Qclt_not_eq _ _ Z eq_refl).
      - exfalso. apply nth_error_In in Hj. pose proof (Ht _ Hj) as Z. destruct (Qclt_not_eq _ _ Z eq_refl). }
    subst w. destruct D as [D|[D _]]; auto. injection D as D. exfalso. apply nth_error_In in Hx. pose proof (Small _ Hx) as Z. rewrite D in Z. destruct (Qclt_not_eq _ _ Z eq_refl).
  - intros R. destruct (R2 R) as [v [x [y [Ew [Hx [Hy [L1 L2]]]]]]]. subst w. exists v, x, y. split; auto.
    destruct D as [D|[D _]]; auto. injection D as D. exfalso. pose proof (Small _ Hy) as Z. rewrite D in L2. apply (Qcle_not_lt _ _ L2); auto.
Qed.

(** A column whose surface pressure is missing is missing at every target,
    with or without extrapolation; the other columns are unaffected (they are
    covered by [hybrid_values]). *)
Lemma all_finite_none ps j : nth_error ps j = Some None -> all_finite ps = None.
Proof.
  intros H. destruct (all_finite ps) as [l|] eqn:E; auto. destruct (all_finite_spec _ _ E) as [_ E2]. rewrite E2, nth_error_map in H.
  destruct (nth_error l j); discriminate.
Qed.
Theorem hybrid_missing_surface lg contiguous dati ps a b p0 plevo intyp ex nouter ninner e out :
  2 <= length a -> length a = length b -> length dati = nouter * length a * ninner ->
  length ps = nouter * ninner -> length e = nouter * length plevo * ninner ->
  match ex with None => True | Some (_, (tb, ph)) => length tb = nouter * ninner /\ length ph = nouter * ninner end ->
  interp_hybrid_to_pressure lg contiguous dati ps a b p0 plevo intyp ex nouter ninner e = Some out ->
  forall o i k, o < nouter -> i < ninner -> k < length plevo -> nth_error ps (o * ninner + i) = Some None ->
    elt3 out (length plevo) ninner o k i = Some None.
Proof.
  intros H1 H2 Ld Lp Le Lx E o i k Ho Hi Hk Hp.
  assert (EQ : map restore_nan (map (fun _ : Qc => Some spvl) plevo) = map (fun _ => None) plevo) by (rewrite map_map; apply map_ext; intros _; apply restore_spvl).
  assert (NK : nth_error (map (fun _ : Qc => @None Qc) plevo) k = Some None).
  { rewrite nth_error_map, (nth_error_nth' plevo 0%Qc) by auto. reflexivity. }
  destruct ex as [[varflg [tb ph]]|].
  - destruct Lx as [Lt Lh]. destruct (hybrid_result_ecmwf lg contiguous dati ps a b p0 plevo intyp varflg tb ph nouter ninner e) as [col [out' [E' [B C]]]]; auto.
    rewrite E in E'. injection E' as <-. specialize (C o i Ho Hi). rewrite (ps_nth _ _ _ Hp) in C. unfold column_ecmwf in C.
    destruct (Qceqb_spec spvl spvl) as [_|]; [|congruence]. injection C as C. destruct B as [_ B]. rewrite B by auto. rewrite C, EQ. auto.
  - destruct (hybrid_result lg contiguous dati ps a b p0 plevo intyp nouter ninner e) as [col [out' [E' [B C]]]]; auto.
    rewrite E in E'. injection E' as <-. specialize (C o i Ho Hi). cbv zeta in C. rewrite (ps_nth _ _ _ Hp), (all_finite_none _ _ Hp), andb_false_r, column_nodes_spvl in C.
    injection C as C. destruct B as [_ B]. rewrite B by auto. rewrite C, EQ. auto.
Qed.
(** two columns, the first without a surface pressure *)
Example hybrid_missing_surface_demo : nth_error [None; Some (qz 90000)] (0 * 2 + 0) = Some None /\
  option_map (map (option_map this)) (interp_hybrid_to_pressure demo_log true demo_data [None; Some (qz 90000)] demo_a demo_b demo_p0
     [qz 50000; qz 30000] 1 None 1 2 (blank 4)) = Some [None; Some (407 # 17)%Q; None; Some (627 # 37)%Q].
Proof. split; [reflexivity|vm_compute; reflexivity]. Qed.

(** The full claim of C26 fails above the model top: with levels at 100, 500 and
    900 hPa and extrapolation off, the target 50 hPa gets a finite value outside
    the range of the column. *)
Theorem hybrid_above_top_refuted : exists dati ps a b p0 t e,
  goes_up (hybrid_pressures a b p0 ps) /\ (forall r, In r (hybrid_pressures a b p0 ps) -> (t < r)%Qc) /\
  forall contiguous, option_map (map (option_map this)) (interp_hybrid_to_pressure demo_log contiguous dati (Some ps :: nil) a b p0 (t :: nil) 1 None 1 1 e) = Some (Some (35 # 4)%Q :: nil) /\
  map (option_map this) dati = [Some 10%Q; Some 20%Q; Some 40%Q].
Proof.
  exists [Some (qz 10); Some (qz 20); Some (qz 40)], (qz 100000), demo_a, demo_b, demo_p0, (qz 5000), (blank 1).
  split; [apply demo_up; reflexivity|]. split.
  - intros r Hr. cbn in Hr. destruct Hr as [<-|[<-|[<-|[]]]]; reflexivity.
  - intros []; split; vm_compute; reflexivity.
Qed.

(** ** With extrapolation: values everywhere *)
Theorem hybrid_extrapolated_values lg contiguous dati ps a b p0 plevo intyp varflg tb ph nouter ninner e :
  2 <= length a -> length a = length b -> length dati = nouter * length a * ninner ->
  length ps = nouter * ninner -> length tb = nouter * ninner -> length ph = nouter * ninner -> length e = nouter * length plevo * ninner -> (1 <= intyp <= 3)%Z ->
  exists out, interp_hybrid_to_pressure lg contiguous dati ps a b p0 plevo intyp (Some (varflg, (tb, ph))) nouter ninner e = Some out /\
    length out = nouter * length plevo * ninner /\
    forall o i k Y p t tbv phv pb xb, o < nouter -> i < ninner -> nth_error plevo k = Some t ->
      column3 dati (length a) ninner o i (map Some Y) -> nth_error ps (o * ninner + i) = Some (Some p) -> p <> spvl ->
      nth_error tb (o * ninner + i) = Some tbv -> nth_error ph (o * ninner + i) = Some phv ->
      strictly_monotone (hybrid_pressures a b p0 p) -> usable lg intyp (hybrid_pressures a b p0 p) ->
      lowest_level (hybrid_pressures a b p0 p) Y pb xb ->
      exists w, column_value (part lg intyp) (hybrid_pressures a b p0 p) Y (Some (below_value lg varflg xb pb t p tbv phv)) t (Some w) /\
        (elt3 out (length plevo) ninner o k i = Some (Some w) \/ w = spvl /\ elt3 out (length plevo) ninner o k i = Some None).
Proof.
  intros H1 H2 Ld Lp Lt Lh Le KI. destruct (hybrid_result_ecmwf lg contiguous dati ps a b p0 plevo intyp varflg tb ph nouter ninner e) as [col [out [E [B C]]]]; auto.
  exists out. split; auto. split; [apply B|]. intros o i k Y p t tbv phv pb xb Ho Hi Hk HY Hp Np Ht Hh M U [j [J1 [J2 J3]]].
  assert (CX := take_column_spec _ None dati nouter (length a) ninner o i Ld Ho Hi).
  assert (EX := column3_unique _ _ _ _ _ _ _ _ CX HY). specialize (C o i Ho Hi). rewrite EX in C. rewrite (ps_nth _ _ _ Hp) in C.
  rewrite (nth_error_nth _ _ _ Ht), (nth_error_nth _ _ _ Hh) in C.
  assert (LY : length (map Some Y) = length a) by (destruct HY; auto). rewrite map_length in LY.
  unfold column_ecmwf in C. destruct (Qceqb_spec p spvl) as [|_]; [contradiction|].
  assert (KK : intyp_known intyp = true) by (unfold intyp_known; destruct (Z.eqb_spec intyp 1), (Z.eqb_spec intyp 2), (Z.eqb_spec intyp 3); auto; lia).
  rewrite KK in C. symmetry in C.
  assert (LP : length (hybrid_pressures a b p0 p) = length a) by (apply pressures_length; auto). set (P := hybrid_pressures a b p0 p) in *.
  assert (EB : pb = get P (bottom P)). { apply bottom_is_last; auto; [lia|]. eapply nth_error_In; eauto. }
  assert (JB : j = bottom P - 1).
  { pose proof (bottom_range P ltac:(lia)) as BR. assert (G := get_nth P (bottom P) BR). rewrite <- EB in G.
    destruct (lt_eq_lt_dec j (bottom P - 1)) as [[L|L]|L]; auto; exfalso; destruct M as [M|M].
    - pose proof (M _ _ _ _ L J1 G) as Z. destruct (Qclt_not_eq _ _ Z eq_refl).
    - pose proof (M _ _ _ _ L J1 G) as Z. destruct (Qclt_not_eq _ _ Z eq_refl).
    - pose proof (M _ _ _ _ L G J1) as Z. destruct (Qclt_not_eq _ _ Z eq_refl).
    - pose proof (M _ _ _ _ L G J1) as Z. destruct (Qclt_not_eq _ _ Z eq_refl). }
  assert (XB : xb = get Y (bottom P)).
  { pose proof (bottom_range P ltac:(lia)) as BR. assert (G := get_nth Y (bottom P) ltac:(lia)). rewrite <- JB in G. congruence. }
  destruct (ecmwf1_value lg intyp P Y t p varflg tbv phv) as [w [Ew V]]; auto; [lia|lia|].
  rewrite below_ground_pa_eq, <- XB, <- EB in V.
  exists w. split; auto. destruct (mapM_nth _ _ _ _ _ _ _ C Hk) as [v [Ev1 Ev2]]. rewrite Ew in Ev1. injection Ev1 as <-.
  assert (k < length plevo) by (apply nth_error_Some; congruence).
  destruct B as [_ B]. rewrite B by auto. rewrite nth_error_map, Ev2. cbn [option_map].
  unfold restore_nan. destruct (Qceqb_spec w spvl) as [->|]; auto.
Qed.
Example hybrid_extrapolated_demo :
  lowest_level (hybrid_pressures demo_a demo_b demo_p0 (qz 100000)) [qz 10; qz 20; qz 40] (q 0 1 * demo_p0 + q 9 10 * qz 100000)%Qc (qz 40) /\
  column3 demo_data 3 2 0 0 (map Some [qz 10; qz 20; qz 40]) /\
  option_map (map (option_map this)) (interp_hybrid_to_pressure demo_log true demo_data demo_ps demo_a demo_b demo_p0
     [qz 95000; qz 50000] 1 (Some (0%Z, ([qz 0; qz 0], [qz 0; qz 0]))) 1 2 (blank 4)) = Some [Some 40%Q; Some 44%Q; Some 20%Q; Some (407 # 17)%Q].
Proof.
  split; [|split; [|vm_compute; reflexivity]].
  - exists 2. split; [cbn; f_equal; apply Qc_is_canon; reflexivity|]. split; auto. intros r Hr. cbn in Hr.
    destruct Hr as [<-|[<-|[<-|[]]]]; apply (proj2 (Qcle_alt _ _)); vm_compute; discriminate.
  - split; [reflexivity|]. intros [|[|[|k]]] Hk; try lia; reflexivity.
Qed.

(** ** C27: layer thicknesses *)
Theorem thickness_nonneg psfc a b p0 j ps dp : length a = length b ->
  nth_error psfc j = Some ps -> nth_error (compute_delta_pressure_columns psfc a b p0) j = Some dp ->
  length dp = length a - 1 /\ forall d, In d dp -> (0 <= d)%Qc.
Proof.
  intros L Hp Hd. unfold compute_delta_pressure_columns in Hd. rewrite nth_error_map, Hp in Hd. injection Hd as <-.
  rewrite thickness_gaps by auto. split; [|intros d; apply gaps_nonneg].
  rewrite <- (pressures_length a b p0 ps) by auto. generalize (hybrid_pressures a b p0 ps). clear.
  induction l as [|x l IH]; auto. destruct l as [|y l]; auto. cbn [gaps length] in *. rewrite IH. simpl. lia.
Qed.
(** layer k is the distance between the pressures of interfaces k and k+1 *)
Theorem thickness_layer psfc a b p0 j ps dp k p r : length a = length b ->
  nth_error psfc j = Some ps -> nth_error (compute_delta_pressure_columns psfc a b p0) j = Some dp ->
  nth_error (hybrid_pressures a b p0 ps) k = Some p -> nth_error (hybrid_pressures a b p0 ps) (k + 1) = Some r ->
  nth_error dp k = Some (distance p r).
Proof.
  intros L Hp Hd. unfold compute_delta_pressure_columns in Hd. rewrite nth_error_map, Hp in Hd. injection Hd as <-.
  rewrite thickness_gaps by auto. generalize (hybrid_pressures a b p0 ps). clear. intros l. revert k. induction l as [|x l IH]; [intros [|k]; discriminate|].
  destruct l as [|y l]; [intros [|[|k]]; discriminate|]. intros [|k] H1 H2.
  - cbn in *. injection H1 as <-. injection H2 as <-. reflexivity.
  - cbn [gaps]. cbn [nth_error]. apply IH; auto.
Qed.
Theorem thickness_total psfc a b p0 j ps dp pt pb : length a = length b ->
  nth_error psfc j = Some ps -> nth_error (compute_delta_pressure_columns psfc a b p0) j = Some dp ->
  nth_error (hybrid_pressures a b p0 ps) 0 = Some pt -> nth_error (hybrid_pressures a b p0 ps) (length a - 1) = Some pb ->
  (distance pt pb <= total dp)%Qc /\
  (weakly_monotone (hybrid_pressures a b p0 ps) -> total dp = distance pt pb).
Proof.
  intros L Hp Hd H0 H1. unfold compute_delta_pressure_columns in Hd. rewrite nth_error_map, Hp in Hd. injection Hd as <-.
  rewrite thickness_gaps by auto. pose proof (pressures_length a b p0 ps L) as LP. destruct (hybrid_pressures a b p0 ps) as [|x P]; [discriminate|].
  cbn in H0. injection H0 as ->. rewrite <- LP in H1. cbn [length] in H1. rewrite Nat.sub_succ, Nat.sub_0_r, last_nth in H1. injection H1 as <-.
  split; [apply total_gaps_ge|apply total_gaps].
Qed.
(** three interfaces, two columns *)
Example thickness_demo : weakly_monotone (hybrid_pressures demo_a demo_b demo_p0 (qz 100000)) /\
  map (map this) (compute_delta_pressure_columns [qz 100000; qz 90000] demo_a demo_b demo_p0) = [[40000; 40000]; [37000; 34000]]%Q.
Proof.
  split; [|vm_compute; reflexivity]. left. intros i j p r Hij Hi Hj. apply Qclt_le_weak. eapply (demo_up (qz 100000)); eauto. reflexivity.
Qed.
(** without monotone pressures the total can be larger *)
Theorem thickness_total_not_monotone_refuted : exists a b ps,
  length a = length b /\ map (map this) (compute_delta_pressure_columns (ps :: nil) a b 1) = ([2; 1]%Q :: nil) /\
  map this (hybrid_pressures a b 1 ps) = [1; 3; 2]%Q.
Proof. exists [qz 1; qz 3; qz 2], [qz 0; qz 0; qz 0], (qz 5). split; [reflexivity|]. split; vm_compute; reflexivity. Qed.

(** ** C29: flat addresses *)
(** the addresses visited by the flat-buffer kernels: every cell once *)
Theorem flat_addresses_bijective nouter nlev ninner :
  Permutation (flat_map (fun '(outer, inner) => build_flat_level_offsets (outer * nlev * ninner) inner ninner nlev) (columns_in_order nouter ninner))
              (seq 1 (nouter * nlev * ninner)).
Proof. apply addresses_perm. Qed.
(** with the kernel's default 32-bit integers the address computed for
    (outer, level k, inner) is the intended one as long as the array has at most
    2^31 - 1 elements, *)
Definition address32 (nlev ninner o k i : Z) : Z :=
  wrap32 (wrap32 (wrap32 (wrap32 (o * nlev) * ninner) + i) + wrap32 (k * ninner))%Z.
Theorem flat_address_exact32 nouter nlev ninner o k i : (nouter * nlev * ninner < 2 ^ 31)%Z ->
  (0 <= o < nouter)%Z -> (0 <= k < nlev)%Z -> (1 <= i <= ninner)%Z ->
  address32 nlev ninner o k i = (o * nlev * ninner + k * ninner + i)%Z.
Proof.
  intros B Ho Hk Hi.
  assert (W : forall z, (0 <= z < 2 ^ 31)%Z -> wrap32 z = z) by (intros z Hz; unfold wrap32; rewrite Z.mod_small by lia; lia).
  assert (E : (o * nlev * ninner + k * ninner + i <= nouter * nlev * ninner)%Z).
  { assert (o * nlev + k + 1 <= nouter * nlev)%Z by nia. assert ((o * nlev + k + 1) * ninner <= nouter * nlev * ninner)%Z by (apply Z.mul_le_mono_nonneg_r; lia). lia. }
  assert (0 <= o * nlev)%Z by nia. assert (o * nlev <= o * nlev * ninner)%Z by nia. assert (0 <= k * ninner)%Z by nia.
  unfold address32. rewrite (W (o * nlev))%Z by lia. rewrite (W (o * nlev * ninner))%Z by lia.
  rewrite (W (o * nlev * ninner + i))%Z by lia. rewrite (W (k * ninner))%Z by lia. rewrite W by lia. lia.
Qed.
(** and outside the buffer otherwise: 2 x 128 x 2^24 elements, second outer block *)
Theorem flat_address_int32_refuted : exists nouter nlev ninner o k i,
  (0 <= o < nouter)%Z /\ (0 <= k < nlev)%Z /\ (1 <= i <= ninner)%Z /\ (nouter * nlev * ninner < 2 ^ 33)%Z /\
  (address32 nlev ninner o k i < 0)%Z.
Proof. exists 2%Z, 128%Z, (2 ^ 24)%Z, 1%Z, 0%Z, 1%Z. repeat split; try lia; vm_compute; reflexivity. Qed.
Example flat_address_demo : address32 5 7 3 2 4 = 123%Z /\ (4 * 5 * 7 < 2 ^ 31)%Z.
Proof. split; [vm_compute; reflexivity|lia]. Qed.

(** ** C55: geopotential height at hybrid levels *)
(** the flat-buffer kernel is the column kernel on every column, whatever was in
    the output buffer *)
Theorem geopotential_flat_is_column lg temp qv z3 psfc phis hyai hybi p0 nouter nlev ninner :
  length temp = nouter * nlev * ninner -> length qv = nouter * nlev * ninner -> length z3 = nouter * nlev * ninner ->
  length psfc = nouter * ninner -> length phis = nouter * ninner -> length hyai = nlev + 1 -> length hybi = nlev + 1 ->
  exists out, dgeopotential_height_corder lg temp qv z3 psfc phis hyai hybi p0 nouter nlev ninner = Some out /\
    length out = nouter * nlev * ninner /\
    forall o i T Q ps ph, o < nouter -> i < ninner -> column3 temp nlev ninner o i T -> column3 qv nlev ninner o i Q ->
      nth_error psfc (o * ninner + i) = Some ps -> nth_error phis (o * ninner + i) = Some ph ->
      exists z, geopotential_height_column lg T Q ps ph hyai hybi p0 nlev = Some z /\ column3 out nlev ninner o i z.
Proof.
  intros Lt Lq Lz Lp Lh La Lb. destruct (geo_corder_ok lg temp qv z3 psfc phis hyai hybi p0 nouter nlev ninner) as [col [out [E [B C]]]]; auto.
  exists out. split; auto. split; [apply B|]. intros o i T Q ps ph Ho Hi HT HQ Hp Hh.
  specialize (C o i Ho Hi). rewrite (nth_error_nth _ _ _ Hp), (nth_error_nth _ _ _ Hh) in C.
  assert (ET := column3_unique _ _ _ _ _ _ _ _ (take_column_spec _ 0%Qc temp nouter nlev ninner o i Lt Ho Hi) HT).
  assert (EQ := column3_unique _ _ _ _ _ _ _ _ (take_column_spec _ 0%Qc qv nouter nlev ninner o i Lq Ho Hi) HQ).
  rewrite ET, EQ in C. exists (col o i). split; auto. split.
  - destruct HT as [HT _]. destruct HQ as [HQ _]. unfold geopotential_height_column in C.
    assert (LHP : length (half_pressures hyai hybi p0 ps) = nlev + 1) by (unfold half_pressures; rewrite map_length, combine_length; lia).
    destruct (geo_column_total lg (half_pressures hyai hybi p0 ps) T Q nlev ph []) as [z [Ez L]]; try lia.
    rewrite Ez, app_nil_r in C. injection C as <-. auto.
  - intros k Hk. destruct B as [_ B]. symmetry. apply B; auto.
Qed.
(** heights strictly increase upwards (levels are stored from the top down), and
    all lie above the surface *)
Theorem geopotential_heights_increase lg T Q ps ph hyai hybi p0 nlev z :
  log_bounds lg -> length T = nlev -> length Q = nlev -> length hyai = nlev + 1 -> length hybi = nlev + 1 ->
  (forall k pu pl, nth_error (hybrid_pressures hyai hybi p0 ps) k = Some pu -> nth_error (hybrid_pressures hyai hybi p0 ps) (k + 1) = Some pl -> layer_ok (k + 1) pu pl) ->
  (forall t, In t T -> (0 < t)%Qc) -> (forall x, In x Q -> (0 <= x)%Qc) ->
  geopotential_height_column lg T Q ps ph hyai hybi p0 nlev = Some z ->
  length z = nlev /\ goes_down z /\ forall v, In v z -> (ph / gravity < v)%Qc.
Proof.
  intros B LT LQ La Lb LO PT PQ E. unfold geopotential_height_column in E.
  assert (EH : half_pressures hyai hybi p0 ps = hybrid_pressures hyai hybi p0 ps).
  { unfold half_pressures, hybrid_pressures. apply map_ext. intros [x y]. simpl. ring. }
  rewrite EH in E. assert (LP : length (hybrid_pressures hyai hybi p0 ps) = nlev + 1) by (rewrite pressures_length; lia). set (P := hybrid_pressures hyai hybi p0 ps) in *.
  destruct (geo_column_total lg P T Q nlev ph []) as [z' [Ez L]]; try lia. rewrite E in Ez. rewrite app_nil_r in Ez. injection Ez as <-.
  split; auto. apply (geo_heights lg P T Q B nlev ph [] z); auto; try lia.
  - intros j Hj. split; [|split; [apply PT, get_in; lia|apply PQ, get_in; lia]].
    pose proof (LO (j - 1) (get P j) (get P (j + 1))) as H. replace (j - 1 + 1) with j in H by lia. apply H; [apply get_nth; lia|].
    pose proof (get_nth P (j + 1) ltac:(lia)) as G. rewrite Nat.add_sub in G. auto.
  - rewrite app_nil_r; auto.
Qed.
(** two layers, the top interface at zero pressure *)
Example geopotential_demo :
  let hyai := [0%Qc; q 2 10; 0%Qc] in let hybi := [0%Qc; q 3 10; 1%Qc] in
  (forall k pu pl, nth_error (hybrid_pressures hyai hybi demo_p0 (qz 100000)) k = Some pu ->
     nth_error (hybrid_pressures hyai hybi demo_p0 (qz 100000)) (k + 1) = Some pl -> layer_ok (k + 1) pu pl) /\
  exists z, geopotential_height_column demo_log [qz 250; qz 280] [0%Qc; q 1 100] (qz 100000) (qz 100) hyai hybi demo_p0 2 = Some z /\
    length z = 2 /\ goes_down z.
Proof.
  intros hyai hybi.
  assert (L : forall k pu pl, nth_error (hybrid_pressures hyai hybi demo_p0 (qz 100000)) k = Some pu ->
     nth_error (hybrid_pressures hyai hybi demo_p0 (qz 100000)) (k + 1) = Some pl -> layer_ok (k + 1) pu pl).
  { intros k pu pl H1 H2. destruct k as [|[|[|k]]]; cbn in H1, H2; try discriminate; [| |destruct k; discriminate].
    - injection H1 as <-. injection H2 as <-. split; [reflexivity|]. right. split; auto. split; [apply (proj2 (Qcle_alt _ _)); vm_compute; discriminate|reflexivity].
    - injection H1 as <-. injection H2 as <-. split; [reflexivity|]. left. reflexivity. }
  split; auto.
  destruct (geopotential_height_column demo_log [qz 250; qz 280] [0%Qc; q 1 100] (qz 100000) (qz 100) hyai hybi demo_p0 2) as [z|] eqn:E; [|vm_compute in E; discriminate].
  exists z. split; auto.
  destruct (geopotential_heights_increase demo_log [qz 250; qz 280] [0%Qc; q 1 100] (qz 100000) (qz 100) hyai hybi demo_p0 2 z) as [H1 [H2 _]]; auto.
  - apply demo_log_bounds.
  - intros t [<-|[<-|[]]]; reflexivity.
  - intros t [<-|[<-|[]]]; apply (proj2 (Qcle_alt _ _)); vm_compute; discriminate.
Qed.

(** ** C56: sigma to hybrid *)
Theorem sigma_paths_agree lg dati sig ps hyam hybm p0 intyp nouter ninner e1 e2 :
  2 <= length sig -> length hyam = length hybm -> length dati = nouter * length sig * ninner -> length ps = nouter * ninner ->
  length e1 = nouter * length hyam * ninner -> length e2 = nouter * length hyam * ninner ->
  interp_sigma_to_hybrid lg true dati sig ps hyam hybm p0 intyp nouter ninner e1 =
  interp_sigma_to_hybrid lg false dati sig ps hyam hybm p0 intyp nouter ninner e2.
Proof.
  intros H Lh Ld Lp L1 L2. destruct (sigma_monotone sig) eqn:M.
  - destruct (sigma_result lg true dati sig ps hyam hybm p0 intyp nouter ninner e1) as [c1 [o1 [E1 [B1 C1]]]]; auto.
    destruct (sigma_result lg false dati sig ps hyam hybm p0 intyp nouter ninner e2) as [c2 [o2 [E2 [B2 C2]]]]; auto.
    rewrite E1, E2. f_equal. eapply by_columns_unique; eauto. cbv beta. intros o i Ho Hi. specialize (C1 o i). specialize (C2 o i). congruence.
  - unfold interp_sigma_to_hybrid. rewrite M. reflexivity.
Qed.
(** outside the range of the sigma levels the result is missing; inside it is
    the interpolated value *)
Theorem sigma_values lg contiguous dati sig ps hyam hybm p0 intyp nouter ninner e :
  2 <= length sig -> strictly_monotone sig -> length hyam = length hybm -> length dati = nouter * length sig * ninner ->
  length ps = nouter * ninner -> length e = nouter * length hyam * ninner ->
  intyp = 1%Z \/ intyp = 2%Z /\ log_like lg /\ all_positive sig ->
  exists out, interp_sigma_to_hybrid lg contiguous dati sig ps hyam hybm p0 intyp nouter ninner e = Some out /\
    length out = nouter * length hyam * ninner /\
    forall o i k Y p a b, o < nouter -> i < ninner -> nth_error hyam k = Some a -> nth_error hybm k = Some b ->
      column3 dati (length sig) ninner o i (map Some Y) -> nth_error ps (o * ninner + i) = Some p ->
      let s := (a * p0 / p + b)%Qc in
      ((forall r, In r sig -> (s < r)%Qc) \/ (forall r, In r sig -> (r < s)%Qc) -> elt3 out (length hyam) ninner o k i = Some None) /\
      ((exists r r', In r sig /\ In r' sig /\ (r <= s)%Qc /\ (s <= r')%Qc) ->
         exists w, column_value (part lg intyp) sig Y None s (Some w) /\
           (elt3 out (length hyam) ninner o k i = Some (Some w) \/ w = spvl /\ elt3 out (length hyam) ninner o k i = Some None)).
Proof.
  intros H M Lh Ld Lp Le KI.
  assert (SM : sigma_monotone sig = true) by (destruct M; [apply never_down_up|apply never_up_down]; auto).
  destruct (sigma_result lg contiguous dati sig ps hyam hybm p0 intyp nouter ninner e) as [col [out [E [B C]]]]; auto.
  exists out. split; auto. split; [apply B|]. intros o i k Y p a b Ho Hi Ha Hb HY Hp s.
  assert (CX := take_column_spec _ None dati nouter (length sig) ninner o i Ld Ho Hi).
  assert (EX := column3_unique _ _ _ _ _ _ _ _ CX HY). specialize (C o i). rewrite EX in C. rewrite (nth_error_nth _ _ _ Hp) in C.
  assert (LY : length (map Some Y) = length sig) by (destruct HY; auto). rewrite map_length in LY.
  unfold column_sigma in C. symmetry in C.
  assert (Hab : nth_error (combine hyam hybm) k = Some (a, b)) by (apply nth_combine; auto).
  destruct (mapM_nth _ _ _ _ _ _ _ C Hab) as [v [Ev1 Ev2]].
  destruct (sigma_value lg sig Y (sigma_of (a, b) p0 p) intyp) as [w [Ew V]]; auto.
  rewrite Ew in Ev1. injection Ev1 as <-. change (sigma_of (a, b) p0 p) with s in V.
  assert (k < length hyam) by (apply nth_error_Some; congruence).
  assert (EO : elt3 out (length hyam) ninner o k i = Some (restore_nan (Some (match w with Some x => x | None => spvl end)))).
  { destruct B as [_ B]. rewrite B by auto. rewrite nth_error_map, Ev2. reflexivity. }
  assert (EP : part lg intyp = sigma_part lg intyp) by (destruct KI as [->|[-> _]]; reflexivity).
  split.
  - intros Out. destruct V as [[-> _]|[[r [r' [Hr [Hr' [L1 L2]]]]] _]].
    + rewrite EO, restore_spvl. auto.
    + exfalso. destruct Out as [Out|Out]; [apply (Qcle_not_lt _ _ L1)|apply (Qcle_not_lt _ _ L2)]; auto.
  - intros [r [r' [Hr [Hr' [L1 L2]]]]]. destruct V as [[_ Out]|[_ [x [-> V]]]].
    + exfalso. destruct Out as [Out|Out]; [apply (Qcle_not_lt _ _ L1)|apply (Qcle_not_lt _ _ L2)]; auto.
    + exists x. rewrite EP. split; auto. rewrite EO. unfold restore_nan. destruct (Qceqb_spec x spvl) as [->|]; auto.
Qed.
Example sigma_demo : goes_up [q 1 10; q 5 10; q 9 10] /\
  option_map (map (option_map this)) (interp_sigma_to_hybrid demo_log true demo_data [q 1 10; q 5 10; q 9 10] [qz 100000; qz 90000]
     [q 1 20; q 1 10; 0%Qc] [0%Qc; q 2 10; q 95 100] demo_p0 1 1 2 (blank 6)) = Some [None; None; Some 15%Q; Some (605 # 36)%Q; None; None].
Proof.
  split; [|vm_compute; reflexivity]. intros i j x y Hij Hi Hj. destruct i as [|[|[|i]]]; destruct j as [|[|[|j]]]; try lia;
      cbn in Hi, Hj; try (destruct i; discriminate); try (destruct j; discriminate); injection Hi as <-; injection Hj as <-; reflexivity.
Qed.

Print Assumptions hybrid_paths_agree_extrapolating.
Print Assumptions hybrid_paths_agree_partial.
Print Assumptions hybrid_paths_nan_refuted.
Print Assumptions hybrid_values.
Print Assumptions hybrid_no_invention_partial.
Print Assumptions hybrid_missing_surface.
Print Assumptions hybrid_above_top_refuted.
Print Assumptions hybrid_extrapolated_values.
Print Assumptions thickness_nonneg.
Print Assumptions thickness_layer.
Print Assumptions thickness_total.
Print Assumptions thickness_total_not_monotone_refuted.
Print Assumptions flat_addresses_bijective.
Print Assumptions flat_address_exact32.
Print Assumptions flat_address_int32_refuted.
Print Assumptions geopotential_flat_is_column.
Print Assumptions geopotential_heights_increase.
Print Assumptions sigma_paths_agree.
Print Assumptions sigma_values.
