(** C74: stacks of profiles against single profiles. *)
From Verif Require Import Base Buffer Loops VH_Model VH_Proofs I2P_Model I2P_Spec I2P_Proofs I2P_Proofs2 I2P_Props GB_Model GB_Spec2 GB_Interp GB_Props3.
Local Open Scope nat_scope.
Local Opaque spvl.

Section Batch.
Variables (lg pwk fcor betaf : Qc -> Qc) (kern : list Qc -> list Qc -> list Qc -> list Qc -> Qc -> Qc -> Qc + Z).
Variables (pressure : list Qc) (bottom : Qc) (levels : nat) (log : bool).
(** the call on one profile alone *)
Definition single (p : profile) : option (outcome (option Qc)) :=
  match p with
  | (u, t, (tp, Some lat)) => baroc_scalar lg pwk fcor betaf kern pressure bottom levels log u t tp lat
  | _ => None
  end.
(** a profile with a latitude and numbers in range; an explicit tropopause pressure is positive and
    given in the unit of the stack; without one no temperature is at or below zero *)
Definition fits (hpa : bool) (p : profile) : Prop :=
  match p with
  | (u, t, (tp, lat)) =>
      lat <> None /\ length u = length pressure /\ length t = length pressure /\
      (forall x, In (Some x) u -> (x < spvl)%Qc) /\ (forall x, In (Some x) t -> (x < spvl)%Qc) /\
      match tp with
      | Some x => (0 < x)%Qc /\ Qcleb x (qz 2000) = hpa
      | None => forall x, In (Some x) t -> (0 < x)%Qc
      end
  end.
Hypothesis Hp : usable_source pressure.
Hypothesis Hpos : positive pressure.
Hypothesis Hsm : small pressure.
Hypothesis Hb : (bottom < spvl)%Qc.
Hypothesis Hlg : log = true -> increasing_on_positive lg.
(** the kernel does not use the code 100 (baroc_kernel_codes below) *)
Hypothesis Hk : forall u th p t f b, kern u th p t f b <> inr 100%Z.

Lemma all_present_map (l : list Qc) : all_present (map Some l) = Some l.
Proof. induction l as [|a l IH]; [reflexivity|]. cbn. rewrite IH. reflexivity. Qed.
Lemma all_present_none (A : Type) (l : list (option A)) : In None l -> all_present l = None.
Proof. induction l as [|[a|] l IH]; intros H; [destruct H| |reflexivity]. destruct H as [H|H]; [discriminate|]. cbn. rewrite IH by auto. reflexivity. Qed.
Lemma all_present_some (A : Type) (l : list (option A)) r : all_present l = Some r -> l = map Some r.
Proof. revert r. induction l as [|[a|] l IH]; intros r H; cbn in H; [injection H as <-; reflexivity| |discriminate]. destruct (all_present l) as [t|]; [|discriminate]. injection H as <-. cbn. rewrite (IH t); auto. Qed.
(** tp + (bottom - tp) * linspace(0, 1, n) = linspace(tp, bottom, n) *)
Lemma ramp_linspace a b n : ramp a b n = linspace a b n.
Proof. unfold ramp, linspace. rewrite map_map. apply map_ext. intros i. unfold Qcdiv. ring. Qed.
Lemma linspace_nth a b n i x : nth_error (linspace a b n) i = Some x -> i < n /\ x = (a + qz (Z.of_nat i) * ((b - a) / qz (Z.of_nat (n - 1))))%Qc.
Proof.
  unfold linspace. rewrite nth_error_map. intros H. assert (L : i < n). { destruct (nth_error (seq 0 n) i) eqn:E; [|discriminate]. rewrite <- (seq_length n 0). apply nth_error_Some. congruence. }
  split; auto. rewrite (nth_error_nth' _ 0) in H by (rewrite seq_length; auto). rewrite seq_nth in H by auto. cbn in H. injection H as <-. reflexivity.
Qed.
Lemma linspace_rises a b n : (a < b)%Qc -> rises (linspace a b n) /\ forall x, In x (linspace a b n) -> (a <= x)%Qc /\ (x <= b)%Qc.
Proof.
  intros H. assert (St : n <= 1 \/ (0 < (b - a) / qz (Z.of_nat (n - 1)))%Qc).
  { destruct (le_lt_dec n 1); [left; auto|right]. apply Qcdiv_pos; [qclra|]. change (0 : Qc)%Qc with (qz 0). apply qz_lt. lia. }
  split.
  - intros i j x y Hij Hx Hy. apply linspace_nth in Hx, Hy. destruct Hx as [Li ->], Hy as [Lj ->]. destruct St as [|St]; [lia|].
    set (st := ((b - a) / qz (Z.of_nat (n - 1)))%Qc) in *. assert (Q := proj2 (qz_lt (Z.of_nat i) (Z.of_nat j)) ltac:(lia)).
    assert (X : (0 < (qz (Z.of_nat j) - qz (Z.of_nat i)) * st)%Qc) by (apply Qcmul_pos; qclra).
    assert (Y : ((qz (Z.of_nat j) - qz (Z.of_nat i)) * st = qz (Z.of_nat j) * st - qz (Z.of_nat i) * st)%Qc) by ring. qclra.
  - intros x Hx. apply In_nth_error in Hx. destruct Hx as [i Hi]. apply linspace_nth in Hi. destruct Hi as [Li ->].
    destruct St as [L|St].
    + assert (i = 0) as -> by lia. change (qz (Z.of_nat 0)) with (0%Qc). rewrite Qcmult_0_l. split; qclra.
    + destruct (le_lt_dec n 1) as [L|L].
      { assert (i = 0) as -> by lia. change (qz (Z.of_nat 0)) with (0%Qc). rewrite Qcmult_0_l. split; qclra. }
      set (st := ((b - a) / qz (Z.of_nat (n - 1)))%Qc) in *.
      assert (E : (qz (Z.of_nat (n - 1)) * st = b - a)%Qc).
      { unfold st. field. intros X. assert (Q := proj2 (qz_lt 0 (Z.of_nat (n - 1))) ltac:(lia)). rewrite X in Q. revert Q. apply Qclt_not_eq || idtac. intros Q. exact (Qclt_not_eq _ _ Q eq_refl). }
      assert (Q0 : (0 <= qz (Z.of_nat i) * st)%Qc).
      { apply Qcmul_nonneg; [|qclra]. rewrite <- qz_0. apply qz_le. lia. }
      assert (Q1 : (0 <= (qz (Z.of_nat (n - 1)) - qz (Z.of_nat i)) * st)%Qc).
      { apply Qcmul_nonneg; [|qclra]. destruct (Nat.eq_dec i (n - 1)) as [->|]; [qclra|]. assert (Q := proj2 (qz_lt (Z.of_nat i) (Z.of_nat (n - 1))) ltac:(lia)). qclra. }
      assert (Y : ((qz (Z.of_nat (n - 1)) - qz (Z.of_nat i)) * st = qz (Z.of_nat (n - 1)) * st - qz (Z.of_nat i) * st)%Qc) by ring. split; qclra.
Qed.

(** the interpolation of one field on the two paths *)
Lemma field_paths (x : list Qc) grid : length x = length pressure -> small x -> small grid -> rises grid -> positive grid ->
  let one := interp_pressure_1d lg (map Some x) (map Some pressure) (map Some grid) log false None in
  (exists o, interp_no_extrap lg pressure x grid (if log then 2 else 1)%Z = Some (inl o) /\ one = Some (map Some o)) \/
  (exists o, interp_no_extrap lg pressure x grid (if log then 2 else 1)%Z = Some (inr 4%Z) /\ one = Some o /\ In None o).
Proof.
  intros Hl Sx Sg Rg Pg one. destruct (interp_agrees lg pressure x grid log Hl Hsm Sx Sg Hlg) as [A1 [A2 _]].
  destruct (interp_codes lg pressure x grid (if log then 2 else 1)%Z Hl) as [r [Er [C1 [C2 [C3 [C4 _]]]]]]. rewrite Er in A1, A2 |- *.
  destruct r as [o|e]; [left; exists o; auto|]. right.
  destruct (interp_cases lg pressure x grid (if log then 2 else 1)%Z Hl) as [[N E]|[[U [T E]]|[[U [T [K [P E]]]]|[U [T [P [r [E R]]]]]]]]; try contradiction.
  - destruct P. split; auto.
  - rewrite Er in E. injection E as <-. destruct R as [-> _]. destruct (A2 eq_refl) as [o [Eo I]]. exists o. auto.
Qed.
Lemma entry_is u t tp lat hpa us ts : fits hpa (u, t, (Some tp, Some lat)) -> all_present u = Some us -> all_present t = Some ts ->
  existsb (fun x => Qcleb x 0%Qc) ts = false -> let tp' := (if hpa then tp * qz 100 else tp)%Qc in Qcleb bottom tp' = false ->
  batch_entry (baroc_profile lg pwk kern us ts pressure (ramp tp' bottom levels) (fcor lat) (betaf lat) (if log then 2 else 1)%Z) =
  single (u, t, (Some tp, Some lat)).
Proof.
  intros [_ [Lu [Lt [Su [St [Ht Hh]]]]]] Eu Et Ec tp' Hb'. cbn [single]. unfold baroc_scalar. rewrite Eu, Et, Ec. rewrite Hh. fold tp'. rewrite Hb'. rewrite ramp_linspace.
  assert (Pt : (0 < tp')%Qc). { unfold tp'. destruct hpa; auto. apply Qcmul_pos; auto. reflexivity. }
  assert (Lt' : (tp' < bottom)%Qc) by (destruct (Qcleb_spec bottom tp'); [discriminate|qclra]).
  destruct (linspace_rises tp' bottom levels Lt') as [Rg Bg]. set (grid := linspace tp' bottom levels) in *.
  assert (Sg : small grid) by (intros q Hq; destruct (Bg q Hq); qclra). assert (Pg : positive grid) by (intros q Hq; destruct (Bg q Hq); qclra).
  apply all_present_some in Eu, Et. subst u t. rewrite map_length in Lu, Lt.
  assert (Su' : small us) by (intros q Hq; apply Su, in_map; auto). assert (St' : small ts) by (intros q Hq; apply St, in_map; auto).
  unfold baroc_profile. destruct (field_paths us grid Lu Su' Sg Rg Pg) as [[ou [E1 E2]]|[ou [E1 [E2 I]]]]; rewrite E1, E2; cbn [bind].
  - destruct (field_paths ts grid Lt St' Sg Rg Pg) as [[ot [F1 F2]]|[ot [F1 [F2 I]]]]; rewrite F1, F2; cbn [bind].
    + rewrite !all_present_map. unfold batch_entry. cbn [bind]. destruct (kern ou (theta_of pwk grid ot) grid ot (fcor lat) (betaf lat)) as [g|e] eqn:Ek; [reflexivity|].
      destruct (Z.eqb_spec e 100) as [->|]; [|reflexivity]. destruct (Hk _ _ _ _ _ _ Ek).
    + rewrite all_present_map, (all_present_none _ ot I). reflexivity.
  - destruct (field_paths ts grid Lt St' Sg Rg Pg) as [[ot [F1 F2]]|[ot [F1 [F2 I']]]]; rewrite F2, (all_present_none _ ou I); reflexivity.
Qed.
(** what a single call that returns a number handed to the kernel: equally spaced pressures from the tropopause to
    the bottom, the two fields interpolated to them, and the potential temperature T (1e5 / p)^kappa level by level *)
Theorem single_kernel_inputs u t tp lat g : single (u, t, (Some tp, Some lat)) = Some (Returns (Some g)) ->
  let top := if Qcleb tp (qz 2000) then (tp * qz 100)%Qc else tp in
  exists grid ui ti th, kern ui th grid ti (fcor lat) (betaf lat) = inl g /\ (top < bottom)%Qc /\
    length grid = levels /\
    (forall k, k < levels -> nth_error grid k = Some (top + qz (Z.of_nat k) * ((bottom - top) / qz (Z.of_nat (levels - 1))))%Qc) /\
    interp_pressure_1d lg u (map Some pressure) (map Some grid) log false None = Some (map Some ui) /\
    interp_pressure_1d lg t (map Some pressure) (map Some grid) log false None = Some (map Some ti) /\
    (forall k p x, nth_error grid k = Some p -> nth_error ti k = Some x -> nth_error th k = Some (x * pwk (qz 100000 / p))%Qc) /\
    (forall x, In (Some x) t -> (0 < x)%Qc).
Proof.
  intros H top. cbn [single] in H. unfold baroc_scalar in H. destruct (all_present u) as [us|] eqn:Eu; [|discriminate].
  destruct (all_present t) as [ts|] eqn:Et; [|discriminate]. destruct (existsb (fun x => Qcleb x 0%Qc) ts) eqn:Ec; [discriminate|].
  fold top in H. destruct (Qcleb_spec bottom top) as [X|X]; [discriminate|]. assert (LT : (top < bottom)%Qc) by qclra. cbv zeta in H.
  apply all_present_some in Eu, Et. subst u t. set (grid := linspace top bottom levels) in *.
  destruct (interp_pressure_1d lg (map Some us) _ _ _ _ _) as [ou|] eqn:E1; [|discriminate].
  destruct (interp_pressure_1d lg (map Some ts) _ _ _ _ _) as [ot|] eqn:E2; [|discriminate].
  destruct (all_present ou) as [ui|] eqn:Eu; [|discriminate]. destruct (all_present ot) as [ti|] eqn:Et; [|discriminate].
  apply all_present_some in Eu, Et. subst ou ot. destruct (kern ui (theta_of pwk grid ti) grid ti (fcor lat) (betaf lat)) as [g'|e] eqn:Ek; [|discriminate].
  injection H as <-. exists grid, ui, ti, (theta_of pwk grid ti). repeat split; auto.
  - unfold grid, linspace. rewrite map_length, seq_length. reflexivity.
  - intros k Hk'. unfold grid, linspace. rewrite nth_error_map, (nth_error_nth' _ 0) by (rewrite seq_length; auto). rewrite seq_nth by auto. reflexivity.
  - intros k q x Hq Hx. unfold theta_of, p_ref. rewrite nth_error_map.
    assert (C : forall a b, nth_error a k = Some q -> nth_error b k = Some x -> nth_error (combine a b) k = Some (q, x)).
    { clear. induction k as [|k IH]; intros [|a la] [|b lb] Ha Hb; try discriminate; cbn in *; [congruence|auto]. }
    rewrite (C _ _ Hq Hx). reflexivity.
  - intros x Hx. apply in_map_iff in Hx. destruct Hx as [y [Ey Hy]]. injection Ey as ->.
    destruct (Qcleb_spec x 0%Qc) as [Y|Y]; [|qclra]. exfalso. assert (Z : existsb (fun x => Qcleb x 0%Qc) ts = true).
    { apply existsb_exists. exists x. split; auto. destruct (Qcleb_spec x 0%Qc); auto; contradiction. } congruence.
Qed.
Lemma collect_raises l : In Raises l -> collect l = Raises.
Proof. induction l as [|[v|] l IH]; intros H; [destruct H| |reflexivity]. destruct H as [H|H]; [discriminate|]. cbn. rewrite IH; auto. Qed.
Definition entry (v : option (list Qc * list Qc * (Qc * Qc))) : option (outcome (option Qc)) :=
  match v with
  | None => Some (Returns None)
  | Some (us, ts, (tp, lat)) => batch_entry (baroc_profile lg pwk kern us ts pressure (ramp tp bottom levels) (fcor lat) (betaf lat) (if log then 2 else 1)%Z)
  end.
Definition bad_tp (v : option (list Qc * list Qc * (Qc * Qc))) : bool := match v with Some (_, _, (tp, _)) => Qcleb tp 0%Qc || Qcleb bottom tp | None => false end.
Definition cold_t (v : option (list Qc * list Qc * (Qc * Qc))) : bool := match v with Some (_, ts, _) => existsb (fun x => Qcleb x 0%Qc) ts | None => false end.
Lemma single_cases hpa p : fits hpa p ->
  (bad_tp (valid_profile hpa p) || cold_t (valid_profile hpa p) = true /\ single p = Some Raises) \/
  (bad_tp (valid_profile hpa p) = false /\ cold_t (valid_profile hpa p) = false /\ entry (valid_profile hpa p) = single p /\ exists r, single p = Some r).
Proof.
  destruct p as [[u t] [tp lat]]. intros F. assert (F' := F). destruct F' as [Hla [Lu [Lt [Su [St HT]]]]]. destruct lat as [lat|]; [clear Hla|congruence].
  assert (Tot : exists r, single (u, t, (tp, Some lat)) = Some r).
  { cbn [single]. unfold baroc_scalar. destruct (all_present u); [|eauto]. destruct (all_present t); [|eauto]. destruct (existsb _ _); [eauto|]. destruct tp; [|eauto].
    destruct (Qcleb bottom _); [eauto|]. destruct (interp_pressure_1d _ _ _ _ _ _ _); [|eauto]. destruct (interp_pressure_1d _ _ _ _ _ _ _); [|eauto].
    destruct (all_present _); [|eauto]. destruct (all_present _); [|eauto]. destruct (kern _ _ _ _ _ _); eauto. }
  cbn [valid_profile]. destruct (all_present u) as [us|] eqn:Eu; cbn [bind].
  2:{ right. split; [reflexivity|]. split; [reflexivity|]. split; [|exact Tot]. cbn [single]. unfold baroc_scalar. rewrite Eu. reflexivity. }
  destruct (all_present t) as [ts|] eqn:Et; cbn [bind].
  2:{ right. split; [reflexivity|]. split; [reflexivity|]. split; [|exact Tot]. cbn [single]. unfold baroc_scalar. rewrite Eu, Et. reflexivity. }
  destruct tp as [tp|]; cbn [bind].
  2:{ right. split; [reflexivity|]. split; [reflexivity|]. split; [|exact Tot]. cbn [single]. unfold baroc_scalar. rewrite Eu, Et.
      destruct (existsb (fun x => Qcleb x 0%Qc) ts) eqn:E; [|reflexivity]. exfalso. apply existsb_exists in E. destruct E as [x [Ix Ex]].
      apply all_present_some in Et. subst t. assert (X := HT x (in_map Some _ _ Ix)). destruct (Qcleb_spec x 0%Qc); [qclra|discriminate]. }
  destruct HT as [H0 Hh]. set (tp' := (if hpa then tp * qz 100 else tp)%Qc). cbn [bad_tp cold_t].
  assert (Pt : (0 < tp')%Qc). { unfold tp'. destruct hpa; auto. apply Qcmul_pos; auto. reflexivity. }
  destruct (Qcleb_spec tp' 0%Qc) as [X|_]; [exfalso; qclra|]. cbn [orb].
  destruct (existsb (fun x => Qcleb x 0%Qc) ts) eqn:Ec.
  { left. split; [apply orb_true_r|]. cbn [single]. unfold baroc_scalar. rewrite Eu, Et, Ec. reflexivity. }
  destruct (Qcleb bottom tp') eqn:Hb'.
  { left. split; [reflexivity|]. cbn [single]. unfold baroc_scalar. rewrite Eu, Et, Ec, Hh. fold tp'. rewrite Hb'. reflexivity. }
  right. split; [reflexivity|]. split; [reflexivity|]. split; [|exact Tot]. unfold entry. apply (entry_is u t tp lat hpa us ts); auto.
Qed.
(** the stack returns what the single calls return, and raises exactly when one of them does *)
Theorem batch_is_single_partial ps : (forall p, In p ps -> fits (in_hpa ps) p) ->
  exists rs, mapM single ps = Some rs /\ baroc_batch lg pwk fcor betaf kern pressure bottom levels log ps = Some (collect rs).
Proof.
  intros HF. unfold baroc_batch. set (hpa := in_hpa ps) in *. clearbody hpa.
  fold bad_tp. fold cold_t.
  change (fun v : option (list Qc * list Qc * (Qc * Qc)) => match v with Some (_, _, (tp, _)) => Qcleb tp 0%Qc || Qcleb bottom tp | None => false end) with bad_tp.
  change (fun v : option (list Qc * list Qc * (Qc * Qc)) => match v with Some (_, ts, _) => existsb (fun x => Qcleb x 0%Qc) ts | None => false end) with cold_t.
  assert (Tot : exists rs, mapM single ps = Some rs). { apply mapM_some. intros p Hi. destruct (single_cases hpa p (HF p Hi)) as [[_ E]|[_ [_ [_ [r E]]]]]; eauto. }
  destruct Tot as [rs Ers]. exists rs. split; [exact Ers|].
  assert (Bad : existsb bad_tp (map (valid_profile hpa) ps) = true \/ existsb cold_t (map (valid_profile hpa) ps) = true -> collect rs = Raises).
  { intros H. assert (exists p, In p ps /\ bad_tp (valid_profile hpa p) || cold_t (valid_profile hpa p) = true) as [p [Hi Hbad]].
    { destruct H as [H|H]; apply existsb_exists in H; destruct H as [v [Hv E]]; apply in_map_iff in Hv; destruct Hv as [p [<- Hi]]; exists p; rewrite E, ?orb_true_r; auto. }
    destruct (single_cases hpa p (HF p Hi)) as [[_ E]|[X [Y _]]]; [|rewrite X, Y in Hbad; discriminate].
    apply collect_raises. apply In_nth_error in Hi. destruct Hi as [k Hk']. destruct (mapM_nth _ _ _ _ _ _ _ Ers Hk') as [y [Ey Iy]]. rewrite E in Ey. injection Ey as <-. eapply nth_error_In; eauto. }
  destruct (existsb bad_tp (map (valid_profile hpa) ps)) eqn:B1; [rewrite Bad by auto; reflexivity|].
  destruct (existsb cold_t (map (valid_profile hpa) ps)) eqn:B2; [rewrite Bad by auto; reflexivity|]. clear Bad.
  assert (Em : mapM entry (map (valid_profile hpa) ps) = Some rs).
  { rewrite <- Ers. clear Ers rs. induction ps as [|p ps IH]; [reflexivity|]. cbn [map existsb] in B1, B2. apply orb_false_iff in B1, B2. destruct B1 as [b1 B1], B2 as [b2 B2].
    cbn [map mapM]. rewrite IH; auto; [|intros q Hq; apply HF; right; auto]. 
    destruct (single_cases hpa p (HF p (or_introl eq_refl))) as [[X _]|[_ [_ [-> _]]]]; [rewrite b1, b2 in X; discriminate|reflexivity]. }
  unfold entry in Em. rewrite Em. reflexivity.
Qed.
End Batch.

(** the kernel never returns the code 100 *)
Theorem baroc_kernel_codes (K : Type) (O : fops K) pi tiny qz u th p t f beta w mode count len e :
  dbaroc_growth_rate_1d O pi tiny qz u th p t f beta w mode count len = Some (inr e) ->
  In e [1; 2; 3; 4; 5; 300; 301]%Z.
Proof.
  unfold dbaroc_growth_rate_1d. cbn [In].
  destruct (length u <? 3); [intros H; injection H as <-; auto|]. destruct (w <? 1)%Z; [intros H; injection H as <-; auto|].
  destruct (count <? 2)%Z; [intros H; injection H as <-; auto|]. destruct (negb _ && negb _); [intros H; injection H as <-; auto|].
  destruct (_ && _); [intros H; injection H as <-; auto 10|].
  destruct (baroc_column _ _ _ _ _); [|discriminate]. cbn [bind]. destruct (baroc_coefs _ _ _); [|discriminate]. cbn [bind].
  destruct (spectrum _ _ _ _ _ _ _) as [g|]; [|discriminate]. cbn [bind]. unfold finalize_baroc_growth.
  destruct (apply_centered_running_mean _ _ _) as [us|]; [|discriminate]. cbn [bind]. destruct (last_turn _ _) as [k|]; [|discriminate]. cbn [bind].
  destruct (k =? 0); [intros H; injection H as <-; auto 10|]. destruct (mapM _ _) as [pre|]; [|discriminate]. cbn [bind].
  destruct (max_valid _ _); intros H; [discriminate|]. injection H as <-. auto 10.
Qed.

(** ** Cases *)
Section Cases.
Let f1 (q : Qc) : Qc := q.
(** no growing mode below the equator *)
Let kern (u th p t : list Qc) (f b : Qc) : Qc + Z := if Qcltb f 0%Qc then inr 300%Z else inl (qz 7).
Let ps := [qz 20000; qz 50000; qz 90000].
Let uu := [Some (qz 30); Some (qz 20); Some (qz 10)].
Let tt := [Some (qz 220); Some (qz 260); Some (qz 290)].
Let one := single f1 f1 f1 f1 kern ps (qz 90000) 3 false.
Let many := baroc_batch f1 f1 f1 f1 kern ps (qz 90000) 3 false.
(** good, missing value, tropopause above the column: three profiles in hPa *)
Let stack : list profile := [(uu, tt, (Some (qz 250), Some (qz 45))); (uu, [None; Some (qz 260); Some (qz 290)], (Some (qz 250), Some (qz 45))); (uu, tt, (Some (qz 100), Some (qz 45)))].
Example batch_case : usable_source ps /\ positive ps /\ small ps /\ (forall u th p t f b, kern u th p t f b <> inr 100%Z) /\
  (forall p, In p stack -> fits ps (in_hpa stack) p) /\
  mapM one stack = Some [Returns (Some (qz 7)); Returns None; Returns None] /\ many stack = Some (Returns [Some (qz 7); None; None]).
Proof.
  assert (SP : small ps) by (intros q Hq; cbn in Hq; destruct Hq as [<-|[<-|[<-|[]]]]; reflexivity).
  split; [split; [cbn; lia|left]|].
  { intros i j a b Hij Ha Hb. destruct i as [|[|[|i]]], j as [|[|[|j]]]; cbn in Ha, Hb; try lia; try discriminate; try (destruct j; discriminate); try (destruct i; discriminate);
      injection Ha as <-; injection Hb as <-; reflexivity. }
  split; [intros q Hq; cbn in Hq; destruct Hq as [<-|[<-|[<-|[]]]]; reflexivity|]. split; [exact SP|].
  split; [intros u th p t f b; unfold kern; destruct (Qcltb f 0%Qc); discriminate|].
  split; [|split; vm_compute; reflexivity].
  assert (Su : forall x, In (Some x) uu -> (x < spvl)%Qc) by (intros x Hx; cbn in Hx; destruct Hx as [E|[E|[E|[]]]]; injection E as <-; reflexivity).
  assert (St : forall x, In (Some x) tt -> (x < spvl)%Qc) by (intros x Hx; cbn in Hx; destruct Hx as [E|[E|[E|[]]]]; injection E as <-; reflexivity).
  intros p [<-|[<-|[<-|[]]]]; cbn [fits]; (split; [discriminate|]); (split; [reflexivity|]); (split; [reflexivity|]); (split; [exact Su|]).
  - split; [exact St|]. split; reflexivity.
  - split; [|split; reflexivity]. intros x [E|Hx]; [discriminate|]. apply St. right. exact Hx.
  - split; [exact St|]. split; reflexivity.
Qed.
(** C74 as stated is false in four ways.  A profile without growing modes, or one with a
    temperature of zero, takes the whole stack with it: *)
Theorem one_bad_profile_refuted : exists p q, one p = Some (Returns (Some (qz 7))) /\ one q = Some Raises /\ many [p; q] = Some Raises.
Proof.
  exists (uu, tt, (Some (qz 250), Some (qz 45))), (uu, tt, (Some (qz 250), Some (qz (-45)))).
  split; [|split]; vm_compute; reflexivity.
Qed.
(** a stack with tropopause pressures in hPa and in Pa reads all of them as Pa: *)
Theorem mixed_units_refuted : exists p q, one p = Some (Returns (Some (qz 7))) /\ one q = Some (Returns (Some (qz 7))) /\
  many [p; q] = Some (Returns [None; Some (qz 7)]).
Proof.
  exists (uu, tt, (Some (qz 250), Some (qz 45))), (uu, tt, (Some (qz 25000), Some (qz 45))).
  split; [|split]; vm_compute; reflexivity.
Qed.
(** a tropopause pressure that is not positive raises in a stack only: *)
Theorem negative_tropopause_refuted : exists p, one p = Some (Returns None) /\ many (p :: nil) = Some Raises.
Proof. exists (uu, tt, (Some (qz (-250)), Some (qz 45))). split; vm_compute; reflexivity. Qed.
(** a temperature of zero in a profile without tropopause raises alone only: *)
Theorem cold_without_tropopause_refuted : exists p, one p = Some Raises /\ many (p :: nil) = Some (Returns (None :: nil)).
Proof. exists (uu, [Some (qz 0); Some (qz 260); Some (qz 290)], (None, Some (qz 45))). split; vm_compute; reflexivity. Qed.
End Cases.

(** ** The barotropic call *)
Section Barot.
Variables (K : Type) (O : fops K).
Hypothesis Total : forall a b, fleb O a b = true \/ fleb O b a = true.
Hypothesis Trans : forall a b c, fleb O a b = true -> fleb O b c = true -> fleb O a c = true.
Notation gt a b := (fgtb O a b = true).
Lemma gt_trans a b c : gt a b -> gt b c -> gt a c.
Proof.
  unfold fgtb. rewrite !negb_true_iff. intros H1 H2. destruct (fleb O a c) eqn:E; [|reflexivity].
  destruct (Total b c) as [X|X]; [congruence|]. rewrite (Trans _ _ _ E X) in H1. discriminate.
Qed.
Lemma gt_irrefl a : ~ gt a a.
Proof. unfold fgtb. rewrite negb_true_iff. destruct (Total a a); congruence. Qed.
Lemma inc_app l a b : increasingb O ((l ++ [a]) ++ [b]) = increasingb O (l ++ [a]) && fgtb O b a.
Proof.
  induction l as [|x l IH]; [cbn; destruct (fgtb O b a); reflexivity|]. destruct l as [|y l].
  - cbn. destruct (fgtb O a x), (fgtb O b a); reflexivity.
  - change (increasingb O (((x :: y :: l) ++ [a]) ++ [b])) with (fgtb O y x && increasingb O (((y :: l) ++ [a]) ++ [b])).
    rewrite IH. rewrite andb_assoc. reflexivity.
Qed.
Lemma inc_rev l : increasingb O (rev l) = decreasingb O l.
Proof.
  induction l as [|a l IH]; [reflexivity|]. destruct l as [|b l]; [reflexivity|].
  change (decreasingb O (a :: b :: l)) with (fgtb O a b && decreasingb O (b :: l)). rewrite <- IH. cbn [rev]. rewrite inc_app. apply andb_comm.
Qed.
Lemma all_present_rev (l : list (option K)) r : all_present l = Some r -> all_present (rev l) = Some (rev r).
Proof.
  intros H. assert (l = map Some r) as ->. { revert r H. induction l as [|[a|] l IH]; intros r H; cbn in H; [injection H as <-; reflexivity| |discriminate]. destruct (all_present l) as [t|]; [|discriminate]. injection H as <-. cbn. rewrite (IH t); auto. }
  rewrite <- map_rev. generalize (rev r). clear. induction l as [|a l IH]; [reflexivity|]. cbn. rewrite IH. reflexivity.
Qed.
Lemma all_present_rev_none (l : list (option K)) : all_present l = None -> all_present (rev l) = None.
Proof.
  intros H. destruct (all_present (rev l)) as [r|] eqn:E; [|reflexivity]. apply all_present_rev in E. rewrite rev_involutive in E. congruence.
Qed.
Lemma inc_ends a l z : increasingb O (a :: l ++ [z]) = true -> gt z a.
Proof.
  revert a. induction l as [|b l IH]; intros a H.
  - cbn in H. destruct (fgtb O z a); auto.
  - change (increasingb O (a :: (b :: l) ++ [z])) with (fgtb O b a && increasingb O (b :: l ++ [z])) in H. apply andb_true_iff in H. destruct H as [H1 H2].
    eapply gt_trans; [apply IH; exact H2|exact H1].
Qed.
(** the call on a profile from north to south is the call on the profile from south to north *)
Theorem barot_call_reversed cs rad tiny qz u lat : length u = length lat ->
  barot_growth_rate O cs rad tiny qz (rev u) (rev lat) = barot_growth_rate O cs rad tiny qz u lat.
Proof.
  intros Hl. unfold barot_growth_rate. generalize (dbarot_growth_rate_1d O cs rad tiny qz). intros kern. destruct (all_present u) as [us|] eqn:Eu.
  2:{ rewrite all_present_rev_none by auto. reflexivity. }
  rewrite (all_present_rev _ _ Eu). destruct (all_present lat) as [la|] eqn:El.
  2:{ rewrite all_present_rev_none by auto. reflexivity. }
  rewrite (all_present_rev _ _ El). rewrite inc_rev.
  assert (D : decreasingb O (rev la) = increasingb O la) by (rewrite <- inc_rev, rev_involutive; reflexivity). rewrite D. rewrite (orb_comm (decreasingb O la) (increasingb O la)).
  destruct (increasingb O la || decreasingb O la) eqn:M; cbn [negb]; [|reflexivity].
  destruct la as [|a la]; [cbn [rev]; replace (rd (@nil K) 1) with (@None K) by reflexivity; cbn [bind]; reflexivity|].
  assert (Lus : length us = S (length la)). { assert (X : forall (A : Type) (l : list (option A)) r, all_present l = Some r -> length r = length l).
    { clear. intros A. induction l as [|[a|] l IH]; intros r H; cbn in H; [injection H as <-; reflexivity| |discriminate]. destruct (all_present l) as [t|]; [|discriminate]. injection H as <-. cbn. f_equal. apply IH. reflexivity. }
    rewrite (X _ _ _ Eu), Hl, <- (X _ _ _ El). reflexivity. }
  destruct (@exists_last _ (a :: la) ltac:(discriminate)) as [mid [z Ez]]. rewrite !rev_length.
  assert (F1 : rd (a :: la) 1 = Some a) by reflexivity. assert (F2 : rd (a :: la) (length (a :: la)) = Some z).
  { rewrite Ez, rd_nth by (rewrite app_length; cbn; lia). rewrite app_length. cbn [length]. rewrite nth_error_app2 by lia. replace (length mid + 1 - 1 - length mid) with 0 by lia. reflexivity. }
  assert (G1 : rd (rev (a :: la)) 1 = Some z) by (rewrite Ez, rev_app_distr; reflexivity).
  assert (G2 : rd (rev (a :: la)) (length (a :: la)) = Some a).
  { cbn [rev]. rewrite rd_nth by (cbn; lia). rewrite nth_error_app2 by (rewrite rev_length; cbn; lia). rewrite rev_length. cbn [length]. replace (S (length la) - 1 - length la) with 0 by lia. reflexivity. }
  rewrite F1, F2, G1, G2. cbn [bind].
  destruct la as [|b la].
  - destruct us as [|x [|y us]]; try discriminate. cbn in F2. injection F2 as <-. cbn [rev app]. change (rev (x :: nil)) with (x :: nil). change (rev (a :: nil)) with (a :: nil). destruct (fgtb O a a); reflexivity.
  - assert (E : fgtb O z a = negb (fgtb O a z)).
    { destruct mid as [|m0 mid]; [destruct la; discriminate|]. cbn [app] in Ez. injection Ez as <- Ez.
      apply orb_true_iff in M. destruct M as [M|M].
      - assert (X : gt z a) by (rewrite Ez in M; apply (inc_ends a mid z); exact M). rewrite X. destruct (fgtb O a z) eqn:Y; [|reflexivity]. destruct (gt_irrefl _ (gt_trans _ _ _ X Y)).
      - rewrite <- inc_rev in M. rewrite Ez in M. cbn [rev] in M. rewrite rev_app_distr in M. cbn [rev app] in M.
        assert (X : gt a z) by (apply (inc_ends z (rev mid) a); exact M). rewrite X. cbn [negb]. destruct (fgtb O z a) eqn:Y; [|reflexivity]. destruct (gt_irrefl _ (gt_trans _ _ _ X Y)). }
    rewrite E. destruct (fgtb O a z); cbn [negb]; rewrite ?rev_involutive; reflexivity.
Qed.
End Barot.
Lemma Q_total a b : fleb Qops a b = true \/ fleb Qops b a = true.
Proof. cbn. destruct (Qcleb_spec a b); [auto|right]. destruct (Qcleb_spec b a); [auto|exfalso; qclra]. Qed.
Lemma Q_trans a b c : fleb Qops a b = true -> fleb Qops b c = true -> fleb Qops a c = true.
Proof. cbn. destruct (Qcleb_spec a b); [|discriminate]. destruct (Qcleb_spec b c); [|discriminate]. intros _ _. destruct (Qcleb_spec a c); [auto|exfalso; qclra]. Qed.
(** with a solver that returns one growing mode of rate 5 at every wavenumber *)
Example barot_call_case : let qz_ (_ _ : list (list Qc)) := Some ((qz 0, qz 5, qz 1) :: nil) in
  let lat := [Some (qz 50); Some (qz 40); Some (qz 30); Some (qz 20)] in let u := [Some (qz 1); Some (qz 2); Some (qz 4); Some (qz 3)] in
  match barot_growth_rate Qops (fun _ => qz 1) (qz 1) (qz 0) qz_ u lat with Some (Returns (Some g)) => Qceqb g (qz 5) | _ => false end = true.
Proof. vm_compute. reflexivity. Qed.
Print Assumptions barot_call_reversed.
Print Assumptions batch_is_single_partial.
Print Assumptions baroc_kernel_codes.
Print Assumptions one_bad_profile_refuted.
Print Assumptions mixed_units_refuted.
Print Assumptions negative_tropopause_refuted.
Print Assumptions cold_without_tropopause_refuted.
Print Assumptions single_kernel_inputs.
