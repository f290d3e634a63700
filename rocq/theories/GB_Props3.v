(** C73: interpolation to the solver grid. *)
From Verif Require Import Base Buffer Loops VH_Model I2P_Model I2P_Spec I2P_Proofs I2P_Proofs2 I2P_Props GB_Model GB_Spec2 GB_Interp.
Local Open Scope nat_scope.
Local Opaque spvl.

(** every call reads inside its arrays, and each outcome happens exactly in its situation *)
Theorem interp_codes lg source values target kind : length values = length source ->
  exists r, interp_no_extrap lg source values target kind = Some r /\
    (r = inr 1%Z <-> ~ usable_source source) /\
    (r = inr 2%Z <-> usable_source source /\ ~ rises target) /\
    (r = inr 3%Z <-> usable_source source /\ rises target /\ kind = 2%Z /\ ~ (positive source /\ positive target)) /\
    (r = inr 4%Z <-> usable_source source /\ rises target /\ (kind = 2%Z -> positive source /\ positive target) /\ exists t, In t target /\ outside source t) /\
    ((exists out, r = inl out) <-> usable_source source /\ rises target /\ (kind = 2%Z -> positive source /\ positive target) /\ forall t, In t target -> ~ outside source t).
Proof.
  intros Hl. destruct (interp_cases lg source values target kind Hl) as [[N E]|[[U [T E]]|[[U [T [K [P E]]]]|[U [T [P [r [E R]]]]]]]]; rewrite E.
  - exists (inr 1%Z). split; [reflexivity|]. split; [tauto|]. do 3 (split; [split; [discriminate|tauto]|]). split; [intros [o X]; discriminate|tauto].
  - exists (inr 2%Z). split; [reflexivity|]. split; [split; [discriminate|tauto]|]. split; [tauto|]. do 2 (split; [split; [discriminate|tauto]|]). split; [intros [o X]; discriminate|tauto].
  - exists (inr 3%Z). split; [reflexivity|]. do 2 (split; [split; [discriminate|tauto]|]). split; [tauto|].
    split; [split; [discriminate|]|split; [intros [o X]; discriminate|]]; intros [_ [_ [X _]]]; destruct (P (X K)).
  - exists r. split; [reflexivity|]. destruct r as [out|e].
    + destruct R as [_ R]. split; [split; [discriminate|tauto]|]. split; [split; [discriminate|tauto]|]. split; [split; [discriminate|tauto]|].
      split; [split; [discriminate|]|]; [intros [_ [_ [_ [t [A B]]]]]; destruct (R t A B)|]. split; [auto|eauto].
    + destruct R as [-> R]. split; [split; [discriminate|tauto]|]. split; [split; [discriminate|tauto]|]. split; [split; [discriminate|tauto]|].
      split; [split; auto|]. split; [intros [o X]; discriminate|]. intros [_ [_ [_ X]]]. destruct R as [t [A B]]. destruct (X t A B).
Qed.
(** the values lie on the broken line through the samples, in pressure (kind 1) or in its logarithm *)
Theorem interp_values lg source values target kind out : length values = length source ->
  interp_no_extrap lg source values target kind = Some (inl out) -> length out = length target /\
  forall j t x, nth_error target j = Some t -> nth_error out j = Some x ->
    broken_line (sample source values) (if (kind =? 1)%Z then (fun q => q) else lg) t x.
Proof.
  intros Hl. destruct (interp_cases lg source values target kind Hl) as [[N E]|[[U [T E]]|[[U [T [K [P E]]]]|[U [T [P [r [E R]]]]]]]]; rewrite E; intros X; try discriminate.
  injection X as ->. destruct R as [F _]. fold (coordinate lg kind). clear - F. induction F as [|t x l l' H F [L G]]; [split; auto; intros [|j] t x A; discriminate|].
  split; [cbn; auto|]. intros [|j] t' x' A B; cbn in A, B; [injection A as <-; injection B as <-; auto|eauto].
Qed.
(** the order in which the source is stored does not matter *)
Theorem interp_source_reversed lg source values target kind : length values = length source ->
  interp_no_extrap lg (rev source) (rev values) target kind = interp_no_extrap lg source values target kind.
Proof.
  intros Hl. assert (Hr : length (rev values) = length (rev source)) by (rewrite !rev_length; auto).
  assert (UU : usable_source (rev source) <-> usable_source source).
  { unfold usable_source. rewrite rev_length, (falls_rev (rev source)), rev_involutive, (falls_rev source). tauto. }
  destruct (interp_cases lg source values target kind Hl) as [[N E]|A].
  { destruct (interp_cases lg (rev source) (rev values) target kind Hr) as [[N' E']|A']; [congruence|]. exfalso. apply N, UU. decompose [or and] A'; auto. }
  assert (U : usable_source source) by (decompose [or and] A; auto). clear A.
  unfold interp_no_extrap. rewrite rev_length. destruct U as [L D]. destruct (Nat.ltb_spec (length source) 2); [lia|].
  destruct (rd_in _ source 1 ltac:(lia)) as [a Ha]. destruct (rd_in _ source (length source) ltac:(lia)) as [b Hb].
  assert (Ra : rd (rev source) 1 = Some b /\ rd (rev source) (length source) = Some a).
  { rewrite rd_nth in Ha, Hb by lia. rewrite (rd_nth _ _ 1), (rd_nth _ _ (length source)) by lia. assert (G : forall i, i < length source -> nth_error (rev source) i = nth_error source (length source - S i)).
    { intros i Hi. rewrite (nth_error_nth' _ a) by (rewrite rev_length; auto). rewrite (nth_error_nth' source a) by lia. rewrite rev_nth by auto. reflexivity. }
    rewrite !G by lia. replace (length source - S (1 - 1)) with (length source - 1) by lia. replace (length source - S (length source - 1)) with (1 - 1) by lia. auto. }
  destruct Ra as [-> ->]. rewrite Ha, Hb. cbn [bind]. rewrite !rev_involutive.
  assert (AB : (a < b)%Qc \/ (b < a)%Qc).
  { rewrite rd_nth in Ha, Hb by lia. destruct D as [D|D]; [left|right]; apply (D 0 (length source - 1)); auto; lia. }
  destruct (Qcltb_spec a b), (Qcltb_spec b a); try reflexivity; exfalso; destruct AB; qclra.
Qed.
(** the values stay within the range of the samples *)
Theorem interp_within lg source values target kind out lo hi : length values = length source ->
  kind = 1%Z \/ (kind = 2%Z /\ increasing_on_positive lg) ->
  interp_no_extrap lg source values target kind = Some (inl out) ->
  (forall v, In v values -> (lo <= v)%Qc /\ (v <= hi)%Qc) -> forall x, In x out -> (lo <= x)%Qc /\ (x <= hi)%Qc.
Proof.
  intros Hl HK E HV x Hx. destruct (interp_values _ _ _ _ _ _ Hl E) as [Lo H].
  destruct (interp_codes lg source values target kind Hl) as [r [E' [_ [_ [_ [_ C]]]]]]. rewrite E in E'. injection E' as <-.
  destruct (proj1 C (ex_intro _ out eq_refl)) as [_ [_ [Pos _]]]. clear C.
  apply In_nth_error in Hx. destruct Hx as [j Hj]. assert (j < length target) by (rewrite <- Lo; apply nth_error_Some; congruence).
  destruct (nth_error target j) as [t|] eqn:Et; [|apply nth_error_None in Et; lia]. specialize (H j t x Et Hj).
  assert (SV : forall q y, sample source values q y -> In y values) by (intros q y [i [_ A]]; eapply nth_error_In; eauto).
  assert (SP : forall q y, sample source values q y -> In q source) by (intros q y [i [A _]]; eapply nth_error_In; eauto).
  destruct H as [H|[p0 [x0 [p1 [x1 [[N0 [N1 _]] [A [B ->]]]]]]]]; [apply HV; eauto|].
  set (c := if (kind =? 1)%Z then (fun q => q) else lg).
  assert (Cc : (c p1 < c t)%Qc /\ (c t < c p0)%Qc).
  { unfold c. destruct HK as [->|[-> I]]; [cbn; auto|]. cbn. destruct (Pos eq_refl) as [P1 P2]. split; apply I; auto; [apply P1; eauto|apply P2; eapply nth_error_In; eauto]. }
  destruct (on_line_weight c p0 x0 p1 x1 t (proj1 Cc) (proj2 Cc)) as [w [W0 [W1 ->]]].
  destruct (HV x0 (SV _ _ N0)) as [a0 b0]. destruct (HV x1 (SV _ _ N1)) as [a1 b1]. split.
  - assert (X : (0 <= w * (x0 - lo))%Qc) by (apply Qcmul_nonneg; qclra). assert (Y : (0 <= (1 - w) * (x1 - lo))%Qc) by (apply Qcmul_nonneg; qclra).
    assert (Z : (w * x0 + (1 - w) * x1 - lo = w * (x0 - lo) + (1 - w) * (x1 - lo))%Qc) by ring. qclra.
  - assert (X : (0 <= w * (hi - x0))%Qc) by (apply Qcmul_nonneg; qclra). assert (Y : (0 <= (1 - w) * (hi - x1))%Qc) by (apply Qcmul_nonneg; qclra).
    assert (Z : (hi - (w * x0 + (1 - w) * x1) = w * (hi - x0) + (1 - w) * (hi - x1))%Qc) by ring. qclra.
Qed.

(** ** Agreement with interp_pressure_1d *)
Lemma level_sample s v p x : level None (map Some s) (map Some v) p x <-> sample s v p x.
Proof.
  unfold level, sample. split.
  - intros [i [A [B _]]]. exists i. rewrite nth_error_map in A, B. destruct (nth_error s i); [|discriminate]. destruct (nth_error v i); [|discriminate]. cbn in *. split; congruence.
  - intros [i [A B]]. exists i. rewrite !nth_error_map, A, B. split; [reflexivity|]. split; [reflexivity|].
    split; intros [X|[m [X _]]]; discriminate.
Qed.
Lemma levels_all s : forall v, length v = length s -> levels None (map Some s) (map Some v) = combine s v.
Proof. induction s as [|a s IH]; intros [|b v] H; try discriminate; [reflexivity|]. injection H as H. cbn. rewrite IH by auto. reflexivity. Qed.
Lemma targets_all l : targets None (map Some l) = l.
Proof. induction l as [|a l IH]; [reflexivity|]. cbn. rewrite IH. reflexivity. Qed.
Lemma map_fst_combine (s v : list Qc) : length v = length s -> map fst (combine s v) = s.
Proof. revert v. induction s as [|a s IH]; intros [|b v] H; try discriminate; [reflexivity|]. cbn. rewrite IH; auto. Qed.
Definition small (l : list Qc) : Prop := forall q, In q l -> (q < spvl)%Qc.
Lemma small_below l : small l -> all_below spvl (map Some l).
Proof. intros H q Hq. apply in_map_iff in Hq. destruct Hq as [y [E Hy]]. injection E as ->. auto. Qed.
Lemma complete_visible s v : length v = length s -> usable_source s -> order_visible None (map Some s) (map Some v).
Proof.
  intros Hl [L D]. apply int2p_complete_pressures_visible.
  - rewrite !map_length. auto.
  - intros a Ha. apply in_map_iff in Ha. destruct Ha as [q [<- _]]. intros [X|[m [X _]]]; discriminate.
  - assert (G : forall i a, nth_error (map Some s) i = Some (Some a) -> nth_error s i = Some a) by (intros i a H; rewrite nth_error_map in H; destruct (nth_error s i); cbn in H; congruence).
    destruct D as [D|D]; [left|right]; intros i j a b Hij Ha Hb; apply (D i j); auto.
  - destruct s as [|p0 [|p1 s]]; cbn in L; try lia. destruct v as [|x0 [|x1 v]]; try discriminate.
    exists 0, 1, p0, x0, p1, x1. cbn. repeat split; auto; intros [X|[m [X _]]]; discriminate.
Qed.
Lemma one_call lg source values target log : length values = length source -> target <> [] ->
  small source -> small values -> small target -> (log = true -> increasing_on_positive lg) ->
  usable_source source -> rises target -> (log = true -> positive source /\ positive target) ->
  exists out, interp_pressure_1d lg (map Some values) (map Some source) (map Some target) log false None = Some out /\
    Forall2 (fun t o => forall x, broken_line (sample source values) (if log then lg else (fun q => q)) t x -> (x < spvl)%Qc -> o = Some x) target out /\
    Forall2 (fun t o => outside source t -> o = None) target out.
Proof.
  intros Hl Ht S1 S2 S3 HG U T P.
  assert (Lm : length (map Some values) = length (map Some source)) by (rewrite !map_length; auto).
  assert (Ht' : map Some target <> []) by (destruct target; [contradiction|discriminate]).
  assert (A : accepted (map fst (levels None (map Some source) (map Some values))) (targets None (map Some target)) log = true).
  { rewrite levels_all, targets_all by auto. rewrite map_fst_combine by auto. unfold accepted.
    assert (Hm : strict_monotonic source = true) by (apply strict_monotonic_iff; rewrite <- rises_SS, <- falls_SS; destruct U; auto).
    assert (Hm' : strict_monotonic target = true) by (apply strict_monotonic_iff; rewrite <- rises_SS; auto).
    rewrite Hm, Hm'. destruct (Nat.ltb_spec (length source) 2); [destruct U; lia|]. cbn [negb andb]. destruct log; [|reflexivity]. destruct (P eq_refl) as [P1 P2].
    assert (F : forall l, positive l -> forallb (Qcltb 0%Qc) l = true) by (intros l Hp; apply forallb_forall; intros q Hq; apply ltb_iff; auto).
    rewrite !F by auto. reflexivity. }
  destruct (wrapper_ok lg (map Some values) (map Some source) (map Some target) log false None) as [out [E G]]; auto using small_below, complete_visible.
  exists out. split; [exact E|]. destruct (levels_one_value _ _ _ _ _ A) as [One Ex].
  set (c := if log then lg else (fun q : Qc => q)) in *. set (low := if log then low_log lg else on_line (fun p : Qc => p)) in *.
  assert (G' : Forall2 (fun t o => exists r, pvalue (sample source values) c false low t r /\ o = finish None r) target out).
  { clear - G. remember (map Some target) as tt eqn:Et. revert target Et. induction G as [|t o l l' H G IH]; intros [|t0 target] Et; try discriminate; constructor.
    - cbn in Et. injection Et as -> Et. destruct H as [_ H]. destruct (H eq_refl t0 eq_refl) as [r [Hr ->]]. exists r. split; auto. eapply pvalue_ext; [|exact Hr]. intros; apply level_sample.
    - cbn in Et. injection Et as _ ->. apply IH. reflexivity. }
  assert (One' : one_value (sample source values)) by (intros p x x' X Y; apply (One p); apply level_sample; auto).
  assert (Ex' : exists p x, sample source values p x) by (destruct Ex as [p [x X]]; exists p, x; apply level_sample; auto).
  clear - G' One' Ex' Hl. split.
  - induction G' as [|t o l l' [r [Hr ->]] _ IH]; constructor; auto. intros x Hx Sx.
    assert (Hv : pvalue (sample source values) c false low t (Some x)).
    { destruct Hx as [Hx|[p0 [x0 [p1 [x1 [N [B1 [B2 ->]]]]]]]]; [apply pv_level; auto|apply pv_between; auto]. }
    rewrite (pvalue_unique _ _ _ _ _ _ _ One' Ex' Hr Hv). cbn. destruct (Qceqb_spec x spvl) as [->|]; [exfalso; qclra|reflexivity].
  - induction G' as [|t o l l' [r [Hr ->]] _ IH]; constructor; auto. intros Ho.
    assert (Hv : pvalue (sample source values) c false low t None).
    { apply pv_outside; auto. destruct Ho as [Ho|Ho]; [right|left]; intros p x [i [Hp _]]; apply Ho; eapply nth_error_In; eauto. }
    rewrite (pvalue_unique _ _ _ _ _ _ _ One' Ex' Hr Hv). reflexivity.
Qed.
Lemma zip_out (P : Qc -> Qc -> Prop) ts o : Forall2 (fun t o => forall x, P t x -> (x < spvl)%Qc -> o = Some x) ts o ->
  forall out, length out = length ts -> (forall j t x, nth_error ts j = Some t -> nth_error out j = Some x -> P t x) ->
  (forall x, In x out -> (x < spvl)%Qc) -> o = map Some out.
Proof.
  induction 1 as [|t o' l l' Hh V IH]; intros [|x out] L H B; try discriminate; [reflexivity|]. cbn. f_equal.
  - apply Hh; [apply (H 0); reflexivity|apply B; left; auto].
  - apply IH; [injection L; auto|intros j; apply (H (S j))|intros y Hy; apply B; right; auto].
Qed.
(** the kernel used for stacks and interp_pressure_1d used for one profile give the same
    numbers; where the kernel fails with 4 the other returns NaN *)
Theorem interp_agrees lg source values target (log : bool) : length values = length source ->
  small source -> small values -> small target -> (log = true -> increasing_on_positive lg) ->
  let kind := (if log then 2 else 1)%Z in
  let one := interp_pressure_1d lg (map Some values) (map Some source) (map Some target) log false None in
  (forall out, interp_no_extrap lg source values target kind = Some (inl out) -> one = Some (map Some out)) /\
  (interp_no_extrap lg source values target kind = Some (inr 4%Z) -> exists out, one = Some out /\ In None out) /\
  (interp_no_extrap lg source values target kind = Some (inr 1%Z) \/ interp_no_extrap lg source values target kind = Some (inr 3%Z) -> target <> [] -> one = None).
Proof.
  intros Hl S1 S2 S3 HG kind one.
  assert (HK : kind = 1%Z \/ (kind = 2%Z /\ increasing_on_positive lg)) by (unfold kind; destruct log; auto).
  assert (Kl : (if (kind =? 1)%Z then (fun q : Qc => q) else lg) = (if log then lg else (fun q => q))) by (unfold kind; destruct log; reflexivity).
  assert (Kp : kind = 2%Z <-> log = true) by (unfold kind; destruct log; split; congruence).
  destruct (interp_codes lg source values target kind Hl) as [r [Er [C1 [C2 [C3 [C4 C5]]]]]]. rewrite Er. split; [|split].
  - intros out E. injection E as ->. destruct (proj1 C5 (ex_intro _ out eq_refl)) as [U [T [P No]]].
    destruct target as [|t0 target]; [destruct (interp_values _ _ _ _ _ _ Hl Er) as [L _]; destruct out; [|discriminate]; unfold one, interp_pressure_1d; rewrite !map_length, Hl, Nat.eqb_refl; reflexivity|].
    destruct (one_call lg source values (t0 :: target) log Hl ltac:(discriminate) S1 S2 S3 HG U T) as [o [Eo [V _]]]; [intros X; apply P, Kp; auto|].
    unfold one. rewrite Eo. f_equal. destruct (interp_values _ _ _ _ _ _ Hl Er) as [L H]. rewrite Kl in H.
    assert (B : forall x, In x out -> (x < spvl)%Qc).
    { destruct values as [|v0 vs]; [destruct source; [destruct U; cbn in *; lia|discriminate]|].
      assert (M : forall l : list Qc, l <> [] -> (forall v, In v l -> (v < spvl)%Qc) -> exists lo hi, (hi < spvl)%Qc /\ forall v, In v l -> (lo <= v)%Qc /\ (v <= hi)%Qc).
      { clear. induction l as [|a l IH]; [congruence|]. intros _ H. destruct l as [|b l].
        - exists a, a. split; [apply H; left; auto|]. intros v [<-|[]]. split; qclra.
        - destruct IH as [lo [hi [A B]]]; [discriminate|intros v Hv; apply H; right; auto|].
          assert (Ha := H a (or_introl eq_refl)).
          exists (if Qcleb a lo then a else lo), (if Qcleb a hi then hi else a).
          destruct (Qcleb_spec a lo), (Qcleb_spec a hi); (split; [auto|]); intros v [<-|Hv]; try (destruct (B v Hv); split; qclra); split; qclra. }
      destruct (M (v0 :: vs) ltac:(discriminate) S2) as [lo [hi [A M']]].
      intros x Hx. destruct (interp_within lg source (v0 :: vs) (t0 :: target) kind out lo hi Hl HK Er M' x Hx). qclra. }
    exact (zip_out _ _ _ V out L H B).
  - intros E. injection E as ->. destruct (proj1 C4 eq_refl) as [U [T [P [t [It Ot]]]]].
    destruct target as [|t0 target]; [destruct It|].
    destruct (one_call lg source values (t0 :: target) log Hl ltac:(discriminate) S1 S2 S3 HG U T) as [o [Eo [_ V]]]; [intros X; apply P, Kp; auto|].
    exists o. split; [exact Eo|]. clear - V It Ot. induction V as [|t' o' l l' Hh V IH]; [destruct It|]. destruct It as [->|It]; [left; apply Hh, Ot|right; auto].
  - intros E Ht. assert (Ht' : map Some target <> []) by (destruct target; [contradiction|discriminate]).
    unfold one. rewrite wrapper_unfold by (rewrite ?map_length; auto). rewrite levels_all, targets_all by auto. rewrite map_fst_combine by auto. unfold accepted.
    destruct E as [E|E]; injection E as ->.
    + assert (NU := proj1 C1 eq_refl). destruct (Nat.ltb_spec (length source) 2); [reflexivity|]. cbn [negb andb].
      destruct (strict_monotonic source) eqn:M; [|reflexivity]. exfalso. apply NU. split; auto. apply strict_monotonic_iff in M. rewrite <- rises_SS, <- falls_SS in M. auto.
    + destruct (proj1 C3 eq_refl) as [U [T [K NP]]]. apply Kp in K. rewrite K. cbn [andb].
      assert (forallb (Qcltb 0%Qc) source && forallb (Qcltb 0%Qc) target = false) as ->; [|rewrite !andb_false_r; reflexivity].
      destruct (forallb (Qcltb 0%Qc) source && forallb (Qcltb 0%Qc) target) eqn:F; auto. exfalso. apply NP. apply andb_true_iff in F. rewrite !forallb_forall in F. destruct F as [F1 F2].
      split; intros q Hq; apply ltb_iff; auto.
Qed.

Example interp_case : let s := [qz 100; qz 50; qz 20] in let v := [qz 1; qz 2; qz 8] in
  usable_source s /\ small s /\ small v /\
  interp_no_extrap (fun q => q) s v [qz 20; qz 30; qz 75] 1 = Some (inl [qz 8; qz 6; qz 3 / qz 2]%Qc) /\
  interp_no_extrap (fun q => q) s v [qz 10; qz 30] 1 = Some (inr 4%Z).
Proof.
  cbv zeta. split; [split; [cbn; lia|right]|]; [|split; [|split; [|split]]].
  - intros i j a b Hij Ha Hb. destruct i as [|[|[|i]]], j as [|[|[|j]]]; cbn in Ha, Hb; try lia; try discriminate; try (destruct j; discriminate); try (destruct i; discriminate);
      injection Ha as <-; injection Hb as <-; reflexivity.
  - intros q Hq. cbn in Hq. destruct Hq as [<-|[<-|[<-|[]]]]; reflexivity.
  - intros q Hq. cbn in Hq. destruct Hq as [<-|[<-|[<-|[]]]]; reflexivity.
  - vm_compute. reflexivity.
  - reflexivity.
Qed.
Print Assumptions interp_codes.
Print Assumptions interp_values.
Print Assumptions interp_source_reversed.
Print Assumptions interp_within.
Print Assumptions interp_agrees.
