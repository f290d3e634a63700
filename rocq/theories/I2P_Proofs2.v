(** Proofs about the Python wrapper of pressure interpolation. *)
From Verif Require Import Base Buffer Loops I2P_Model I2P_Spec I2P_Proofs.
Local Open Scope nat_scope.

Local Opaque spvl.

(** the usable levels in storage order *)
Fixpoint levels (mv : option Qc) (src data : list (option Qc)) : list (Qc * Qc) :=
  match src, data with
  | sp :: s, dx :: d =>
      if masked mv dx || masked mv sp then levels mv s d
      else match sp, dx with Some p, Some x => (p, x) :: levels mv s d | _, _ => levels mv s d end
  | _, _ => []
  end.
Fixpoint targets (mv : option Qc) (tgt : list (option Qc)) : list Qc :=
  match tgt with
  | v :: r => if masked mv v then targets mv r else match v with Some q => q :: targets mv r | None => targets mv r end
  | [] => []
  end.

Lemma masked_iff mv v : masked mv v = true <-> is_missing mv v.
Proof.
  unfold masked, is_missing. destruct v as [q|].
  - destruct mv as [m|].
    + destruct (Qceqb_spec q m) as [->|N]; split; try discriminate; auto.
      * right. exists m; auto.
      * intros [E|[k [E1 E2]]]; [discriminate|]. exfalso. apply N. congruence.
    + split; [discriminate|]. intros [E|[k [E1 E2]]]; discriminate.
  - split; auto.
Qed.
Lemma masked_false mv v : masked mv v = false <-> ~ is_missing mv v.
Proof. rewrite <- masked_iff. destruct (masked mv v); split; intros; auto; try discriminate. exfalso; auto. Qed.
Lemma masked_none mv : masked mv None = true. Proof. reflexivity. Qed.

Lemma keep_source mv : forall data src, length data = length src ->
  finite (keep (map (fun '(d, p) => masked mv d || masked mv p) (combine data src)) src) = map fst (levels mv src data).
Proof.
  induction data as [|d data IH]; intros [|s src] H; try discriminate; [reflexivity|].
  cbn [combine map keep levels]. assert (IH' := IH src ltac:(simpl in H; lia)).
  destruct (masked mv d || masked mv s) eqn:E; [exact IH'|].
  destruct s as [p|]; destruct d as [x|]; cbn [finite map fst]; try rewrite IH'; auto;
    exfalso; simpl in E; rewrite ?orb_true_r in E; discriminate.
Qed.
Lemma keep_target mv tgt : finite (keep (map (masked mv) tgt) tgt) = targets mv tgt.
Proof.
  induction tgt as [|v tgt IH]; [reflexivity|]. cbn [map keep targets]. destruct (masked mv v); auto.
  destruct v; cbn [finite]; rewrite IH; reflexivity.
Qed.

Lemma levels_in mv : forall src data p x, In (p, x) (levels mv src data) <-> level mv src data p x.
Proof.
  intros src data p x. unfold level. revert data. induction src as [|s src IH]; intros data.
  - simpl. split; [intros []|]. intros [i [H _]]. destruct i; discriminate.
  - destruct data as [|d data]. { simpl. split; [intros []|]. intros [i [_ [H _]]]. destruct i; discriminate. }
    cbn [levels].
    assert (R : (exists i, nth_error src i = Some (Some p) /\ nth_error data i = Some (Some x) /\ ~ is_missing mv (Some p) /\ ~ is_missing mv (Some x))
                \/ (s = Some p /\ d = Some x /\ ~ is_missing mv (Some p) /\ ~ is_missing mv (Some x)) <->
                (exists i, nth_error (s :: src) i = Some (Some p) /\ nth_error (d :: data) i = Some (Some x) /\ ~ is_missing mv (Some p) /\ ~ is_missing mv (Some x))).
    { split.
      - intros [[i H]|[-> [-> H]]]; [exists (S i); exact H|exists 0; simpl; auto].
      - intros [[|i] H]; [right|left; exists i; exact H]. simpl in H. destruct H as [A [B C]]. repeat split; try congruence; apply C. }
    rewrite <- R, <- IH. destruct (masked mv d || masked mv s) eqn:E.
    + split; [tauto|]. intros [H|[-> [-> [H1 H2]]]]; auto. exfalso.
      apply masked_false in H1, H2. rewrite H1, H2 in E. discriminate.
    + apply orb_false_iff in E. destruct E as [E1 E2].
      destruct s as [ps|]; [|discriminate]. destruct d as [xs|]; [|discriminate].
      apply masked_false in E1, E2. simpl. split.
      * intros [H|H]; auto. right. injection H as -> ->. auto.
      * intros [H|[H1 [H2 _]]]; auto. left. congruence.
Qed.

Lemma spvl_pairs mv : forall src data, length data = length src ->
  all_below spvl src -> all_below spvl data ->
  valid_pairs (with_spvl mv src) (with_spvl mv data) spvl = levels mv src data.
Proof.
  induction src as [|s src IH]; intros [|d data] H Hs Hd; try discriminate; [reflexivity|].
  assert (IH' : valid_pairs (with_spvl mv src) (with_spvl mv data) spvl = levels mv src data).
  { apply IH; [simpl in H; lia| |]; intros q Hq; [apply Hs|apply Hd]; right; auto. }
  unfold valid_pairs in *. cbn [with_spvl map combine filter levels].
  change (map _ src) with (with_spvl mv src). change (map _ data) with (with_spvl mv data).
  destruct (masked mv s) eqn:Es.
  { rewrite orb_true_r. destruct (Qceqb_spec spvl spvl) as [_|N]; [|contradiction]. simpl. exact IH'. }
  destruct (masked mv d) eqn:Ed.
  { destruct (Qceqb_spec spvl spvl) as [_|N]; [|contradiction]. rewrite andb_false_r. exact IH'. }
  destruct s as [p|]; [|discriminate]. destruct d as [x|]; [|discriminate]. cbn [orb].
  assert (p < spvl)%Qc by (apply Hs; left; auto). assert (x < spvl)%Qc by (apply Hd; left; auto).
  destruct (Qceqb_spec p spvl) as [->|_]; [exfalso; qclra|].
  destruct (Qceqb_spec x spvl) as [->|_]; [exfalso; qclra|]. cbn [negb andb]. rewrite IH'. reflexivity.
Qed.

(** ** Monotonicity test *)
Lemma diffs_all_SS (ok : Qc -> Qc -> bool) (R : Qc -> Qc -> Prop) :
  (forall a b, ok a b = true <-> R a b) -> (forall a b c, R a b -> R b c -> R a c) ->
  forall l, diffs_all ok l = true <-> StronglySorted R l.
Proof.
  intros Hr Ht l. split.
  - intros H. apply Sorted_StronglySorted; [exact Ht|].
    induction l as [|a l IH]; constructor.
    + apply IH. destruct l as [|b l']; [reflexivity|]. cbn [diffs_all] in H. apply andb_true_iff in H. apply H.
    + destruct l as [|b l']; constructor. cbn [diffs_all] in H. apply andb_true_iff in H. apply Hr. apply H.
  - induction 1 as [|a l Hs IH Hf]; [reflexivity|]. destruct l as [|b l']; [reflexivity|].
    cbn [diffs_all]. apply andb_true_iff. split; [|exact IH]. apply Hr. inversion Hf; auto.
Qed.
Definition upl (l : list Qc) := StronglySorted (fun a b => (a < b)%Qc) l.
Definition dnl (l : list Qc) := StronglySorted (fun a b => (b < a)%Qc) l.
Lemma ltb_iff a b : Qcltb a b = true <-> (a < b)%Qc.
Proof. destruct (Qcltb_spec a b); split; auto; try discriminate; intros; contradiction. Qed.
Lemma strict_monotonic_iff l : strict_monotonic l = true <-> upl l \/ dnl l.
Proof.
  unfold strict_monotonic. rewrite orb_true_iff.
  rewrite (diffs_all_SS Qcltb (fun a b => (a < b)%Qc)); [|apply ltb_iff|intros; qclra].
  rewrite (diffs_all_SS (fun a b => Qcltb b a) (fun a b => (b < a)%Qc)); [|intros; apply ltb_iff|intros; qclra].
  reflexivity.
Qed.
Lemma SS_map (A B : Type) (R : B -> B -> Prop) (f : A -> B) l :
  StronglySorted R (map f l) <-> StronglySorted (fun a b => R (f a) (f b)) l.
Proof.
  induction l as [|a l IH]; simpl; split; intros H; constructor; inversion H; subst; try (apply IH; auto).
  - rewrite Forall_forall in *. intros x Hx. apply H3. apply in_map; auto.
  - rewrite Forall_forall in *. intros x Hx. apply in_map_iff in Hx. destruct Hx as [y [<- Hy]]. auto.
Qed.
Lemma mono_levels F : strict_monotonic (map fst F) = true <-> asc F \/ dsc F.
Proof. rewrite strict_monotonic_iff. unfold upl, dnl. rewrite !SS_map. reflexivity. Qed.
Lemma SS_rev_iff (A : Type) (R : A -> A -> Prop) l :
  StronglySorted R (rev l) <-> StronglySorted (fun a b => R b a) l.
Proof.
  split; intros H.
  - apply SS_rev in H. rewrite rev_involutive in H. exact H.
  - apply SS_rev in H. exact H.
Qed.
Lemma strict_monotonic_rev l : strict_monotonic (rev l) = strict_monotonic l.
Proof.
  apply eq_true_iff_eq. rewrite !strict_monotonic_iff. unfold upl, dnl. rewrite !SS_rev_iff. tauto.
Qed.
Lemma asc_not_dsc F : 2 <= length F -> asc F -> dsc F -> False.
Proof.
  intros H A D. destruct F as [|a [|b F]]; simpl in H; try lia.
  inversion A; subst. inversion D; subst. inversion H3; subst. inversion H5; subst. qclra.
Qed.

(** levels in terms of positions *)
Lemma levels_positions mv : forall src data k p x, nth_error (levels mv src data) k = Some (p, x) ->
  exists i, nth_error src i = Some (Some p) /\ nth_error data i = Some (Some x) /\
    ~ is_missing mv (Some p) /\ ~ is_missing mv (Some x).
Proof.
  intros. apply levels_in. eapply nth_error_In; eauto.
Qed.
Lemma usable_by_SS R mv : forall src data, length data = length src ->
  (usable_by R mv src data <-> StronglySorted (fun a b => R (fst a) (fst b)) (levels mv src data)).
Proof.
  induction src as [|s src IH]; intros [|d data] H; try discriminate.
  - split; intros _; [constructor|]. intros i j p p' x x' _ E. destruct i; discriminate.
  - cbn [levels]. assert (IH' := IH data ltac:(simpl in H; lia)).
    assert (Hd : usable_by R mv (s :: src) (d :: data) <->
      usable_by R mv src data /\ forall p x, s = Some p -> d = Some x -> ~ is_missing mv (Some p) -> ~ is_missing mv (Some x) ->
        forall p' x', level mv src data p' x' -> R p p').
    { split.
      - intros U. split.
        + intros i j p p' x x' Hij. intros. apply (U (S i) (S j) p p' x x'); auto. lia.
        + intros p x -> -> Hp Hx p' x' [j [A [B [C D]]]]. apply (U 0 (S j) p p' x x'); auto. lia.
      - intros [U V] i j p p' x x' Hij A B C D. intros. destruct j; [lia|]. simpl in C, D.
        destruct i; simpl in A, B.
        + apply (V p x) with (x' := x'); auto; try congruence. exists j. auto.
        + apply (U i j p p' x x'); auto. lia. }
    rewrite Hd, IH'. clear Hd IH IH'. destruct (masked mv d || masked mv s) eqn:E.
    + split; [tauto|]. intros A. split; auto. intros p x -> -> Hp Hx. exfalso.
      apply masked_false in Hp, Hx. rewrite Hp, Hx in E. discriminate.
    + apply orb_false_iff in E. destruct E as [E1 E2].
      destruct s as [ps|]; [|discriminate]. destruct d as [xs|]; [|discriminate].
      apply masked_false in E1, E2. split.
      * intros [A V]. constructor; auto. apply Forall_forall. intros [p' x'] Hp'. simpl.
        apply (V ps xs) with (x' := x'); auto. apply levels_in. auto.
      * intros A. inversion A; subst. split; auto. intros p x Ep Ex Hp Hx p' x' L. injection Ep as <-.
        rewrite Forall_forall in H3. apply levels_in in L. apply (H3 (p', x') L).
Qed.

Lemma usable_up_asc mv src data : length data = length src -> (usable_up mv src data <-> asc (levels mv src data)).
Proof. apply usable_by_SS. Qed.
Lemma usable_down_dsc mv src data : length data = length src -> (usable_down mv src data <-> dsc (levels mv src data)).
Proof. apply (usable_by_SS (fun a b => (b < a)%Qc)). Qed.
Lemma two_usable_length mv : forall src data, length data = length src ->
  (two_usable mv src data <-> 2 <= length (levels mv src data)).
Proof.
  induction src as [|s src IH]; intros [|d data] H; try discriminate.
  - split; simpl; [|lia]. intros [i [j [p [p' [x [x' [_ [E _]]]]]]]]. destruct i; discriminate.
  - assert (IH' := IH data ltac:(simpl in H; lia)). cbn [levels].
    assert (Hd : two_usable mv (s :: src) (d :: data) <->
      two_usable mv src data \/ ((exists p x, s = Some p /\ d = Some x /\ ~ is_missing mv (Some p) /\ ~ is_missing mv (Some x)) /\
        exists p' x', level mv src data p' x')).
    { split.
      - intros [i [j [p [p' [x [x' [Hij [A [B [C [D [E [F [G K]]]]]]]]]]]]]].
        destruct j as [|j]; [lia|]. simpl in C, D. destruct i as [|i]; simpl in A, B.
        + right. split; [exists p, x; repeat split; try congruence; auto|]. exists p', x', j. auto.
        + left. exists i, j, p, p', x, x'. repeat split; auto. lia.
      - intros [[i [j [p [p' [x [x' [Hij U]]]]]]]|[[p [x [-> [-> [E F]]]]] [p' [x' [j [C [D [G K]]]]]]]].
        + exists (S i), (S j), p, p', x, x'. split; [lia|exact U].
        + exists 0, (S j), p, p', x, x'. simpl. repeat split; auto. lia. }
    rewrite Hd, IH'. clear Hd IH IH'. destruct (masked mv d || masked mv s) eqn:E.
    + split; [|auto]. intros [A|[[p [x [-> [-> [Hp Hx]]]]] _]]; auto. exfalso.
      apply masked_false in Hp, Hx. rewrite Hp, Hx in E. discriminate.
    + apply orb_false_iff in E. destruct E as [E1 E2].
      destruct s as [ps|]; [|discriminate]. destruct d as [xs|]; [|discriminate].
      apply masked_false in E1, E2. cbn [length]. split.
      * intros [A|[_ [p' [x' L]]]]; [lia|]. apply levels_in in L. destruct (levels mv src data); [destruct L|simpl; lia].
      * intros A. right. split; [exists ps, xs; auto|]. destruct (levels mv src data) as [|[p' x'] l] eqn:El; [simpl in A; lia|].
        exists p', x'. apply levels_in. rewrite El. left; auto.
Qed.
Lemma targets_levels mv tgt : levels mv tgt tgt = map (fun q => (q, q)) (targets mv tgt).
Proof.
  induction tgt as [|t tgt IH]; [reflexivity|]. cbn [levels targets]. rewrite orb_diag. destruct (masked mv t); auto.
  destruct t; auto. simpl. rewrite IH. reflexivity.
Qed.
Lemma targets_up mv tgt : usable_up mv tgt tgt <-> upl (targets mv tgt).
Proof. rewrite usable_up_asc by auto. unfold asc, upl. rewrite targets_levels, SS_map. reflexivity. Qed.
Lemma targets_down mv tgt : usable_down mv tgt tgt <-> dnl (targets mv tgt).
Proof. rewrite usable_down_dsc by auto. unfold dsc, dnl. rewrite targets_levels, SS_map. reflexivity. Qed.

(** ** The wrapper as one decision followed by the kernel *)
Section Wrapper.
Variable lg : Qc -> Qc.
Definition accepted (vs vt : list Qc) (lm : bool) : bool :=
  negb (length vs <? 2) && strict_monotonic vs && strict_monotonic vt &&
  negb (lm && negb (forallb (Qcltb 0%Qc) vs && forallb (Qcltb 0%Qc) vt)).
Definition linlog_of (lm ex : bool) : Z := (if lm then if ex then -2 else 2 else if ex then -1 else 1)%Z.

Lemma wrapper_unfold data src tgt lm ex mv : length data = length src -> tgt <> [] ->
  interp_pressure_1d lg data src tgt lm ex mv =
  if accepted (map fst (levels mv src data)) (targets mv tgt) lm then
    if length (targets mv tgt) =? 0 then Some (map (fun _ => mv) tgt)
    else match dinterp_pressure_1d_impl lg (with_spvl mv src) (with_spvl mv data) (targets mv tgt) (linlog_of lm ex) spvl with
         | Some (out, ier) => if negb (ier =? 0)%Z then None
             else Some (scatter (map (masked mv) tgt) mv (map (fun v => if Qceqb v spvl then mv else Some v) out))
         | None => None end
  else None.
Proof.
  intros Hl Ht. unfold interp_pressure_1d, accepted. rewrite Hl, Nat.eqb_refl. cbn [negb].
  destruct (Nat.eqb_spec (length tgt) 0) as [E|_]. { destruct tgt; [contradiction|discriminate]. }
  rewrite keep_source by auto. rewrite keep_target.
  set (vs := map fst (levels mv src data)). set (vt := targets mv tgt).
  destruct (length vs <? 2); [reflexivity|]. destruct (strict_monotonic vs); [|reflexivity].
  destruct (strict_monotonic vt); [|reflexivity].
  cbn [negb andb]. destruct (lm && negb (forallb (Qcltb 0%Qc) vs && forallb (Qcltb 0%Qc) vt)); reflexivity.
Qed.

Definition finish (mv : option Qc) (r : option Qc) : option Qc :=
  match r with None => mv | Some v => if Qceqb v spvl then mv else Some v end.

Definition good_at (mv : option Qc) (P : Qc -> option Qc -> Prop) (t o : option Qc) : Prop :=
  (masked mv t = true -> o = mv) /\
  (masked mv t = false -> forall q, t = Some q -> exists r, P q r /\ o = finish mv r).

Lemma scatter_good mv (P : Qc -> option Qc -> Prop) : forall tgt vals,
  Forall2 (fun t v => exists r, P t r /\ v = match r with Some v => v | None => spvl end) (targets mv tgt) vals ->
  Forall2 (good_at mv P) tgt
    (scatter (map (masked mv) tgt) mv (map (fun v => if Qceqb v spvl then mv else Some v) vals)).
Proof.
  induction tgt as [|t tgt IH]; intros vals H; [constructor|].
  cbn [map scatter targets] in *. destruct (masked mv t) eqn:E.
  - constructor; auto. split; [reflexivity|]. intros X; rewrite X in E; discriminate.
  - destruct t as [q|]; [|discriminate]. inversion H as [|a v ts' vs' [r [Hr Ev]] Hrest]; subst.
    cbn [map]. constructor; [|apply IH; exact Hrest].
    split; [intros X; rewrite X in E; discriminate|].
    intros _ q' Eq. injection Eq as <-. exists r. split; auto. destruct r as [v|]; [reflexivity|].
    simpl. destruct (Qceqb_spec spvl spvl); [reflexivity|contradiction].
Qed.

Lemma targets_in mv tgt q : In q (targets mv tgt) <-> In (Some q) tgt /\ ~ is_missing mv (Some q).
Proof.
  induction tgt as [|t tgt IH]; [simpl; tauto|]. cbn [targets]. destruct (masked mv t) eqn:E.
  - rewrite IH. simpl. split; [tauto|]. intros [[->|H] N]; auto. exfalso. apply N. apply masked_iff. auto.
  - destruct t as [q'|]; [|discriminate]. simpl. rewrite IH. apply masked_false in E. split.
    + intros [->|[H N]]; auto.
    + intros [[H|H] N]; auto. left. congruence.
Qed.
Lemma linlog_abs lm ex : (Z.abs (linlog_of lm ex) =? 1)%Z = negb lm.
Proof. destruct lm, ex; reflexivity. Qed.
Lemma linlog_sign lm ex : (linlog_of lm ex <? 0)%Z = ex.
Proof. destruct lm, ex; reflexivity. Qed.
Lemma coord_of lm ex : coord lg (linlog_of lm ex) = if lm then lg else (fun p => p).
Proof. unfold coord. rewrite linlog_abs. destruct lm; reflexivity. Qed.
Lemma low_of lm ex : lowrule lg (linlog_of lm ex) = if lm then low_log lg else on_line (fun p => p).
Proof. unfold lowrule. rewrite linlog_abs. destruct lm; reflexivity. Qed.

Lemma visible_direction mv src data : length data = length src -> order_visible mv src data ->
  2 <= length (levels mv src data) -> asc (levels mv src data) \/ dsc (levels mv src data) ->
  exists b, is_increasing (with_spvl mv src) = Some b /\ (if b then asc else dsc) (levels mv src data).
Proof.
  intros Hl [a [b [rest [-> [Na [Nb Hab]]]]]] Hn Hs.
  apply masked_false in Na, Nb. rewrite usable_up_asc in Hab by auto.
  unfold with_spvl, is_increasing. cbn [map length rd nth_error]. rewrite Na, Nb.
  cbn [Nat.ltb Nat.leb]. exists (Qcltb a b). split; [reflexivity|].
  destruct (Qcltb_spec a b) as [L|L]; [apply Hab; auto|].
  destruct Hs as [A|D]; auto. exfalso. apply L. apply Hab. auto.
Qed.

Lemma accepted_log vs vt lm : accepted vs vt lm = true -> lm = true ->
  (forall a, In a vs -> (0 < a)%Qc) /\ (forall a, In a vt -> (0 < a)%Qc).
Proof.
  unfold accepted. intros H ->. rewrite !andb_true_iff in H. destruct H as [_ H]. cbn [andb] in H.
  rewrite negb_involutive in H. apply andb_true_iff in H. destruct H as [A B].
  rewrite forallb_forall in A, B. split; intros a Ha; apply ltb_iff; auto.
Qed.
Lemma accepted_parts vs vt lm : accepted vs vt lm = true ->
  2 <= length vs /\ strict_monotonic vs = true /\ strict_monotonic vt = true.
Proof.
  unfold accepted. rewrite !andb_true_iff. intros [[[A B] C] _]. repeat split; auto.
  destruct (Nat.ltb_spec (length vs) 2); [discriminate|lia].
Qed.

Lemma wrapper_ok data src tgt lm ex mv :
  length data = length src -> tgt <> [] ->
  all_below spvl src -> all_below spvl data -> all_below spvl tgt ->
  order_visible mv src data ->
  (lm = true -> increasing_on_positive lg) ->
  accepted (map fst (levels mv src data)) (targets mv tgt) lm = true ->
  exists out, interp_pressure_1d lg data src tgt lm ex mv = Some out /\
    Forall2 (good_at mv (fun q r => pvalue (level mv src data) (if lm then lg else (fun p => p)) ex
                           (if lm then low_log lg else on_line (fun p => p)) q r)) tgt out.
Proof.
  intros Hl Ht Bs Bd Bt Ho Hlg Ha. rewrite wrapper_unfold by auto. rewrite Ha.
  destruct (accepted_parts _ _ _ Ha) as [Hn [Hm _]]. rewrite map_length in Hn. apply mono_levels in Hm.
  destruct (Nat.eqb_spec (length (targets mv tgt)) 0) as [E0|E0].
  { eexists. split; [reflexivity|]. clear Ht Bt Ha. induction tgt as [|t tgt IH]; constructor.
    - split; [reflexivity|]. intros E q ->. cbn [targets] in E0. rewrite E in E0. discriminate.
    - apply IH. cbn [targets] in E0. destruct (masked mv t); auto. destruct t; auto. discriminate. }
  destruct (visible_direction mv src data Hl Ho Hn Hm) as [b [Hb Hdir]].
  destruct (kernel_ok lg (with_spvl mv src) (with_spvl mv data) (targets mv tgt) (linlog_of lm ex) spvl b) as [vs [Ek Hk]].
  - unfold with_spvl. rewrite !map_length. auto.
  - lia.
  - intros X. apply targets_in in X. destruct X as [X _]. assert (Y := Bt _ X). qclra.
  - rewrite spvl_pairs by auto. auto.
  - auto.
  - rewrite spvl_pairs by auto. auto.
  - rewrite spvl_pairs by auto. intros Habs a c Hia Hic Hac E.
    assert (lm = true). { destruct lm; auto. exfalso. apply Habs. destruct ex; reflexivity. }
    destruct (accepted_log _ _ _ Ha H) as [P _]. assert (X := Hlg H a c (P _ Hia) Hac). rewrite E in X. qclra.
  - rewrite Ek. cbn [negb Z.eqb]. eexists. split; [reflexivity|].
    rewrite spvl_pairs in Hk by auto. rewrite coord_of, low_of, linlog_sign in Hk.
    assert (Hk' : Forall2 (fun t v => exists r, pvalue (level mv src data) (if lm then lg else (fun p => p)) ex
                           (if lm then low_log lg else on_line (fun p => p)) t r /\
                         v = match r with Some v => v | None => spvl end) (targets mv tgt) vs).
    { clear - Hk. induction Hk as [|t v l l' [r [Hr Ev]] _ IH]; constructor; auto.
      exists r. split; auto. eapply pvalue_ext; [|exact Hr]. intros p x. apply levels_in. }
    apply scatter_good. exact Hk'.
Qed.

Lemma wrapper_accepts data src tgt lm ex mv out : length data = length src -> tgt <> [] ->
  interp_pressure_1d lg data src tgt lm ex mv = Some out ->
  accepted (map fst (levels mv src data)) (targets mv tgt) lm = true.
Proof.
  intros Hl Ht. rewrite wrapper_unfold by auto. destruct (accepted _ _ _); auto. discriminate.
Qed.

Lemma levels_one_value mv src data vt lm : accepted (map fst (levels mv src data)) vt lm = true ->
  one_value (level mv src data) /\ exists p x, level mv src data p x.
Proof.
  intros Ha. destruct (accepted_parts _ _ _ Ha) as [Hn [Hm _]]. rewrite map_length in Hn. apply mono_levels in Hm.
  split.
  - intros p x x' H1 H2. apply levels_in in H1, H2.
    assert (Hd : exists F, dsc F /\ forall a, In a F <-> In a (levels mv src data)).
    { destruct Hm as [A|D]; [|exists (levels mv src data); split; [auto|reflexivity]].
      exists (rev (levels mv src data)). split; [apply SS_rev in A; exact A|]. intros a. symmetry. apply in_rev. }
    destruct Hd as [F [HF Hin]]. apply Hin in H1, H2.
    destruct (pk_of_in F p x H1) as [i [Hi [Ei1 Ei2]]]. destruct (pk_of_in F p x' H2) as [j [Hj [Ej1 Ej2]]].
    assert (i = j) by (apply (dsc_inj F); auto; congruence). subst j. congruence.
  - destruct (levels mv src data) as [|[p x] l] eqn:E; [simpl in Hn; lia|].
    exists p, x. apply levels_in. rewrite E. left; auto.
Qed.

(** ** Only the set of usable levels matters *)
Lemma depends_only_on_levels data src tgt data' src' tgt' lm ex mv out out' :
  length data = length src -> length data' = length src' ->
  all_below spvl src -> all_below spvl data -> all_below spvl tgt ->
  all_below spvl src' -> all_below spvl data' -> all_below spvl tgt' ->
  order_visible mv src data -> order_visible mv src' data' ->
  (lm = true -> increasing_on_positive lg) ->
  (forall p x, level mv src data p x <-> level mv src' data' p x) ->
  interp_pressure_1d lg data src tgt lm ex mv = Some out ->
  interp_pressure_1d lg data' src' tgt' lm ex mv = Some out' ->
  forall j j' t, nth_error tgt j = Some t -> nth_error tgt' j' = Some t -> nth_error out j = nth_error out' j'.
Proof.
  intros Hl Hl' B1 B2 B3 B1' B2' B3' V V' Hlg HL E E' j j' t Hj Hj'.
  assert (Ht : tgt <> []) by (intros ->; destruct j; discriminate).
  assert (Ht' : tgt' <> []) by (intros ->; destruct j'; discriminate).
  assert (A := wrapper_accepts _ _ _ _ _ _ _ Hl Ht E). assert (A' := wrapper_accepts _ _ _ _ _ _ _ Hl' Ht' E').
  destruct (wrapper_ok data src tgt lm ex mv) as [o [Eo G]]; auto.
  destruct (wrapper_ok data' src' tgt' lm ex mv) as [o' [Eo' G']]; auto.
  assert (o = out) by congruence. assert (o' = out') by congruence. subst o o'. clear Eo Eo'.
  assert (Hget : forall (P : Qc -> option Qc -> Prop) l l', Forall2 (good_at mv P) l l' -> forall k t, nth_error l k = Some t ->
     exists o, nth_error l' k = Some o /\ good_at mv P t o).
  { clear. induction 1 as [|a b l l' H _ IH]; intros [|k] t Hk; try discriminate; simpl in *.
    - injection Hk as <-. eauto. - eauto. }
  destruct (Hget _ _ _ G _ _ Hj) as [o [-> [G1 G2]]]. destruct (Hget _ _ _ G' _ _ Hj') as [o' [-> [G1' G2']]].
  f_equal. destruct (masked mv t) eqn:Em; [rewrite G1, G1'; auto|].
  destruct t as [q|]; [|discriminate].
  destruct (G2 eq_refl q eq_refl) as [r [Hr ->]]. destruct (G2' eq_refl q eq_refl) as [r' [Hr' ->]].
  f_equal. destruct (levels_one_value _ _ _ _ _ A) as [O X].
  eapply pvalue_unique; eauto. eapply pvalue_ext; [|exact Hr']. intros p x. symmetry. apply HL.
Qed.

Lemma out_length data src tgt lm ex mv out : 
  length data = length src -> tgt <> [] ->
  all_below spvl src -> all_below spvl data -> all_below spvl tgt ->
  order_visible mv src data -> (lm = true -> increasing_on_positive lg) ->
  interp_pressure_1d lg data src tgt lm ex mv = Some out -> length out = length tgt.
Proof.
  intros Hl Ht B1 B2 B3 V Hlg E. assert (A := wrapper_accepts _ _ _ _ _ _ _ Hl Ht E).
  destruct (wrapper_ok data src tgt lm ex mv) as [o [Eo G]]; auto.
  assert (o = out) by congruence. subst. symmetry. clear - G. induction G; simpl; auto.
Qed.
Lemma nth_error_ext (A : Type) (l l' : list A) : (forall j, nth_error l j = nth_error l' j) -> l = l'.
Proof.
  revert l'; induction l as [|a l IH]; intros [|b l'] H; auto.
  - specialize (H 0); discriminate. - specialize (H 0); discriminate.
  - f_equal; [assert (X := H 0); simpl in X; congruence|]. apply IH. intros j. apply (H (S j)).
Qed.

(** equal results including which calls raise *)
Lemma same_levels_same_result data src data' src' tgt lm ex mv :
  length data = length src -> length data' = length src' ->
  all_below spvl src -> all_below spvl data -> all_below spvl tgt ->
  all_below spvl src' -> all_below spvl data' ->
  order_visible mv src data -> order_visible mv src' data' ->
  (lm = true -> increasing_on_positive lg) ->
  (levels mv src' data' = levels mv src data \/ levels mv src' data' = rev (levels mv src data)) ->
  interp_pressure_1d lg data' src' tgt lm ex mv = interp_pressure_1d lg data src tgt lm ex mv.
Proof.
  intros Hl Hl' B1 B2 B3 B1' B2' V V' Hlg HL.
  destruct tgt as [|t0 tgt0]. { unfold interp_pressure_1d. rewrite Hl, Hl', !Nat.eqb_refl. reflexivity. }
  set (tgt := t0 :: tgt0) in *. assert (Ht : tgt <> []) by discriminate.
  assert (Hacc : accepted (map fst (levels mv src' data')) (targets mv tgt) lm = accepted (map fst (levels mv src data)) (targets mv tgt) lm).
  { destruct HL as [->| ->]; [reflexivity|]. unfold accepted. rewrite map_rev, rev_length, strict_monotonic_rev.
    replace (forallb (Qcltb 0%Qc) (rev (map fst (levels mv src data)))) with (forallb (Qcltb 0%Qc) (map fst (levels mv src data))); [reflexivity|].
    apply eq_true_iff_eq. rewrite !forallb_forall. split; intros H a Ha; apply H; [apply in_rev|apply in_rev; rewrite rev_involutive]; auto. }
  assert (HLin : forall p x, level mv src data p x <-> level mv src' data' p x).
  { intros p x. rewrite <- !levels_in. destruct HL as [->| ->]; [reflexivity|]. apply in_rev. }
  destruct (accepted (map fst (levels mv src data)) (targets mv tgt) lm) eqn:A.
  - destruct (wrapper_ok data src tgt lm ex mv) as [o [Eo G]]; auto.
    destruct (wrapper_ok data' src' tgt lm ex mv) as [o' [Eo' G']]; auto.
    rewrite Eo, Eo'. f_equal. apply nth_error_ext. intros j.
    destruct (nth_error tgt j) as [t|] eqn:Ej.
    + symmetry. apply (depends_only_on_levels data src tgt data' src' tgt lm ex mv o o') with (t := t); auto.
    + assert (L := out_length _ _ _ _ _ _ _ Hl Ht B1 B2 B3 V Hlg Eo).
      assert (L' := out_length _ _ _ _ _ _ _ Hl' Ht B1' B2' B3 V' Hlg Eo').
      apply nth_error_None in Ej. rewrite (proj2 (nth_error_None o j)), (proj2 (nth_error_None o' j)); auto; lia.
  - rewrite !wrapper_unfold by auto. rewrite Hacc, A. reflexivity.
Qed.

Lemma levels_app mv : forall s1 d1 s2 d2, length d1 = length s1 ->
  levels mv (s1 ++ s2) (d1 ++ d2) = levels mv s1 d1 ++ levels mv s2 d2.
Proof.
  induction s1 as [|s s1 IH]; intros [|d d1] s2 d2 H; try discriminate; [reflexivity|].
  cbn [app levels]. rewrite (IH d1 s2 d2) by (simpl in H; lia). destruct (masked mv d || masked mv s); auto.
  destruct s; auto. destruct d; auto.
Qed.
Lemma levels_rev mv : forall src data, length data = length src ->
  levels mv (rev src) (rev data) = rev (levels mv src data).
Proof.
  induction src as [|s src IH]; intros [|d data] H; try discriminate; [reflexivity|].
  cbn [rev]. rewrite levels_app by (rewrite !rev_length; simpl in H; lia).
  rewrite IH by (simpl in H; lia). cbn [levels]. destruct (masked mv d || masked mv s); [apply app_nil_r|].
  destruct s; [|apply app_nil_r]. destruct d; [|apply app_nil_r]. reflexivity.
Qed.

(** ** Misread storage order *)
Lemma exact_loop_any t lv : forall fuel low high,
  high + 1 - low < fuel -> 1 <= low -> high <= length lv -> ~ In t lv ->
  exact_loop fuel t lv low high = Some 0.
Proof.
  induction fuel as [|f IH]; intros low high Hf Hl Hh Hin; [lia|].
  cbn [exact_loop]. destruct (Nat.leb_spec low high) as [Hle|]; [|reflexivity].
  assert (Hm := mid_bounds low high Hle). set (mid := low + (high - low) / 2) in *. clearbody mid.
  rewrite rd_get by lia. destruct (Qceqb_spec t (get lv mid)) as [E|E].
  { exfalso. apply Hin. rewrite E. apply (rd_In lv mid). apply rd_get. lia. }
  destruct (Qcltb _ _); apply IH; auto; lia.
Qed.
Lemma one_target_wrong F linlog xmsg t : asc F -> 2 <= length F -> (0 < linlog)%Z -> ~ In t (map fst F) ->
  one_target lg (map fst F) (map snd F) linlog xmsg t = Some xmsg.
Proof.
  intros HF Hn Hl Hin. unfold one_target. destruct (Qceqb t xmsg); [reflexivity|].
  unfold locate_exact_match_desc. rewrite exact_loop_any by (rewrite ?map_length; auto; lia).
  rewrite map_length, !rd_pk by lia. destruct (Z.ltb_spec linlog 0); [lia|].
  destruct (Qcltb_spec (pk F 1) t) as [L1|L1]; [reflexivity|].
  destruct (Qcltb_spec t (pk F (length F))) as [L2|L2]; [reflexivity|]. exfalso.
  assert (X := SS_nth _ _ _ HF (1 - 1) (length F - 1) _ _ ltac:(lia) (pkxk_nth F 1 ltac:(lia)) (pkxk_nth F (length F) ltac:(lia))).
  simpl in X. qclra.
Qed.
Lemma all_targets_wrong F linlog xmsg : asc F -> 2 <= length F -> (0 < linlog)%Z ->
  forall ts, exists vs, all_targets lg (map fst F) (map snd F) linlog xmsg ts = Some vs /\
    Forall2 (fun t v => ~ In t (map fst F) -> v = xmsg) ts vs.
Proof.
  intros HF Hn Hl. induction ts as [|t ts [vs [E G]]]; [exists []; split; [reflexivity|constructor]|].
  cbn [all_targets]. rewrite E.
  assert (Hone : exists v, one_target lg (map fst F) (map snd F) linlog xmsg t = Some v).
  { destruct (in_dec Qc_eq_dec t (map fst F)) as [Hi|Hi]; [|rewrite one_target_wrong by auto; eauto].
    unfold one_target. destruct (Qceqb t xmsg); [eauto|].
    assert (Hx : forall fuel low high, high + 1 - low < fuel -> 1 <= low -> high <= length F ->
       exists r, exact_loop fuel t (map fst F) low high = Some r /\ r <= length F).
    { induction fuel as [|f IH]; intros low high Hf Hl1 Hh; [lia|].
      cbn [exact_loop]. destruct (Nat.leb_spec low high) as [Hle|]; [|exists 0; split; [reflexivity|lia]].
      assert (Hm := mid_bounds low high Hle). set (mid := low + (high - low) / 2) in *. clearbody mid.
      rewrite rd_pk by lia. destruct (Qceqb t (pk F mid)); [exists mid; split; [reflexivity|lia]|].
      destruct (Qcltb _ _); apply IH; lia. }
    unfold locate_exact_match_desc. rewrite map_length.
    destruct (Hx (length F + 1) 1 (length F)) as [r [-> Hr]]; try lia.
    destruct r as [|r]; [|rewrite rd_xk by lia; eauto].
    rewrite !rd_pk by lia. destruct (Z.ltb_spec linlog 0); [lia|].
    destruct (Qcltb_spec (pk F 1) t) as [L1|L1]; [eauto|].
    destruct (Qcltb_spec t (pk F (length F))) as [L2|L2]; [eauto|]. exfalso.
    assert (X := SS_nth _ _ _ HF (1 - 1) (length F - 1) _ _ ltac:(lia) (pkxk_nth F 1 ltac:(lia)) (pkxk_nth F (length F) ltac:(lia))).
    simpl in X. qclra. }
  destruct Hone as [v Hv]. rewrite Hv. eexists. split; [reflexivity|]. constructor; auto.
  intros Hi. rewrite one_target_wrong in Hv by auto. congruence.
Qed.

Lemma kernel_wrong pp xx ts linlog xmsg rin :
  length pp = length xx -> 1 <= length ts -> (0 < linlog)%Z ->
  2 <= length (valid_pairs pp xx xmsg) ->
  is_increasing pp = Some rin ->
  (if rin then dsc else asc) (valid_pairs pp xx xmsg) ->
  exists vs, dinterp_pressure_1d_impl lg pp xx ts linlog xmsg = Some (vs, 0%Z) /\
    Forall2 (fun t v => ~ In t (map fst (valid_pairs pp xx xmsg)) -> v = xmsg) ts vs.
Proof.
  intros Hlen Hts Hll Hn Hinc Hs. set (F0 := valid_pairs pp xx xmsg) in *.
  assert (Hnp : 2 <= length pp).
  { assert (length F0 <= length (combine pp xx)).
    { unfold F0, valid_pairs. generalize (combine pp xx). induction l as [|c l IHl]; simpl; auto. destruct c as [c1 c2]. destruct (_ && _); simpl; lia. }
    rewrite combine_length in H. lia. }
  unfold dinterp_pressure_1d_impl.
  destruct (Nat.ltb_spec (length pp) 2); [lia|]. destruct (Nat.ltb_spec (length ts) 1); [lia|]. cbn [orb].
  rewrite Hinc.
  assert (Hout : exists rout, (if 1 <? length ts then is_increasing ts else Some false) = Some rout).
  { destruct (1 <? length ts); [apply is_increasing_total|eauto]. }
  destruct Hout as [rout ->].
  set (F := if rin then rev F0 else F0).
  assert (HF : asc F). { unfold F. destruct rin; auto. apply SS_rev in Hs. exact Hs. }
  assert (HFl : length F = length F0). { unfold F; destruct rin; auto. apply rev_length. }
  assert (HFin : forall p, In p (map fst F) <-> In p (map fst F0)).
  { intros p. unfold F. destruct rin; [|reflexivity]. rewrite map_rev. symmetry. apply in_rev. }
  assert (EF : compact_valid_levels (copy_descending pp rin) (copy_descending xx rin) xmsg = (map fst F, map snd F)).
  { rewrite compact_filter by (unfold copy_descending; destruct rin; rewrite ?rev_length; auto).
    unfold F, F0, valid_pairs, copy_descending. destruct rin; [|reflexivity].
    rewrite combine_rev by auto. rewrite filter_rev'. reflexivity. }
  rewrite EF. rewrite map_length. destruct (Nat.ltb_spec (length F) 2); [lia|].
  destruct (all_targets_wrong F linlog xmsg HF ltac:(lia) Hll (copy_descending ts rout)) as [vs [-> Hvs]].
  assert (Hvs' : Forall2 (fun t v => ~ In t (map fst F0) -> v = xmsg) (copy_descending ts rout) vs).
  { clear - Hvs HFin. induction Hvs as [|t v ts' vs' H _ IH]; constructor; auto.
    intros X. apply H. intros Y. apply X. apply HFin. auto. }
  eexists. split; [reflexivity|].
  unfold copy_descending in *. destruct rout; auto.
  apply Forall2_rev in Hvs'. rewrite rev_involutive in Hvs'. exact Hvs'.
Qed.

Lemma wrapper_wrong data src tgt lm mv a b rest :
  length data = length src -> tgt <> [] ->
  all_below spvl src -> all_below spvl data ->
  src = a :: b :: rest ->
  (is_missing mv a /\ ~ is_missing mv b /\ usable_up mv src data) \/
  (~ is_missing mv a /\ is_missing mv b /\ ~ usable_up mv src data) ->
  accepted (map fst (levels mv src data)) (targets mv tgt) lm = true ->
  exists out, interp_pressure_1d lg data src tgt lm false mv = Some out /\
    Forall2 (fun t o => (forall p x, level mv src data p x -> t <> Some p) -> o = mv) tgt out.
Proof.
  intros Hl Ht Bs Bd Es Hw Ha. rewrite wrapper_unfold by auto. rewrite Ha.
  destruct (accepted_parts _ _ _ Ha) as [Hn [Hm _]]. rewrite map_length in Hn. apply mono_levels in Hm.
  destruct (Nat.eqb_spec (length (targets mv tgt)) 0) as [E0|E0].
  { eexists. split; [reflexivity|]. clear. induction tgt; constructor; auto. }
  assert (Hinc : exists rin, is_increasing (with_spvl mv src) = Some rin /\ (if rin then dsc else asc) (levels mv src data)).
  { rewrite usable_up_asc in Hw by auto. replace (with_spvl mv src) with (with_spvl mv (a :: b :: rest)) by (rewrite Es; reflexivity).
    unfold with_spvl, is_increasing. cbn [map length rd nth_error].
    cbn [Nat.ltb Nat.leb]. eexists. split; [reflexivity|].
    destruct Hw as [[A [B U]]|[A [B U]]].
    - apply masked_iff in A. apply masked_false in B. rewrite A, B. destruct b as [qb|]; [|discriminate].
      assert (qb < spvl)%Qc by (apply Bs; rewrite Es; right; left; auto).
      destruct (Qcltb_spec spvl qb); [exfalso; qclra|auto].
    - apply masked_false in A. apply masked_iff in B. rewrite A, B. destruct a as [qa|]; [|discriminate].
      assert (qa < spvl)%Qc by (apply Bs; rewrite Es; left; auto).
      destruct (Qcltb_spec qa spvl); [|contradiction]. destruct Hm; auto. contradiction. }
  destruct Hinc as [rin [Hinc Hdir]].
  destruct (kernel_wrong (with_spvl mv src) (with_spvl mv data) (targets mv tgt) (linlog_of lm false) spvl rin) as [vs [Ek Hk]].
  - unfold with_spvl. rewrite !map_length. auto.
  - lia.
  - destruct lm; reflexivity.
  - rewrite spvl_pairs by auto. auto.
  - auto.
  - rewrite spvl_pairs by auto. auto.
  - rewrite Ek. cbn [negb Z.eqb]. eexists. split; [reflexivity|].
    rewrite spvl_pairs in Hk by auto.
    clear - Hk. revert vs Hk. induction tgt as [|t tgt IH]; intros vs Hk; [constructor|].
    cbn [map scatter targets] in *. destruct (masked mv t) eqn:E; [constructor; auto|].
    destruct t as [q|]; [|discriminate]. inversion Hk as [|a v ts' vs' H Hrest]; subst.
    cbn [map]. constructor; [|apply IH; exact Hrest].
    intros Hno. rewrite H.
    + destruct (Qceqb_spec spvl spvl); [reflexivity|contradiction].
    + intros X. apply in_map_iff in X. destruct X as [[p x] [E1 E2]]. simpl in E1. subst p.
      apply levels_in in E2. exact (Hno _ _ E2 eq_refl).
Qed.

(** ** When the call raises *)
Lemma accepted_iff mv src data tgt lm : length data = length src ->
  accepted (map fst (levels mv src data)) (targets mv tgt) lm = true <->
  2 <= length (levels mv src data) /\ (asc (levels mv src data) \/ dsc (levels mv src data)) /\
  (upl (targets mv tgt) \/ dnl (targets mv tgt)) /\
  (lm = true -> (forall p x, level mv src data p x -> (0 < p)%Qc) /\
                (forall t, In (Some t) tgt -> ~ is_missing mv (Some t) -> (0 < t)%Qc)).
Proof.
  intros Hl. unfold accepted. rewrite !andb_true_iff, mono_levels, strict_monotonic_iff, map_length.
  assert (E1 : negb (length (levels mv src data) <? 2) = true <-> 2 <= length (levels mv src data)).
  { destruct (Nat.ltb_spec (length (levels mv src data)) 2); simpl; split; intros; auto; try discriminate; lia. }
  rewrite E1. 
  assert (E2 : negb (lm && negb (forallb (Qcltb 0%Qc) (map fst (levels mv src data)) && forallb (Qcltb 0%Qc) (targets mv tgt))) = true <->
     (lm = true -> (forall p x, level mv src data p x -> (0 < p)%Qc) /\
                (forall t, In (Some t) tgt -> ~ is_missing mv (Some t) -> (0 < t)%Qc))).
  { destruct lm; simpl; [|split; auto; discriminate]. rewrite negb_involutive, andb_true_iff, !forallb_forall. split.
    - intros [A B] _. split.
      + intros p x L. apply levels_in in L. apply ltb_iff, A. apply in_map_iff. exists (p, x); auto.
      + intros t Hi Hn. apply ltb_iff, B. apply targets_in; auto.
    - intros H. destruct (H eq_refl) as [A B]. split.
      + intros p Hp. apply in_map_iff in Hp. destruct Hp as [[p' x] [<- Hx]]. apply ltb_iff. apply (A p' x). apply levels_in; auto.
      + intros t Hi. apply targets_in in Hi. apply ltb_iff. apply B; tauto. }
  rewrite E2. tauto.
Qed.
End Wrapper.
