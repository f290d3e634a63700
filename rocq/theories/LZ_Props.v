(** C50: lazy package attributes. *)
From Coq Require Import String List Bool Lia.
From Verif Require Import LZ_Model LZ_Spec LZ_Proofs.
Import ListNotations.
Local Open Scope string_scope.
Local Open Scope list_scope.

Section Props.
Variable ok : path -> bool.
Variable also_loads : path -> list path.
Hypothesis T : tree ok.
Hypothesis AL : forall p q, In q (also_loads p) -> q <> [] /\ importable ok q = true.
Variable fuel : nat.
Hypothesis F2 : 2 <= fuel.
Notation access st p n := (snd (getattr ok also_loads fuel st p n)).
Notation after h := (run ok also_loads fuel h).

Lemma denotes_exists p n : exported p n -> exists v, denotes ok p n v.
Proof.
  intros (subs & objs & E & [H|(m & o & H)]); [eexists; exact (D_module ok p subs objs n E H)|].
  destruct (table_obj p subs objs n m o E H) as (Hs & _ & _ & _ & F).
  destruct (exports m) as [[subs' objs']|] eqn:Em.
  - destruct F as [-> F]. eexists. eapply (D_forward ok p subs objs n calc o); try eassumption; [congruence|].
    exact (D_module ok calc subs' objs' o Em F).
  - eexists. exact (D_object ok p subs objs n m o E Hs H Em).
Qed.

(** Whatever has been accessed or imported before, in whatever order: a name that
    is not exported leaves the invariant intact too. *)
Lemma getattr_inv st p n : Inv ok st -> Inv ok (fst (getattr ok also_loads fuel st p n)).
Proof.
  intro I. destruct (exports p) as [[subs objs]|] eqn:E.
  - destruct (in_dec string_dec n subs) as [H|Hs].
    + destruct (denotes_exists p n) as [v D]; [exists subs, objs; auto|]. apply (getattr_denotes ok also_loads T AL p n v D fuel st F2 I).
    + destruct (assoc n objs) as [[m o]|] eqn:A.
      * apply assoc_in in A. destruct (denotes_exists p n) as [v D]; [exists subs, objs; eauto|].
        apply (getattr_denotes ok also_loads T AL p n v D fuel st F2 I).
      * destruct (lookup st p n) as [x|] eqn:L; [destruct fuel; cbn [getattr]; rewrite L; exact I|].
        destruct fuel as [|k]; [lia|]. rewrite (getattr_hook ok also_loads k st p subs objs n E L).
        assert (Em : mem n subs = false) by (destruct (mem n subs) eqn:Q; [apply mem_spec in Q; contradiction|reflexivity]).
        rewrite Em, A. exact I.
  - destruct fuel; cbn [getattr]; destruct (lookup st p n); rewrite ?E; exact I.
Qed.
Lemma run_inv h : Inv ok (after h).
Proof.
  unfold run. assert (K : forall st, Inv ok st -> Inv ok (fold_left (step ok also_loads fuel) h st)); [|apply K, Inv_initial; exact T].
  induction h as [|o h IH]; intros st I; [exact I|]. cbn [fold_left]. apply IH. destruct o as [p n|p]; cbn [step].
  - destruct (is_loaded st p); [apply getattr_inv; exact I|exact I].
  - apply (import_ok ok also_loads AL st p I).
Qed.

(** Any exported name of either package denotes one fixed outcome, which is what
    an access gives after any history of accesses and imports, and gives again
    when repeated. *)
Theorem C50_history_independent : forall p n, exported p n ->
  exists v, denotes ok p n v /\
    forall h, access (after h) p n = v /\
      forall h', access (fold_left (step ok also_loads fuel) h' (fst (getattr ok also_loads fuel (after h) p n))) p n = v.
Proof.
  intros p n X. destruct (denotes_exists p n X) as [v D]. exists v. split; [exact D|]. intro h.
  split; [apply (getattr_denotes ok also_loads T AL p n v D fuel _ F2 (run_inv h))|]. intro h'.
  assert (I : Inv ok (fst (getattr ok also_loads fuel (after h) p n))) by (apply getattr_inv, run_inv).
  generalize dependent (fst (getattr ok also_loads fuel (after h) p n)). intros st I.
  assert (K : forall h st, Inv ok st -> Inv ok (fold_left (step ok also_loads fuel) h st)).
  { clear - T AL F2. induction h as [|o h IH]; intros st I; [exact I|]. cbn [fold_left]. apply IH. destruct o as [p n|p]; cbn [step].
    - destruct (is_loaded st p); [apply getattr_inv; exact I|exact I].
    - apply (import_ok ok also_loads AL st p I). }
  apply (getattr_denotes ok also_loads T AL p n v D fuel _ F2 (K h' st I)).
Qed.
(** When every module can be imported no exported name raises. *)
Theorem C50_exports_resolve : forall p n, exported p n -> (forall q, In q (p :: map fst leaf_names) -> importable ok q = true) ->
  (forall m, In m root_submodules -> ok (root ++ [m]) = true) -> (forall m, In m calc_submodules -> ok (calc ++ [m]) = true) ->
  exists o, denotes ok p n (Got o).
Proof.
  intros p n X Hl HR HC. pose proof T as [R _].
  assert (Hc : importable ok calc = true).
  { change calc with (root ++ ["calc"]). rewrite importable_snoc, (HR "calc") by (vm_compute; tauto).
    unfold importable. cbn. unfold root in R. rewrite R. reflexivity. }
  assert (Sub : forall q subs objs m, exports q = Some (subs, objs) -> In m subs -> importable ok (q ++ [m]) = true).
  { intros q subs objs m E Hm. rewrite importable_snoc. destruct (exports_cases q subs objs E) as [(-> & -> & ->)|(-> & -> & ->)].
    - rewrite (HR m Hm). unfold importable. cbn. unfold root in R. rewrite R. reflexivity.
    - rewrite (HC m Hm), Hc. reflexivity. }
  destruct (denotes_exists p n X) as [v D]. destruct D as [p subs objs n E Hn|p subs objs n m o E Hs Ho Hm|p subs objs n m o v E Hs Ho Hm D].
  - exists (Mod (p ++ [n])). pose proof (D_module ok p subs objs n E Hn) as D. rewrite (Sub p subs objs n E Hn) in D. exact D.
  - exists (Def m o). pose proof (D_object ok p subs objs n m o E Hs Ho Hm) as D.
    destruct (table_obj p subs objs n m o E Ho) as (_ & _ & _ & _ & L). rewrite Hm in L.
    unfold leaf in L. apply existsb_exists in L. destruct L as ([m' ns] & Hin & L). apply andb_true_iff in L. destruct L as [L _]. apply path_eqb_spec in L. cbn in L. subst m'.
    rewrite (Hl m) in D; [exact D|right; apply (in_map fst) in Hin; exact Hin].
  - destruct (table_obj p subs objs n m o E Ho) as (_ & _ & _ & _ & L).
    destruct (exports m) as [[subs' objs']|] eqn:Ex; [|contradiction]. destruct L as [-> L].
    pose proof (D_module ok calc subs' objs' o Ex L) as D2. rewrite (Sub calc subs' objs' o Ex L) in D2.
    exists (Mod (calc ++ [o])). pose proof (D_forward ok p subs objs n calc o _ E Hs Ho ltac:(congruence) D2) as D3. rewrite Hc in D3. exact D3.
Qed.

(** A name that neither package exports or binds itself: AttributeError, except
    that it gives the submodule of that name once that has been loaded. *)
Theorem C50_other_names : forall h p n, p = root \/ p = calc -> ~ exported p n -> ~ In n (own p) -> leaf p n = false ->
  access (after h) p n = if is_loaded (after h) (p ++ [n]) then Got (Mod (p ++ [n])) else AttributeError.
Proof.
  intros h p n Hp Hx Ho Hl. pose proof (run_inv h) as (I1 & I2 & I3).
  destruct (is_loaded (after h) (p ++ [n])) eqn:E.
  { apply is_loaded_spec in E. apply I3 in E; [|destruct Hp as [-> | ->]; discriminate].
    destruct (lookup (after h) p n) as [x|] eqn:L; [|exfalso; apply lookup_none in L; exact (proj1 L _ E)].
    assert (Ex : x = Mod (p ++ [n])).
    { apply lookup_globals in L. destruct L as [H|[[_ H]|[_ H]]]; [|contradiction|congruence].
      destruct (I2 p n x H) as [(-> & _)|D]; [reflexivity|]. exfalso. apply Hx. inversion D; subst; eexists; eexists; (split; [eassumption|]); eauto. }
    subst x. destruct fuel; cbn [getattr]; rewrite L; reflexivity. }
  assert (L : lookup (after h) p n = None).
  { destruct (lookup (after h) p n) as [x|] eqn:L; [|reflexivity]. exfalso. apply lookup_globals in L.
    destruct L as [H|[[_ H]|[_ H]]]; [|contradiction|congruence].
    destruct (I2 p n x H) as [(_ & _ & K)|D].
    - apply is_loaded_spec in K. congruence.
    - apply Hx. inversion D; subst; eexists; eexists; (split; [eassumption|]); eauto. }
  assert (X : exists subs objs, exports p = Some (subs, objs)) by (destruct Hp as [-> | ->]; eexists; eexists; reflexivity).
  destruct X as (subs & objs & X). destruct fuel as [|k]; [lia|]. rewrite (getattr_hook ok also_loads k _ p subs objs n X L).
  destruct (mem n subs) eqn:M; [exfalso; apply Hx; exists subs, objs; split; [exact X|left; apply mem_spec; exact M]|].
  destruct (assoc n objs) as [[m o]|] eqn:A; [exfalso; apply Hx; exists subs, objs; split; [exact X|right; exists m, o; apply assoc_in; exact A]|].
  reflexivity.
Qed.
(** In particular a name that is not a module of the source tree always raises. *)
Theorem C50_unknown_names_raise : forall h p n, p = root \/ p = calc -> ~ exported p n -> ~ In n (own p) -> leaf p n = false ->
  ~ In n (children p) -> access (after h) p n = AttributeError.
Proof.
  intros h p n Hp Hx Ho Hl Hc. rewrite C50_other_names by assumption.
  destruct (is_loaded (after h) (p ++ [n])) eqn:E; [|reflexivity]. exfalso. apply Hc.
  pose proof (run_inv h) as [I1 _]. apply is_loaded_spec in E. specialize (I1 _ E). rewrite importable_snoc in I1.
  apply andb_true_iff in I1. destruct I1 as [_ K]. destruct T as (_ & TR & TC & _).
  destruct Hp as [-> | ->]; [apply TR; exact K|apply TC; exact K].
Qed.
End Props.

(** An environment in which everything in the tree imports and modules load
    nothing else. *)
Definition ok_all (p : path) : bool :=
  match p with
  | [r] => String.eqb r "skyborn"
  | [r; n] => String.eqb r "skyborn" && mem n root_children
  | [r; c; n] => String.eqb r "skyborn" && (String.eqb c "calc" && mem n calc_children || String.eqb c "gridfill" && String.eqb n "gridfill")
  | [r; c; g; n] => path_eqb p ["skyborn"; "calc"; "GPI"; "core"]
  | _ => false
  end.
Definition nothing (_ : path) : list path := [].
Example C50_example : tree ok_all /\ (forall p q, In q (nothing p) -> q <> [] /\ importable ok_all q = true) /\
  exported root "geostrophic" /\
  snd (getattr ok_all nothing 2 initial root "geostrophic") = Got (Mod ["skyborn"; "calc"; "geostrophic"]) /\
  snd (getattr ok_all nothing 2 (run ok_all nothing 2 [Get root "fill"; Import calc; Get calc "geostrophic"; Get root "nonsense"]) root "geostrophic")
    = Got (Mod ["skyborn"; "calc"; "geostrophic"]).
Proof.
  split; [|split; [intros p q []|split; [|split; vm_compute; reflexivity]]].
  - split; [reflexivity|]. split; [|split].
    + intros n H. cbn in H. apply mem_spec. exact H.
    + intros n H. cbn in H. apply orb_true_iff in H. destruct H as [H|H]; [apply mem_spec; exact H|discriminate].
    + intros m n H. unfold leaf in H. apply existsb_exists in H. destruct H as ([m' ns] & Hin & H). cbn [fst snd] in H.
      apply andb_true_iff in H. destruct H as [H1 H2]. apply path_eqb_spec in H1. subst m'. apply mem_spec in H2.
      assert (K : forallb (fun e => forallb (fun n => negb (ok_all (fst e ++ [n]))) (snd e)) leaf_names = true) by (vm_compute; reflexivity).
      rewrite forallb_forall in K. specialize (K _ Hin). cbn [fst snd] in K. rewrite forallb_forall in K. specialize (K _ H2).
      apply negb_true_iff in K. exact K.
  - exists root_submodules, root_objects. split; [reflexivity|]. right. exists calc, "geostrophic". vm_compute. tauto.
Qed.
(** "Unknown names always raise" is false for the modules that are not exported:
    skyborn.gradients raises AttributeError until some access has loaded it. *)
Theorem C50_unknown_always_raise_refuted : exists h n, ~ exported root n /\ ~ In n (own root) /\
  snd (getattr ok_all nothing 2 initial root n) = AttributeError /\
  snd (getattr ok_all nothing 2 (run ok_all nothing 2 h) root n) = Got (Mod (root ++ [n])).
Proof.
  exists [Get root "calculate_gradient"], "gradients". split; [|split; [|split; vm_compute; reflexivity]].
  - intros (subs & objs & E & H). injection E as <- <-. destruct H as [H|(m & o & H)].
    + apply mem_spec in H. discriminate.
    + assert (K : forallb (fun e => negb (String.eqb (fst e) "gradients")) root_objects = true) by (vm_compute; reflexivity).
      rewrite forallb_forall in K. specialize (K _ H). discriminate.
  - intro H. apply mem_spec in H. discriminate.
Qed.

(** Every exported object is exported under its own name, except the alias
    gridfill_fill, and a name that both packages export is the same object in
    both. *)
Definition own_name (e : string * (path * string)) : bool :=
  String.eqb (snd (snd e)) (fst e) || (String.eqb (fst e) "gridfill_fill" && String.eqb (snd (snd e)) "fill").
Definition same_target (a b : string * (path * string)) : bool :=
  negb (String.eqb (fst a) (fst b)) || (path_eqb (fst (snd a)) (fst (snd b)) && String.eqb (snd (snd a)) (snd (snd b))).
Theorem C50_names : (forall p subs objs n m o, exports p = Some (subs, objs) -> In (n, (m, o)) objs -> o = n \/ (n = "gridfill_fill" /\ o = "fill")) /\
  (forall n m o m' o', In (n, (m, o)) root_objects -> In (n, (m', o')) calc_objects -> m = m' /\ o = o').
Proof.
  split.
  - intros p subs objs n m o E H.
    assert (K : forallb own_name root_objects = true /\ forallb own_name calc_objects = true) by (split; vm_compute; reflexivity).
    assert (F : own_name (n, (m, o)) = true).
    { destruct K as [K1 K2]. rewrite forallb_forall in K1, K2. destruct (exports_cases p subs objs E) as [(_ & _ & ->)|(_ & _ & ->)]; auto. }
    unfold own_name in F. cbn [fst snd] in F. apply orb_true_iff in F. destruct F as [F|F]; [left; apply String.eqb_eq; exact F|].
    apply andb_true_iff in F. right. split; apply String.eqb_eq; apply F.
  - intros n m o m' o' H H'.
    assert (K : forallb (fun a => forallb (same_target a) calc_objects) root_objects = true) by (vm_compute; reflexivity).
    rewrite forallb_forall in K. specialize (K _ H). rewrite forallb_forall in K. specialize (K _ H').
    unfold same_target in K. cbn [fst snd] in K. rewrite String.eqb_refl in K. cbn [negb orb] in K. apply andb_true_iff in K. destruct K as [K1 K2].
    split; [apply path_eqb_spec; exact K1|apply String.eqb_eq; exact K2].
Qed.
Example C50_names_example : In ("mk_test", (calc ++ ["mann_kendall"], "mk_test")) root_objects /\ In ("mk_test", (calc ++ ["mann_kendall"], "mk_test")) calc_objects.
Proof. split; vm_compute; tauto. Qed.

Print Assumptions C50_names.
Print Assumptions C50_history_independent.
Print Assumptions C50_exports_resolve.
Print Assumptions C50_other_names.
Print Assumptions C50_unknown_names_raise.
Print Assumptions C50_unknown_always_raise_refuted.
