From Coq Require Import String List Bool Lia.
From Verif Require Import LZ_Model LZ_Spec.
Import ListNotations.
Local Open Scope list_scope.

Lemma path_eqb_spec p q : path_eqb p q = true <-> p = q.
Proof. unfold path_eqb. destruct (list_eq_dec string_dec p q); split; intros; auto; discriminate. Qed.
Lemma path_eqb_refl p : path_eqb p p = true. Proof. apply path_eqb_spec. reflexivity. Qed.
Lemma mem_spec n l : mem n l = true <-> In n l.
Proof.
  unfold mem. rewrite existsb_exists. split.
  - intros (x & H & E). apply String.eqb_eq in E. subst. exact H.
  - intro H. exists n. split; [exact H|apply String.eqb_refl].
Qed.
Lemma assoc_in {X} n (l : list (string * X)) v : assoc n l = Some v -> In (n, v) l.
Proof.
  induction l as [|[k w] l IH]; cbn; [discriminate|]. destruct (String.eqb_spec n k); [intro E; injection E as ->; subst; left; reflexivity|].
  intro H. right. exact (IH H).
Qed.
Lemma assoc_none {X} n (l : list (string * X)) : assoc n l = None -> forall v, ~ In (n, v) l.
Proof.
  induction l as [|[k w] l IH]; cbn; [tauto|]. destruct (String.eqb_spec n k); [discriminate|].
  intros H v [E|E]; [congruence|exact (IH H v E)].
Qed.
Lemma assoc_nodup {X} n (l : list (string * X)) v : NoDup (map fst l) -> In (n, v) l -> assoc n l = Some v.
Proof.
  induction l as [|[k w] l IH]; cbn; [tauto|]. intros Hn [E|E]; inversion Hn as [|? ? H1 H2]; subst.
  - injection E as -> ->. rewrite String.eqb_refl. reflexivity.
  - destruct (String.eqb_spec n k); [subst; exfalso; apply H1; apply (in_map fst) in E; exact E|]. apply IH; assumption.
Qed.
Lemma is_loaded_spec st p : is_loaded st p = true <-> In p (loaded st).
Proof.
  unfold is_loaded. rewrite existsb_exists. split.
  - intros (q & H & E). apply path_eqb_spec in E. subst. exact H.
  - intro H. exists p. split; [exact H|apply path_eqb_refl].
Qed.
Lemma lookup_globals st p n o : lookup st p n = Some o ->
  In (p, n, o) (globals st) \/ (o = Own p n /\ In n (own p)) \/ (o = Def p n /\ leaf p n = true).
Proof.
  unfold lookup. destruct (find _ _) as [[[q k] x]|] eqn:E.
  - apply find_some in E. destruct E as [H E]. cbn in E. apply andb_true_iff in E. destruct E as [E1 E2].
    apply path_eqb_spec in E1. apply String.eqb_eq in E2. subst. intro Ho. injection Ho as <-. left. exact H.
  - destruct (mem n (own p)) eqn:Em.
    + intro Ho. injection Ho as <-. right; left. split; [reflexivity|apply mem_spec; exact Em].
    + destruct (leaf p n) eqn:El; [|discriminate]. intro Ho. injection Ho as <-. right; right. split; reflexivity.
Qed.
Lemma lookup_none st p n : lookup st p n = None -> (forall o, ~ In (p, n, o) (globals st)) /\ leaf p n = false.
Proof.
  unfold lookup. destruct (find _ _) as [e|] eqn:E; [discriminate|]. intro H. split.
  - intros o Hin. pose proof (find_none _ _ E _ Hin) as F. cbn in F. rewrite path_eqb_refl, String.eqb_refl in F. discriminate.
  - destruct (mem n (own p)); [discriminate|]. destruct (leaf p n); [discriminate|reflexivity].
Qed.

(** ** Facts about the tables *)
Lemma exports_cases p subs objs : exports p = Some (subs, objs) ->
  (p = root /\ subs = root_submodules /\ objs = root_objects) \/ (p = calc /\ subs = calc_submodules /\ objs = calc_objects).
Proof.
  unfold exports. destruct (path_eqb p root) eqn:E1; [apply path_eqb_spec in E1; intro H; injection H as <- <-; auto|].
  destruct (path_eqb p calc) eqn:E2; [apply path_eqb_spec in E2; intro H; injection H as <- <-; auto|discriminate].
Qed.
Fixpoint nodupb (l : list string) : bool := match l with [] => true | x :: l => negb (mem x l) && nodupb l end.
Lemma nodupb_spec l : nodupb l = true -> NoDup l.
Proof.
  induction l as [|x l IH]; cbn; intro H; [constructor|]. apply andb_true_iff in H. destruct H as [H1 H2]. constructor; [|exact (IH H2)].
  intro Hin. apply mem_spec in Hin. rewrite Hin in H1. discriminate.
Qed.
Definition entry_ok (p : path) (subs children : list string) (e : string * (path * string)) : bool :=
  negb (mem (fst e) subs) && negb (mem (fst e) children) && negb (mem (fst e) (own p)) && negb (leaf p (fst e)) &&
  match exports (fst (snd e)) with
  | None => leaf (fst (snd e)) (snd (snd e))
  | Some (subs', _) => path_eqb (fst (snd e)) calc && mem (snd (snd e)) subs'
  end.
Definition table_ok (p : path) (subs : list string) (objs : list (string * (path * string))) (children : list string) : bool :=
  nodupb (map fst objs) && forallb (entry_ok p subs children) objs && forallb (fun n => negb (mem n (own p)) && negb (leaf p n)) subs.
Lemma tables : table_ok root root_submodules root_objects root_children = true /\ table_ok calc calc_submodules calc_objects calc_children = true.
Proof. vm_compute. split; reflexivity. Qed.
Definition children (p : path) : list string := if path_eqb p root then root_children else calc_children.
Lemma table p subs objs : exports p = Some (subs, objs) -> table_ok p subs objs (children p) = true.
Proof. intro E. destruct (exports_cases p subs objs E) as [(-> & -> & ->)|(-> & -> & ->)]; apply tables. Qed.
Lemma table_nodup p subs objs : exports p = Some (subs, objs) -> NoDup (map fst objs).
Proof. intro E. pose proof (table p subs objs E) as H. unfold table_ok in H. apply andb_true_iff in H. destruct H as [H _]. apply andb_true_iff in H. apply nodupb_spec. apply H. Qed.
Lemma table_sub p subs objs n : exports p = Some (subs, objs) -> In n subs -> ~ In n (own p) /\ leaf p n = false.
Proof.
  intros E Hn. pose proof (table p subs objs E) as H. unfold table_ok in H. apply andb_true_iff in H. destruct H as [_ H].
  rewrite forallb_forall in H. specialize (H n Hn). apply andb_true_iff in H. destruct H as [H1 H2]. rewrite negb_true_iff in H1, H2.
  split; [|exact H2]. intro K. apply mem_spec in K. congruence.
Qed.
Lemma table_obj p subs objs n m o : exports p = Some (subs, objs) -> In (n, (m, o)) objs ->
  ~ In n subs /\ ~ In n (children p) /\ ~ In n (own p) /\ leaf p n = false /\ match exports m with None => leaf m o = true | Some (subs', _) => m = calc /\ In o subs' end.
Proof.
  intros E Hn. pose proof (table p subs objs E) as H. unfold table_ok in H. apply andb_true_iff in H. destruct H as [H _].
  apply andb_true_iff in H. destruct H as [_ H]. rewrite forallb_forall in H. specialize (H _ Hn).
  unfold entry_ok in H. cbn [fst snd] in H. rewrite !andb_true_iff, !negb_true_iff in H. destruct H as ((((H1 & H2) & H3) & H4) & H5).
  repeat split; try assumption; try (intro K; apply mem_spec in K; congruence).
  destruct (exports m) as [[subs' objs']|]; [|exact H5]. apply andb_true_iff in H5. destruct H5 as [A B].
  split; [apply path_eqb_spec; exact A|apply mem_spec; exact B].
Qed.

Section Inv.
Variable ok : path -> bool.
Variable also_loads : path -> list path.
Hypothesis T : tree ok.
Hypothesis AL : forall p q, In q (also_loads p) -> q <> [] /\ importable ok q = true.
Notation denotes := (denotes ok).
Notation importable := (importable ok).

Lemma denotes_fun p n v : denotes p n v -> forall w, denotes p n w -> v = w.
Proof.
  induction 1 as [p subs objs n E Hn|p subs objs n m o E Hs Ho Hm|p subs objs n m o v E Hs Ho Hm H IH]; intros w Hw;
  inversion Hw as [? s2 o2 ? E2 Hn2|? s2 o2 ? m2 n2 E2 Hs2 Ho2 Hm2|? s2 o2 ? m2 n2 v2 E2 Hs2 Ho2 Hm2 H2]; subst;
  rewrite E in E2; injection E2 as <- <-; try contradiction; try reflexivity.
  - pose proof (assoc_nodup _ _ _ (table_nodup _ _ _ E) Ho) as A1. pose proof (assoc_nodup _ _ _ (table_nodup _ _ _ E) Ho2) as A2.
    rewrite A1 in A2. injection A2 as <- <-. reflexivity.
  - pose proof (assoc_nodup _ _ _ (table_nodup _ _ _ E) Ho) as A1. pose proof (assoc_nodup _ _ _ (table_nodup _ _ _ E) Ho2) as A2.
    rewrite A1 in A2. injection A2 as <- <-. contradiction.
  - pose proof (assoc_nodup _ _ _ (table_nodup _ _ _ E) Ho) as A1. pose proof (assoc_nodup _ _ _ (table_nodup _ _ _ E) Ho2) as A2.
    rewrite A1 in A2. injection A2 as <- <-. contradiction.
  - pose proof (assoc_nodup _ _ _ (table_nodup _ _ _ E) Ho) as A1. pose proof (assoc_nodup _ _ _ (table_nodup _ _ _ E) Ho2) as A2.
    rewrite A1 in A2. injection A2 as <- <-. rewrite (IH _ H2). reflexivity.
Qed.

Lemma prefixes_snoc p n : prefixes (p ++ [n]) = prefixes p ++ [p ++ [n]].
Proof. induction p as [|x p IH]; [reflexivity|]. cbn. rewrite IH, map_app. reflexivity. Qed.
Lemma importable_snoc p n : importable (p ++ [n]) = importable p && ok (p ++ [n]).
Proof. unfold LZ_Spec.importable. rewrite prefixes_snoc, forallb_app. cbn. rewrite andb_true_r. reflexivity. Qed.

Definition Inv (st : state) : Prop :=
  (forall q, In q (loaded st) -> importable q = true) /\ (forall p n o, In (p, n, o) (globals st) ->
     (o = Mod (p ++ [n]) /\ importable (p ++ [n]) = true /\ In (p ++ [n]) (loaded st)) \/ denotes p n (Got o)) /\
  (forall p n, p <> [] -> In (p ++ [n]) (loaded st) -> In (p, n, Mod (p ++ [n])) (globals st)).
Lemma Inv_initial : Inv initial.
Proof.
  split; [|split; [intros p n o []|intros p n Hp [H|[]]; destruct p as [|x [|y p]]; [contradiction|discriminate|discriminate]]].
  intros q [<-|[]]. unfold LZ_Spec.importable. cbn. destruct T as [R _]. unfold root in R. rewrite R. reflexivity.
Qed.
Lemma Inv_load st q : Inv st -> q <> [] -> importable q = true -> Inv (load st q).
Proof.
  intros (I1 & I2 & I3) Hq Hi. unfold load. destruct (is_loaded st q); [repeat split; assumption|].
  assert (E : q = removelast q ++ [last q ""%string]) by (apply app_removelast_last; exact Hq).
  split; [|split].
  - intros q' [<-|H]; [exact Hi|apply I1; exact H].
  - intros p n o [H|H].
    + injection H as <- <- <-. left. rewrite <- E. split; [reflexivity|]. split; [exact Hi|left; reflexivity].
    + destruct (I2 p n o H) as [(A & B & C)|D]; [left|right; exact D]. split; [exact A|]. split; [exact B|right; exact C].
  - intros p n Hp [H|H]; [left|right; apply I3; assumption]. rewrite H at 3. rewrite H, removelast_last, last_last. reflexivity.
Qed.
Lemma Inv_bind st p n o : Inv st -> denotes p n (Got o) -> Inv (bind_name st p n o).
Proof.
  intros (I1 & I2 & I3) D. split; [exact I1|]. split.
  - intros p' n' o' [H|H]; [injection H as <- <- <-; right; exact D|apply I2; exact H].
  - intros p' n' Hp H. right. apply I3; assumption.
Qed.
Lemma loads_more l st : (forall q, In q l -> q <> [] /\ importable q = true) -> Inv st -> Inv (fold_left load l st).
Proof.
  revert st. induction l as [|q l IH]; intros st Hl I; [exact I|]. cbn [fold_left]. apply IH; [intros; apply Hl; right; assumption|].
  destruct (Hl q (or_introl eq_refl)). apply Inv_load; assumption.
Qed.
Lemma import1_ok st p n : Inv st -> importable p = true ->
  Inv (fst (import1 ok also_loads st (p ++ [n]))) /\ snd (import1 ok also_loads st (p ++ [n])) = ok (p ++ [n]).
Proof.
  intros I Hp. unfold import1. destruct (is_loaded st (p ++ [n])) eqn:E.
  - cbn. split; [exact I|]. apply is_loaded_spec in E. destruct I as [I1 _]. specialize (I1 _ E). rewrite importable_snoc, Hp in I1. symmetry. exact I1.
  - assert (I' : Inv (fold_left load (also_loads (p ++ [n])) st)) by (apply loads_more; [apply AL|exact I]).
    destruct (ok (p ++ [n])) eqn:Eo; cbn; [|split; [exact I'|reflexivity]]. split; [|reflexivity].
    apply Inv_load; [exact I'|destruct p; discriminate|]. rewrite importable_snoc, Hp, Eo. reflexivity.
Qed.
Lemma import_ok st p : Inv st ->
  Inv (fst (import_module ok also_loads st p)) /\ snd (import_module ok also_loads st p) = importable p.
Proof.
  intro I. induction p as [|n p IH] using rev_ind; [split; [exact I|reflexivity]|].
  unfold import_module in *. rewrite prefixes_snoc, fold_left_app. cbn [fold_left].
  destruct IH as [I' E']. rewrite importable_snoc. rewrite E'. destruct (importable p) eqn:Ep; [|split; [exact I'|rewrite E'; reflexivity]].
  cbn [andb]. apply import1_ok; assumption.
Qed.

(** A name bound in a package is what the tables say. *)
Lemma bound_denotes st p n o v : Inv st -> denotes p n v -> lookup st p n = Some o -> v = Got o.
Proof.
  intros (I1 & I2 & _) D E. apply lookup_globals in E.
  assert (K : (exists subs objs, exports p = Some (subs, objs) /\ In n subs) \/
              (exists subs objs m x, exports p = Some (subs, objs) /\ In (n, (m, x)) objs)).
  { inversion D; subst; [left|right|right]; eauto 8. }
  destruct E as [H|[[_ H]|[_ H]]].
  - destruct (I2 p n o H) as [(-> & Hi & _)|D']; [|exact (denotes_fun p n v D _ D')].
    destruct K as [(subs & objs & E & Hn)|(subs & objs & m & x & E & Hn)].
    + pose proof (D_module ok p subs objs n E Hn) as D'. rewrite Hi in D'. exact (denotes_fun p n v D _ D').
    + exfalso. destruct (table_obj p subs objs n m x E Hn) as (_ & Hc & _). apply Hc.
      rewrite importable_snoc in Hi. apply andb_true_iff in Hi. destruct Hi as [_ Hi]. destruct T as (_ & TR & TC & _).
      unfold children. destruct (exports_cases p subs objs E) as [(-> & _)|(-> & _)]; [apply TR; exact Hi|apply TC; exact Hi].
  - exfalso. destruct K as [(subs & objs & E & Hn)|(subs & objs & m & x & E & Hn)].
    + destruct (table_sub p subs objs n E Hn) as [A _]. contradiction.
    + destruct (table_obj p subs objs n m x E Hn) as (_ & _ & A & _). contradiction.
  - exfalso. destruct K as [(subs & objs & E & Hn)|(subs & objs & m & x & E & Hn)].
    + destruct (table_sub p subs objs n E Hn) as [_ A]. congruence.
    + destruct (table_obj p subs objs n m x E Hn) as (_ & _ & _ & A & _). congruence.
Qed.

Lemma getattr_hook fuel st p subs objs n : exports p = Some (subs, objs) -> lookup st p n = None ->
  getattr ok also_loads (S fuel) st p n =
  if mem n subs then
    let '(st, b) := import_module ok also_loads st (p ++ [n]) in
    if b then (bind_name st p n (Mod (p ++ [n])), Got (Mod (p ++ [n]))) else (st, ImportError)
  else match assoc n objs with
  | Some (m, o) =>
    let '(st, b) := import_module ok also_loads st m in
    if b then
      let '(st, v) := getattr ok also_loads fuel st m o in
      match v with Got x => (bind_name st p n x, Got x) | _ => (st, v) end
    else (st, ImportError)
  | None => (st, AttributeError)
  end.
Proof. intros E L. cbn [getattr]. rewrite L, E. reflexivity. Qed.

(** A module that has no lazy exports. *)
Lemma getattr_leaf fuel st m o : Inv st -> exports m = None -> leaf m o = true -> getattr ok also_loads fuel st m o = (st, Got (Def m o)).
Proof.
  intros (I1 & I2 & _) E L.
  assert (Hl : lookup st m o = Some (Def m o)).
  { destruct (lookup st m o) as [x|] eqn:Ex.
    - apply lookup_globals in Ex. destruct Ex as [H|[[_ H]|[H _]]]; [|exfalso|f_equal; exact H].
      + exfalso. destruct (I2 m o x H) as [(-> & Hi & _)|D].
        * rewrite importable_snoc in Hi. apply andb_true_iff in Hi. destruct Hi as [_ Hi]. destruct T as (_ & _ & _ & TL).
          rewrite (TL m o L) in Hi. discriminate.
        * inversion D; congruence.
      + unfold own in H. unfold exports in E. destruct (path_eqb m root); [discriminate|]. destruct (path_eqb m calc); [discriminate|contradiction].
    - apply lookup_none in Ex. destruct Ex as [_ Ex]. congruence. }
  destruct fuel; cbn [getattr]; rewrite Hl; reflexivity.
Qed.

Lemma getattr_denotes p n v : denotes p n v -> forall fuel st, 2 <= fuel -> Inv st ->
  Inv (fst (getattr ok also_loads fuel st p n)) /\ snd (getattr ok also_loads fuel st p n) = v.
Proof.
  intros D fuel st Hf I. destruct (lookup st p n) as [o|] eqn:L.
  - rewrite (bound_denotes st p n o v I D L). destruct fuel; cbn [getattr]; rewrite L; split; try exact I; reflexivity.
  - destruct fuel as [|[|fuel]]; [lia|lia|]. inversion D as [? subs objs ? E Hn|? subs objs ? m o E Hs Ho Hm|? subs objs ? m o v' E Hs Ho Hm D']; subst.
    + rewrite (getattr_hook (S fuel) st p subs objs n E L). rewrite (proj2 (mem_spec n subs) Hn).
      destruct (import_ok st (p ++ [n]) I) as [I' E']. destruct (import_module ok also_loads st (p ++ [n])) as [st' b]. cbn [fst snd] in *. subst b.
      destruct (importable (p ++ [n])) eqn:Ei; cbn; [|split; [exact I'|reflexivity]]. split; [|reflexivity].
      apply Inv_bind; [exact I'|]. pose proof (D_module ok p subs objs n E Hn) as D2. rewrite Ei in D2. exact D2.
    + rewrite (getattr_hook (S fuel) st p subs objs n E L).
      assert (Em : mem n subs = false) by (destruct (mem n subs) eqn:Q; [apply mem_spec in Q; contradiction|reflexivity]).
      rewrite Em, (assoc_nodup _ _ _ (table_nodup _ _ _ E) Ho).
      destruct (import_ok st m I) as [I' E']. destruct (import_module ok also_loads st m) as [st' b]. cbn [fst snd] in *. subst b.
      destruct (importable m) eqn:Ei; cbn [fst snd]; [|split; [exact I'|reflexivity]].
      destruct (table_obj p subs objs n m o E Ho) as (_ & _ & _ & _ & F). rewrite Hm in F.
      rewrite getattr_leaf by assumption. cbn. split; [|reflexivity]. apply Inv_bind; [exact I'|].
      pose proof (D_object ok p subs objs n m o E Hs Ho Hm) as D2. rewrite Ei in D2. exact D2.
    + rewrite (getattr_hook (S fuel) st p subs objs n E L).
      assert (Em : mem n subs = false) by (destruct (mem n subs) eqn:Q; [apply mem_spec in Q; contradiction|reflexivity]).
      rewrite Em, (assoc_nodup _ _ _ (table_nodup _ _ _ E) Ho).
      destruct (import_ok st m I) as [I' E']. destruct (import_module ok also_loads st m) as [st' b]. cbn [fst snd] in *. subst b.
      destruct (importable m) eqn:Ei; cbn [fst snd]; [|split; [exact I'|reflexivity]].
      destruct (table_obj p subs objs n m o E Ho) as (_ & _ & _ & _ & F).
      destruct (exports m) as [[subs' objs']|] eqn:Ex; [|contradiction]. destruct F as [-> F].
      assert (V : v' = if importable (calc ++ [o]) then Got (Mod (calc ++ [o])) else ImportError)
        by (apply (denotes_fun _ _ _ D'); exact (D_module ok calc subs' objs' o Ex F)).
      assert (G : Inv (fst (getattr ok also_loads (S fuel) st' calc o)) /\ snd (getattr ok also_loads (S fuel) st' calc o) = v').
      { destruct (lookup st' calc o) as [x|] eqn:L'.
        - rewrite (bound_denotes st' calc o x v' I' D' L'). cbn [getattr]; rewrite L'; split; [exact I'|reflexivity].
        - rewrite (getattr_hook fuel st' calc subs' objs' o Ex L'). rewrite (proj2 (mem_spec o subs') F).
          destruct (import_ok st' (calc ++ [o]) I') as [I2 E2]. destruct (import_module ok also_loads st' (calc ++ [o])) as [st2 b2]. cbn [fst snd] in *. subst b2. rewrite V.
          destruct (importable (calc ++ [o])) eqn:E3; cbn; [|split; [exact I2|reflexivity]]. split; [|reflexivity].
          apply Inv_bind; [exact I2|]. pose proof (D_module ok calc subs' objs' o Ex F) as D2. rewrite E3 in D2. exact D2. }
      destruct (getattr ok also_loads (S fuel) st' calc o) as [st3 v3]. cbn [fst snd] in G. destruct G as [I3 ->].
      destruct v' as [x| | |] eqn:Ev'; cbn; (split; [|reflexivity]); try exact I3.
      apply Inv_bind; [exact I3|]. exact D.
Qed.
End Inv.
