From Coq Require Import Qround.
From Verif Require Import Base Buffer Loops VH_Model VH_Proofs LI_Proofs TG_Model TG_Spec TG_Proofs TG_Proofs2.
Local Open Scope nat_scope.

(** keeping the nearest *)
Definition best_of (usable : triple -> Prop) (dist : triple -> Qc) (g0 : cell) (d0 : Qc) (obs : list triple) (v : cell) (d : Qc) : Prop :=
  (exists l1 o l2, obs = l1 ++ o :: l2 /\ usable o /\ tz o = v /\ dist o = d /\
     (forall q, In q l1 -> usable q -> (dist o < dist q)%Qc) /\ (forall q, In q l2 -> usable q -> (dist o <= dist q)%Qc)) \/
  (v = g0 /\ d = d0 /\ forall q, In q obs -> ~ usable q).
Lemma best_nearest usable dist g0 d0 obs v d : best_of usable dist g0 d0 obs v d -> nearest_value usable dist obs g0 v.
Proof. intros [[l1 [o [l2 H]]]|[A [B C]]]; [left; exists l1, o, l2; tauto|right; auto]. Qed.
Lemma best_skip (usable : triple -> Prop) dist g0 d0 obs v d o : (usable o -> (d <= dist o)%Qc /\ ((dist o < d0)%Qc)) -> best_of usable dist g0 d0 obs v d -> best_of usable dist g0 d0 (obs ++ o :: nil) v d.
Proof.
  intros N [[l1 [p [l2 [-> [A [B [C [D E]]]]]]]]|[A [B C]]].
  - left. exists l1, p, (l2 ++ o :: nil). rewrite <- app_assoc. split; auto. split; auto. split; auto. split; auto. split; auto.
    intros q I U. apply in_app_or in I. destruct I as [I|[<-|[]]]; auto. rewrite C. apply N; auto.
  - right. split; auto. split; auto. intros q I U. apply in_app_or in I. destruct I as [I|[<-|[]]]; [eapply C; eauto|]. destruct (N U) as [X Y]. subst d.
    revert Y. apply Qcle_not_lt. auto.
Qed.
Lemma best_take (usable : triple -> Prop) dist g0 d0 obs v d o : usable o -> (dist o < d)%Qc -> best_of usable dist g0 d0 obs v d -> best_of usable dist g0 d0 (obs ++ o :: nil) (tz o) (dist o).
Proof.
  intros U L H. left. exists obs, o, []. split; [auto|]. split; [auto|]. split; [auto|]. split; [auto|]. split; [|intros q []].
  intros q I Uq. destruct H as [[l1 [p [l2 [-> [A [B [C [D E]]]]]]]]|[A [B C]]]; [|exfalso; eapply C; eauto].
  subst d. apply in_app_or in I. destruct I as [I|[<-|I]]; auto.
  - specialize (D q I Uq). qclra.
  - specialize (E q I Uq). qclra.
Qed.
Lemma best_nil usable dist g0 d0 : best_of usable dist g0 d0 [] g0 d0.
Proof. right. split; [auto|]. split; [auto|]. intros q []. Qed.
Lemma best_bound (usable : triple -> Prop) dist g0 d0 obs v d : (forall o, usable o -> (dist o < d0)%Qc) -> best_of usable dist g0 d0 obs v d -> (d <= d0)%Qc.
Proof. intros H [[l1 [p [l2 [-> [A [B [<- D]]]]]]]|[A [-> C]]]; [apply Qclt_le_weak; auto|apply Qcle_refl]. Qed.

Definition usable3 (dist : triple -> Qc) (zmsg d0 crit : Qc) (o : triple) : Prop := tz o <> Some zmsg /\ (dist o < d0)%Qc /\ (dist o < crit)%Qc.
Lemma search_ok dist zmsg crit g0 d0 obs : let b := search dist zmsg crit obs (g0, d0) in best_of (usable3 dist zmsg d0 crit) dist g0 d0 obs (fst b) (snd b).
Proof.
  cbv zeta. unfold search. induction obs as [|o obs IH] using rev_ind; [apply best_nil|]. rewrite fold_left_app. cbn [fold_left].
  set (b := fold_left _ obs (g0, d0)) in *. clearbody b.
  assert (Bd : (snd b <= d0)%Qc) by (eapply best_bound; [|exact IH]; intros q U; apply U).
  destruct (cell_is_spec zmsg (tz o)) as [M|M]; cbn [negb andb].
  { apply best_skip; auto. intros [U _]; contradiction. }
  destruct (Qcltb_spec (dist o) (snd b)) as [L|L]; cbn [andb].
  2: { apply best_skip; auto. intros [_ [U _]]. split; auto. apply Qcnot_lt_le; auto. }
  destruct (Qcltb_spec (dist o) crit) as [L2|L2].
  2: { apply best_skip; auto. intros [_ [_ U]]. contradiction. }
  cbn [fst snd]. eapply best_take; [|exact L|exact IH]. split; auto. split; auto. qclra.
Qed.

(** the full search *)
Section FULL.
Variables (T : trig) (obs : list triple) (zmsg ddcrit : Qc) (gx gy : list Qc) (gc : bool) (s0 : grids).
Let mx := length gx.
Let ny := length gy.
Hypothesis S0 : sized gx gy s0.
Definition final3 (a b : Qc) (v : cell) (d : Qc) (v' : cell) (d' : Qc) : Prop :=
  if Qceqb d 0 then v' = v /\ d' = d else (v', d') = search (node_distance T gc a b) zmsg ddcrit obs (v, d).
Definition progress (D : nat -> nat -> Prop) (s : grids) : Prop :=
  sized gx gy s /\ forall m n a b v d, node gx gy m n a b -> at_node gx s0 m n v d ->
    (D m n -> exists v' d', at_node gx s m n v' d' /\ final3 a b v d v' d') /\ (~ D m n -> at_node gx s m n v d).
Notation step := (fill_node T gc zmsg ddcrit obs gx gy).
Lemma step_ok D m n s : is_node gx gy m n -> ~ D m n -> progress D s -> exists s', step n s m = Some s' /\ progress (fun a b => D a b \/ (a = m /\ b = n)) s'.
Proof.
  intros Hn ND [S P]. destruct (at_node_ex gx gy s0 m n S0 Hn) as [v [d A0]]. destruct (node_of gx gy m n Hn) as [a [b Hab]].
  destruct (P m n a b v d Hab A0) as [_ P2]. specialize (P2 ND). unfold fill_node. fold (pos gx m n). destruct P2 as [Pg Pd]. rewrite Pd. cbn [bind].
  destruct (Qceqb_spec d 0) as [Z|NZ].
  - exists s. split; auto. split; auto. intros m2 n2 a2 b2 v2 d2 H2 A2. destruct (P m2 n2 a2 b2 v2 d2 H2 A2) as [Q1 Q2]. split; [|tauto].
    intros [H|[-> ->]]; auto. exists v2, d2. assert (v2 = v /\ d2 = d) as [-> ->] by (eapply at_node_fun; eauto). split; [split; auto|].
    unfold final3. destruct (Qceqb_spec d 0); auto. contradiction.
  - destruct Hab as [Ha Hb]. rewrite Ha, Hb. cbn [bind]. rewrite Pg. cbn [bind].
    destruct (store_ok gx gy s m n (fst (search (node_distance T gc a b) zmsg ddcrit obs (v, d))) (snd (search (node_distance T gc a b) zmsg ddcrit obs (v, d))) S Hn) as [s' [E [S' [A' K']]]].
    exists s'. split; auto. split; auto. intros m2 n2 a2 b2 v2 d2 H2 A2. destruct (P m2 n2 a2 b2 v2 d2 H2 A2) as [Q1 Q2].
    assert (C : (m2 = m /\ n2 = n) \/ (m2, n2) <> (m, n)).
    { destruct (Nat.eq_dec m2 m), (Nat.eq_dec n2 n); subst; auto; right; congruence. }
    destruct C as [[-> ->]|C].
    + split; [intros _|tauto]. assert (v2 = v /\ d2 = d) as [-> ->] by (eapply at_node_fun; eauto).
      do 2 eexists. split; [exact A'|]. unfold final3. destruct (Qceqb_spec d 0); [contradiction|]. destruct H2 as [H3 H4].
      assert (a2 = a) by congruence. assert (b2 = b) by congruence. subst. destruct (search _ _ _ _ _); reflexivity.
    + split.
      * intros [H|[-> ->]]; [|exfalso; apply C; auto]. destruct (Q1 H) as [v' [d' [B1 B2]]]. exists v', d'. split; auto. apply K'; [eapply node_is; eauto|auto|auto].
      * intros H. apply K'; [eapply node_is; eauto|auto|apply Q2; tauto].
Qed.
Lemma progress_ext D D' s : (forall m n, is_node gx gy m n -> (D m n <-> D' m n)) -> progress D s -> progress D' s.
Proof.
  intros H [S P]. split; auto. intros m n a b v d N A. destruct (P m n a b v d N A) as [Q1 Q2]. pose proof (H m n (node_is _ _ _ _ _ _ N)) as I. rewrite <- I. auto.
Qed.
Lemma inner_ok n : 1 <= n <= ny -> forall k s, k <= mx -> progress (fun _ b => b < n) s -> exists s', foldM (step n) (seq 1 k) s = Some s' /\ progress (fun a b => b < n \/ (b = n /\ a <= k)) s'.
Proof.
  intros Hn. induction k as [|k IH]; intros s Hk P.
  - exists s. split; auto. revert P. apply progress_ext. intros m n' [H1 H2]. split; [auto|lia].
  - destruct (IH s) as [s1 [E P1]]; auto; [lia|]. rewrite seq_S, foldM_app, E. cbn [bind foldM].
    assert (HN1 : is_node gx gy (1 + k) n) by (split; fold mx; fold ny; lia).
    destruct (step_ok (fun a b => b < n \/ (b = n /\ a <= k)) (1 + k) n s1 HN1 ltac:(cbv beta; lia) P1) as [s2 [E2 P2]]. rewrite E2. cbn [bind]. exists s2. split; auto.
    revert P2. apply progress_ext. intros m n' _. lia.
Qed.
Lemma outer_ok : forall k s, k <= ny -> progress (fun _ _ => False) s -> exists s', foldM (fun s n => foldM (step n) (seq 1 (length gx)) s) (seq 1 k) s = Some s' /\ progress (fun _ b => b < k + 1) s'.
Proof.
  induction k as [|k IH]; intros s Hk P.
  - exists s. split; auto. revert P. apply progress_ext. intros m n' [H1 H2]. lia.
  - destruct (IH s) as [s1 [E P1]]; auto; [lia|]. rewrite seq_S, foldM_app, E. cbn [bind foldM].
    destruct (inner_ok (1 + k) ltac:(lia) (length gx) s1 (Nat.le_refl _)) as [s2 [E2 P2]].
    { revert P1. apply progress_ext. intros. lia. }
    rewrite E2. cbn [bind]. exists s2. split; auto. revert P2. apply progress_ext. intros m n [H1 H2]. lia.
Qed.
Lemma full_ok : exists s', foldM (fun s n => foldM (step n) (seq 1 (length gx)) s) (seq 1 (length gy)) s0 = Some s' /\ sized gx gy s' /\
  forall m n a b v d, node gx gy m n a b -> at_node gx s0 m n v d -> exists v' d', at_node gx s' m n v' d' /\ final3 a b v d v' d'.
Proof.
  destruct (outer_ok ny s0 (Nat.le_refl _)) as [s' [E [S P]]].
  { split; auto. intros; split; [tauto|auto]. }
  exists s'. split; auto. split; auto. intros m n a b v d N A. destruct (P m n a b v d N A) as [Q _]. apply Q.
  apply node_is in N. destruct N as [_ H]. fold ny in H. lia.
Qed.
End FULL.

Lemma axis_step_ok g : 3 <= length g -> exists d, axis_step g = Some d /\ (forall d', equally_spaced g d' -> d = d').
Proof.
  intros L. unfold axis_step. destruct (rd_Some g (i := 3)) as [b Eb]; [lia|]. destruct (rd_Some g (i := 2)) as [a Ea]; [lia|]. rewrite Eb, Ea. cbn [bind].
  eexists; split; eauto. intros d' [D [g1 H]]. rewrite (H _ _ Ea), (H _ _ Eb). simpl. unfold qcabs.
  replace (g1 + qz 2 * d' - (g1 + qz 1 * d'))%Qc with d'. 2: { change (qz 2) with (qz (1 + 1)). rewrite qz_add, qz_1. ring. }
  destruct (Qcleb_spec 0 d') as [|N]; auto. exfalso. apply N. apply Qclt_le_weak; auto.
Qed.
(** axes on which the exact matches are found *)
Definition axes_ok (both : bool) (gx gy : list Qc) : Prop :=
  3 <= length gx /\ 3 <= length gy /\ increasing gx /\ increasing gy /\
  (both = true -> (exists d, equally_spaced gx d) /\ (exists d, equally_spaced gy d)).
Lemma axes_exact both gx gy : axes_ok both gx gy -> exists dx dy, axis_step gx = Some dx /\ axis_step gy = Some dy /\
  (forall o, exists r, exact_node both gx gy dx dy o = Some r /\ names_node gx gy r o) /\ (both = true -> equally_spaced gx dx /\ equally_spaced gy dy).
Proof.
  intros [A [B [C [D E]]]]. destruct (axis_step_ok gx A) as [dx [-> Hx]]. destruct (axis_step_ok gy B) as [dy [-> Hy]]. exists dx, dy. split; auto. split; auto.
  destruct both.
  - destruct E as [[d Ed] [d' Ed']]; auto. rewrite <- (Hx _ Ed) in Ed. rewrite <- (Hy _ Ed') in Ed'. split; auto. intros o. apply exact_fast; auto; lia.
  - split; [|discriminate]. intros o. apply exact_slow.
Qed.
Lemma trip2grd3_ok T obs zmsg gx gy mflag nflag gc ddcrit : axes_ok (mflag && nflag) gx gy ->
  exists g ier, trip2grd3_impl T obs zmsg gx gy mflag nflag gc ddcrit = Some (g, ier) /\ length g = length gx * length gy /\
   let all := forall o, In o obs -> exists m n, node gx gy m n (tx o) (ty o) in
   ((all /\ ier = (-11)%Z) \/ (~ all /\ ier = 0%Z)) /\
   forall m n a b, node gx gy m n a b -> exists v, rd g ((n - 1) * length gx + m) = Some v /\
     (last_value (on_node a b) obs v \/
      ((forall o, In o obs -> ~ on_node a b o) /\
       ((all /\ v = Some zmsg) \/
        (~ all /\ nearest_value (fun o => tz o <> Some zmsg /\ (node_distance T gc a b o < far)%Qc /\ (node_distance T gc a b o < ddcrit)%Qc) (node_distance T gc a b) obs (Some zmsg) v)))).
Proof.
  intros Ax. destruct (axes_exact _ _ _ Ax) as [dx [dy [Ex [Ey [HE _]]]]]. destruct Ax as [Lx [Ly [Gx [Gy _]]]].
  unfold trip2grd3_impl. rewrite Ex, Ey. cbn [bind].
  destruct (prepass_ok gx gy dx dy zmsg (mflag && nflag) Gx Gy HE obs) as [s [c [Ep [S [N [Cl Ci]]]]]]. rewrite Ep. cbn [bind fst snd].
  destruct (Nat.eqb_spec c (length obs)) as [Ec|Ec].
  - do 2 eexists. split; [reflexivity|]. split; [apply S|]. cbv zeta. pose proof (proj1 Ci Ec) as All. split; [left; auto|].
    intros m n a b H. destruct (N _ _ _ _ H) as [v [d [[A1 _] Hh]]]. exists v. split; auto. destruct Hh as [[L1 _]|[L1 [L2 _]]]; [left; auto|right; split; auto].
  - destruct (full_ok T obs zmsg ddcrit gx gy gc s S) as [s' [E [S' P]]]. rewrite E. cbn [bind]. do 2 eexists. split; [reflexivity|]. split; [apply S'|]. cbv zeta.
    assert (NA : ~ forall o, In o obs -> exists m n, node gx gy m n (tx o) (ty o)) by (intros F; apply Ec, Ci, F).
    split; [right; auto|]. intros m n a b H. destruct (N _ _ _ _ H) as [v [d [A1 Hh]]]. destruct (P _ _ _ _ _ _ H A1) as [v' [d' [[A2 _] F]]]. exists v'. split; auto.
    unfold final3 in F. destruct Hh as [[L1 L2]|[L1 [L2 L3]]].
    + left. destruct (Qceqb_spec d 0); [|contradiction]. destruct F as [-> _]. auto.
    + right. split; auto. right. split; auto. destruct (Qceqb_spec d 0) as [Z|NZ]; [exfalso; rewrite L3 in Z; discriminate|].
      pose proof (search_ok (node_distance T gc a b) zmsg ddcrit v d obs) as B. cbv zeta in B. rewrite <- F in B. cbn [fst snd] in B. apply best_nearest in B.
      subst v d. exact B.
Qed.
