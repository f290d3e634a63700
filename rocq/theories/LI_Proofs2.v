From Coq Require Import Sorting.Sorted.
From Verif Require Import Base Buffer Loops VH_Model VH_Spec VH_Proofs LM_Proofs IS_Proofs LI_Model LI_Spec LI_Proofs.
Local Open Scope nat_scope.

(** ** Sortedness of the sources *)
Lemma up_SS l : goes_up l <-> StronglySorted Qclt l.
Proof.
  induction l as [|a l IH]; [split; [constructor|intros _ [|i] j p q; discriminate]|]. rewrite goes_up_cons. split.
  - intros [G H]. constructor; [apply IH; auto|]. apply Forall_forall. intros x Hx. destruct l as [|b l]; [destruct Hx|]. destruct Hx as [<-|Hx]; auto.
    apply Qclt_trans with b; auto. apply IH in G. inversion G; subst. rewrite Forall_forall in H3. auto.
  - intros G. inversion G; subst. split; [apply IH; auto|]. destruct l; auto. inversion H2; auto.
Qed.
Lemma down_SS l : goes_down l <-> StronglySorted (fun a b => (b < a)%Qc) l.
Proof.
  induction l as [|a l IH]; [split; [constructor|intros _ [|i] j p q; discriminate]|]. rewrite goes_down_cons. split.
  - intros [G H]. constructor; [apply IH; auto|]. apply Forall_forall. intros x Hx. destruct l as [|b l]; [destruct Hx|]. destruct Hx as [<-|Hx]; auto.
    apply Qclt_trans with b; auto. apply IH in G. inversion G; subst. rewrite Forall_forall in H3. auto.
  - intros G. inversion G; subst. split; [apply IH; auto|]. destruct l; auto. inversion H2; auto.
Qed.
Lemma SS_points R drop m : forall xs fs, StronglySorted R xs -> StronglySorted R (map fst (points drop m xs fs)).
Proof.
  assert (SUB : forall xs fs x, In x (map fst (points drop m xs fs)) -> In x xs).
  { intros xs fs x H. apply in_map_iff in H. destruct H as [[a b] [<- H]]. unfold points in H. destruct drop; [apply filter_In in H; destruct H as [H _]|]; apply in_combine_l in H; auto. }
  induction xs as [|x xs IH]; intros fs H; [destruct drop; constructor|]. destruct fs as [|f fs]; [destruct drop; constructor|]. inversion H; subst.
  assert (F : Forall (R x) (map fst (points drop m xs fs))) by (apply Forall_forall; intros y Hy; rewrite Forall_forall in H3; eauto).
  specialize (IH fs H2). unfold points in *. destruct drop; simpl; [destruct (Qceqb f m)|]; simpl; auto; constructor; auto.
Qed.
Lemma SS_ends (R : Qc -> Qc -> Prop) l a b p q : (forall a b c, R a b -> R b c -> R a c) -> StronglySorted R l ->
  nth_error l 0 = Some p -> nth_error l (length l - 1) = Some q -> R a p -> R q b -> StronglySorted R (a :: l ++ b :: nil).
Proof.
  intros T S P Q A B. assert (G : forall x, In x l -> R x b).
  { intros x Hx. apply In_nth_error in Hx. destruct Hx as [k Hk]. assert (k < length l) by (apply nth_error_Some; congruence).
    destruct (Nat.eq_dec k (length l - 1)) as [->|]; [congruence|]. apply T with q; auto. clear -S Hk Q H n.
    revert k Hk Q H n. induction S as [|y l S IH F]; intros k Hk Q H n; [simpl in *; lia|]. simpl in H. destruct k as [|k]; simpl in Hk.
    - injection Hk as <-. simpl length in *. rewrite Forall_forall in F. apply F. destruct l as [|z l]; [simpl in n; lia|]. apply (nth_error_In _ (length l)). simpl in Q. rewrite ?Nat.sub_0_r in Q. auto.
    - apply (IH k); auto; try lia. simpl in Q. rewrite Nat.sub_0_r in Q. destruct l as [|z l]; [destruct k; discriminate|]. simpl in *. rewrite Nat.sub_0_r. auto. simpl in *. lia. }
  constructor.
  - clear -S G T. induction S as [|y l S IH F]; simpl; [constructor; constructor|]. constructor; [apply IH; simpl in *; auto|]. apply Forall_app. split; auto. constructor; auto. apply G. simpl. auto.
  - destruct l as [|z l]; [discriminate|]. injection P as ->. simpl. constructor; auto. inversion S; subst. apply Forall_app. split.
    + apply Forall_forall. intros y Hy. rewrite Forall_forall in H2. eauto. + constructor; auto. apply T with p; auto. apply G. simpl. auto.
Qed.
Lemma step_up (a b : Qc) s : (a < b)%Qc -> 1 <= s -> (0 < qz (Z.of_nat s) * (b - a))%Qc.
Proof. intros H Hs. apply Qcmul_pos. - rewrite <- qz_0. apply qz_lt. lia. - qclra. Qed.
Lemma source_goes f cyc drop m xs fs W : 2 <= length xs -> goes f xs -> source cyc drop m xs fs W -> goes f (map fst W).
Proof.
  intros L2 G S. unfold source in S. set (s := if drop then leading m fs + leading m (rev fs) + 1 else 1) in S.
  assert (Hs : 1 <= s) by (subst s; destruct drop; lia). clearbody s. destruct cyc.
  - destruct S as [p [q [x1 [x2 [xm [xn [P [Q [X1 [X2 [Xm [Xn ->]]]]]]]]]]]]. cbn [map fst]. rewrite map_app. cbn [map fst].
    apply (map_nth_error fst) in P, Q. rewrite <- (map_length fst) in Q.
    destruct G as [[-> G]|[-> G]]; [left|right]; (split; [auto|]).
    + apply up_SS. apply (SS_ends Qclt _ _ _ (fst p) (fst q)); auto. apply Qclt_trans. apply SS_points, up_SS; auto.
      * pose proof (step_up x1 x2 s (G 0 1 _ _ ltac:(lia) X1 X2) Hs) as H. set (y := (_ * _)%Qc) in *. clearbody y. qclra.
      * pose proof (step_up xm xn s (G (length xs - 2) (length xs - 1) _ _ ltac:(lia) Xm Xn) Hs) as H. set (y := (_ * _)%Qc) in *. clearbody y. qclra.
    + apply down_SS. apply (SS_ends (fun a b => (b < a)%Qc) _ _ _ (fst p) (fst q)); auto. intros a b c A B. eapply Qclt_trans; eauto. apply SS_points, down_SS; auto.
      * pose proof (step_up x2 x1 s (G 0 1 _ _ ltac:(lia) X1 X2) Hs) as H. replace (qz (Z.of_nat s) * (x2 - x1))%Qc with (0 - qz (Z.of_nat s) * (x1 - x2))%Qc by ring. set (y := (qz _ * _)%Qc) in *. clearbody y. qclra.
      * pose proof (step_up xn xm s (G (length xs - 2) (length xs - 1) _ _ ltac:(lia) Xm Xn) Hs) as H. replace (qz (Z.of_nat s) * (xn - xm))%Qc with (0 - qz (Z.of_nat s) * (xm - xn))%Qc by ring. set (y := (qz _ * _)%Qc) in *. clearbody y. qclra.
  - subst W. destruct G as [[-> G]|[-> G]]; [left|right]; (split; [auto|]); [apply up_SS, SS_points, up_SS|apply down_SS, SS_points, down_SS]; auto.
Qed.

(** ** Filling the work arrays *)
Lemma wrx_split (b : list Qc) a v k : k = length a + 1 -> 1 <= length b -> wrx (a ++ b) k v = Some ((a ++ v :: nil) ++ skipn 1 b).
Proof. intros -> H. destruct b as [|y b]; [simpl in H; lia|]. rewrite wrx_at by auto. rewrite <- app_assoc. auto. Qed.
Lemma copy_row_ok (xf ff suf : list Qc) : forall (sf pre pf a b c d : list Qc), length suf = length sf -> length pre = length pf -> xf = pre ++ suf -> ff = pf ++ sf ->
  length a = length pre + 1 -> length c = length pre + 1 -> length suf <= length b -> length suf <= length d ->
  foldM (fun w nx => let* x := rd xf nx in let* f := rd ff nx in
                     let* xiw := wrx (fst w) (nx + 1) x in
                     let* fxiw := wrx (snd w) (nx + 1) f in Some (xiw, fxiw)) (seq (length pre + 1) (length suf)) (a ++ b, c ++ d)
  = Some (a ++ suf ++ skipn (length suf) b, c ++ sf ++ skipn (length suf) d).
Proof.
  induction suf as [|x suf IH]; intros sf pre pf a b c d L LP EX EF LA LC LB LD.
  - destruct sf; [|discriminate]. reflexivity.
  - destruct sf as [|f sf]; [discriminate|]. cbn [length seq foldM]. subst xf ff. rewrite (rd_at _ pre suf x) by auto. rewrite (rd_at _ pf sf f) by (rewrite <- LP; auto). cbn [bind fst snd].
    simpl in LB, LD, L. rewrite wrx_split by lia. cbn [bind]. rewrite wrx_split by lia. cbn [bind].
    replace (Datatypes.S (length pre + 1)) with (length (pre ++ x :: nil) + 1) by (rewrite app_length; simpl; lia).
    rewrite (IH sf (pre ++ x :: nil) (pf ++ f :: nil)); try rewrite !app_length; cbn [length]; try lia; try (rewrite <- app_assoc; reflexivity); rewrite ?skipn_length; try lia.
    rewrite !skipn_skipn', <- !app_assoc. replace (length suf + 1) with (Datatypes.S (length suf)) by lia. reflexivity.
Qed.
Lemma copy_row_whole xi fi xw fw : length xi = length fi -> length xi + 1 <= length xw -> length xi + 1 <= length fw ->
  copy_row xi fi (xw, fw) = Some (firstn 1 xw ++ xi ++ skipn (length xi + 1) xw, firstn 1 fw ++ fi ++ skipn (length xi + 1) fw).
Proof.
  intros L A B. unfold copy_row. rewrite <- (firstn_skipn 1 xw) at 1. rewrite <- (firstn_skipn 1 fw) at 1.
  pose proof (copy_row_ok xi fi xi fi [] [] (firstn 1 xw) (skipn 1 xw) (firstn 1 fw) (skipn 1 fw)) as H. change (length (@nil Qc) + 1) with 1 in H. rewrite H; cbn [length]; auto; try (rewrite firstn_length; lia); try (rewrite skipn_length; lia).
  rewrite !skipn_skipn'. auto.
Qed.
Lemma leading_app m l f : leading m (l ++ f :: nil) = if forallb (fun v => Qceqb v m) l then length l + (if Qceqb f m then 1 else 0) else leading m l.
Proof. induction l as [|a l IH]; simpl; [destruct (Qceqb f m); auto|]. destruct (Qceqb a m); simpl; auto. rewrite IH. destruct (forallb _ l); auto. Qed.
Lemma points_nil m : forall xs fs, length xs = length fs -> points true m xs fs = [] <-> forallb (fun v => Qceqb v m) fs = true.
Proof.
  induction xs as [|x xs IH]; intros [|f fs] L; try discriminate; [simpl; tauto|]. injection L as L. unfold points in *. simpl. destruct (Qceqb f m); simpl; [apply IH; auto|]. split; discriminate.
Qed.
Lemma forallb_rev' (A : Type) (p : A -> bool) l : forallb p (rev l) = forallb p l.
Proof. induction l as [|a l IH]; simpl; auto. rewrite forallb_app, IH. simpl. rewrite andb_true_r. apply andb_comm. Qed.
Lemma pack_ok m xs : forall fs nx np st la a b c d, length xs = length fs -> length a = np + 1 -> length c = np + 1 -> length xs <= length b -> length xs <= length d ->
  exists st' la' b' d', let L := points true m xs fs in
    pack m xs fs nx (np, (st, la)) (a ++ b, c ++ d) = Some ((np + length L, (st', la')), (a ++ map fst L ++ b', c ++ map snd L ++ d')) /\
    length b' = length b - length L /\ length d' = length d - length L /\
    (L <> [] -> la' + leading m (rev fs) + 1 = nx + length xs /\ (np = 0 -> st' = nx + leading m fs) /\ (np <> 0 -> st' = st)).
Proof.
  induction xs as [|x xs IH]; intros fs nx np st la a b c d L LA LC LB LD.
  - destruct fs; [|discriminate]. exists st, la, b, d. simpl. rewrite Nat.add_0_r, !Nat.sub_0_r. split; auto. split; auto. split; auto. congruence.
  - destruct fs as [|f fs]; [discriminate|]. injection L as L. simpl in LB, LD. cbn [pack rev length]. rewrite leading_app. unfold points. cbn [combine filter snd leading].
    change (filter (fun p => negb (snd p =? m)%Qc) (combine xs fs)) with (points true m xs fs). destruct (Qceqb_spec f m) as [E|E]; cbn [negb].
    + destruct (IH fs (nx + 1) np st la a b c d) as [st' [la' [b' [d' [H1 [H2 [H3 H4]]]]]]]; auto; try lia.
      exists st', la', b', d'. split; auto. split; auto. split; auto. intros N. destruct (H4 N) as [K1 [K2 K3]].
      destruct (forallb (fun v => Qceqb v m) (rev fs)) eqn:FA. { rewrite forallb_rev' in FA. apply (points_nil m xs) in FA; auto. contradiction. }
      split; [lia|]. split; auto. intros Z. rewrite K2; auto. lia.
    + cbn [fst snd]. rewrite wrx_split by lia. cbn [bind]. rewrite wrx_split by lia. cbn [bind].
      destruct (IH fs (nx + 1) (np + 1) (if np + 1 =? 1 then nx else st) nx (a ++ x :: nil) (skipn 1 b) (c ++ f :: nil) (skipn 1 d)) as [st' [la' [b' [d' [H1 [H2 [H3 H4]]]]]]]; auto; try (rewrite ?app_length, ?skipn_length; simpl; lia).
      destruct (points true m xs fs) as [|p L'] eqn:EL.
      * assert (FA : forallb (fun v => Qceqb v m) (rev fs) = true) by (rewrite forallb_rev'; apply (points_nil m xs); auto). rewrite FA.
        cbn [length map app] in *.
        assert (NP : forall xs fs n c w, points true m xs fs = [] -> length xs = length fs -> pack m xs fs n c w = Some (c, w)).
        { clear. induction xs as [|x xs IH]; intros [|f fs] n c w P L; auto; try discriminate. injection L as L. cbn [pack]. unfold points in P. simpl in P. destruct (Qceqb f m); simpl in *; [apply IH; auto|discriminate]. }
        rewrite NP by auto. exists (if np + 1 =? 1 then nx else st), nx, (skipn 1 b), (skipn 1 d). rewrite <- !app_assoc. split; auto. rewrite !skipn_length. split; [lia|]. split; [lia|]. intros _. rewrite rev_length.
        destruct (Qceqb_spec f m); [contradiction|]. split; [lia|]. destruct (Nat.eqb_spec (np + 1) 1); split; intros; lia.
      * exists st', la', b', d'. rewrite H1. rewrite skipn_length in H2, H3. rewrite <- !app_assoc. cbn [length map app] in *. split; [rewrite <- Nat.add_assoc; auto|]. split; [lia|]. split; [lia|]. intros _.
        destruct (H4 ltac:(discriminate)) as [K1 [K2 K3]].
        destruct (forallb (fun v => Qceqb v m) (rev fs)) eqn:FA. { rewrite forallb_rev' in FA. apply (points_nil m xs) in FA; auto. congruence. }
        split; [lia|]. rewrite K3 by lia. destruct (Nat.eqb_spec (np + 1) 1); split; intros; lia.
Qed.
Lemma points_ends m : forall xs fs p, length xs = length fs -> nth_error (points true m xs fs) 0 = Some p -> leading m fs = 0 -> nth_error (combine xs fs) 0 = Some p.
Proof. intros [|x xs] [|f fs] p L H E; try discriminate. unfold points in H. simpl in *. destruct (Qceqb f m); [discriminate|]. exact H. Qed.
Lemma points_last m : forall xs fs q, length xs = length fs -> nth_error (points true m xs fs) (length (points true m xs fs) - 1) = Some q -> leading m (rev fs) = 0 ->
  nth_error (combine xs fs) (length xs - 1) = Some q.
Proof.
  intros xs fs q L H E. destruct (length xs) eqn:LX. { destruct xs, fs; discriminate. }
  destruct (exists_last (l := xs)) as [xs' [x ->]]; [destruct xs; discriminate|]. destruct (exists_last (l := fs)) as [fs' [f ->]]; [destruct fs; discriminate|].
  rewrite !app_length in *. simpl in L, LX. rewrite rev_app_distr in E. simpl in E. destruct (Qceqb f m) eqn:Ef; [discriminate|].
  assert (C : combine (xs' ++ x :: nil) (fs' ++ f :: nil) = combine xs' fs' ++ (x, f) :: nil).
  { assert (L' : length xs' = length fs') by lia. clear -L'. revert fs' L'. induction xs' as [|y xs' IH]; intros [|g fs'] L'; try discriminate; auto. simpl. f_equal. apply IH. injection L'; auto. }
  unfold points in H. rewrite C in *. rewrite filter_app in H. simpl in H. rewrite Ef in H. simpl in H. rewrite app_length in H. simpl in H.
  rewrite nth_error_app2 in H by lia. rewrite nth_error_app2 by (rewrite combine_length; lia). rewrite combine_length. replace (_ + 1 - 1 - _) with 0 in H by lia. replace (_ - 1 - _) with 0 by lia. exact H.
Qed.
