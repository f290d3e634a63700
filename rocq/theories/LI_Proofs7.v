From Verif Require Import Base Buffer Loops VH_Model VH_Spec VH_Proofs LM_Proofs IS_Proofs LI_Model LI_Spec LI_Proofs LI_Proofs2 LI_Proofs3 LI_Proofs4 LI_Proofs5 LI_Proofs6.
Local Open Scope nat_scope.

Section Pts.
Variable isq : Qc -> Qc.
Hypothesis isq_pos : forall d, (0 < d)%Qc -> (0 < isq d)%Qc.
Lemma lint2xy_ok xs ys fi xo yo m : goes_up xs -> goes_up ys -> 2 <= length xs -> 2 <= length ys -> length fi = length ys -> (forall row, In row fi -> length row = length xs) ->
  exists vs, dlint2xy isq xs ys fi xo yo m = Some vs /\ Forall2 (fun p v => point_at isq xs ys fi m (fst p) (snd p) v) (combine xo yo) vs.
Proof.
  intros GX GY HX HY LF LR. unfold dlint2xy. induction (combine xo yo) as [|[x y] l [vs [E F]]]; [exists []; split; auto|]. cbn [mapM fst snd].
  destruct (point_ok isq isq_pos xs ys fi m x y) as [v [Ev P]]; auto. rewrite Ev. cbn [bind]. rewrite E. cbn [bind]. exists (v :: vs). split; auto.
Qed.
Lemma up_ring xs x1 x2 xn : goes_up xs -> nth_error xs 0 = Some x1 -> nth_error xs 1 = Some x2 -> nth_error xs (length xs - 1) = Some xn ->
  goes_up (ring_row xs (x1 - (x2 - x1)) (xn + (x2 - x1))%Qc).
Proof.
  intros G A B C. pose proof (G 0 1 _ _ ltac:(lia) A B) as O. apply up_SS. unfold ring_row. apply (SS_ends Qclt _ _ _ x1 xn); auto; [apply Qclt_trans|apply up_SS; auto|qclra|qclra].
Qed.
(** the rows with their wrapped neighbours *)
Definition ring_rows (fi : list (list Qc)) : list (list Qc) := map (fun row => ring_row row (nth (length row - 1) row 0%Qc) (nth 0 row 0%Qc)) fi.
Lemma wrap_rows_ok n fi : forall fixw, (forall row, In row fi -> length row = n) -> 1 <= n -> length fixw = length fi -> (forall w, In w fixw -> length w = n + 2) ->
  mapM (fun rw => let* f1 := rd (fst rw) 1 in let* fn := rd (fst rw) n in wrap_row (fst rw) fn f1 (snd rw)) (combine fi fixw) = Some (ring_rows fi).
Proof.
  induction fi as [|row fi IH]; intros [|w fixw] LR N L LW; try discriminate; auto. cbn [combine mapM fst snd]. assert (LRW := LR row ltac:(simpl; auto)).
  destruct (rd_Some row (i := 1)) as [f1 F1]; [lia|]. destruct (rd_Some row (i := n)) as [fn Fn]; [lia|]. rewrite F1, Fn. cbn [bind].
  rewrite wrap_row_ok by (rewrite (LW w) by (simpl; auto); lia). cbn [bind]. rewrite IH; auto; [|intros; apply LR; simpl; auto|intros; apply LW; simpl; auto].
  cbn [bind ring_rows map]. unfold ring_row. rewrite rd_nth in F1, Fn by lia. rewrite (nth_error_nth _ _ _ F1). rewrite <- LRW in Fn. rewrite (nth_error_nth _ _ _ Fn). reflexivity.
Qed.
Lemma linint2pts_ok xs ys fi icycx xo yo m xiw fixw : 2 <= length xs -> 2 <= length ys -> goes_up xs -> goes_up ys -> length fi = length ys -> (forall row, In row fi -> length row = length xs) ->
  (icycx <> 0%Z -> length xiw = length xs + 2 /\ length fixw = length fi /\ forall w, In w fixw -> length w = length xs + 2) ->
  exists vs xs' fi', dlinint2pts isq xs ys fi icycx xo yo m xiw fixw = Some (Some vs) /\
    (if (icycx =? 0)%Z then xs' = xs /\ fi' = fi
     else (exists x1 x2 xn, nth_error xs 0 = Some x1 /\ nth_error xs 1 = Some x2 /\ nth_error xs (length xs - 1) = Some xn /\ xs' = ring_row xs (x1 - (x2 - x1)) (xn + (x2 - x1))%Qc) /\ fi' = ring_rows fi) /\
    Forall2 (fun p v => point_at isq xs' ys fi' m (fst p) (snd p) v) (combine xo yo) vs.
Proof.
  intros HX HY GX GY LF LR WS. unfold dlinint2pts. destruct (Nat.ltb_spec (length xs) 2); [lia|]. destruct (Nat.ltb_spec (length ys) 2); [lia|]. cbn [orb].
  unfold dmonoinc. destruct (steps_up xs); [|contradiction]. destruct (steps_up ys); [|contradiction]. cbn [negb]. destruct (Z.eqb_spec icycx 0) as [Z|Z].
  - destruct (lint2xy_ok xs ys fi xo yo m) as [vs [E F]]; auto. rewrite E. cbn [bind]. exists vs, xs, fi. auto.
  - destruct (WS Z) as [W1 [W2 W3]].
    destruct (rd_Some xs (i := 1)) as [x1 X1]; [lia|]. destruct (rd_Some xs (i := 2)) as [x2 X2]; [lia|]. destruct (rd_Some xs (i := length xs)) as [xn Xn]; [lia|].
    rewrite X1, X2, Xn. cbn [bind]. rewrite rd_nth in X1, X2, Xn by lia. cbn [Nat.sub] in X1, X2. rewrite wrap_row_ok by auto. cbn [bind]. rewrite wrap_rows_ok by (auto; lia). cbn [bind].
    fold (ring_row xs (x1 - (x2 - x1)) (xn + (x2 - x1))%Qc). pose proof (up_ring xs x1 x2 xn GX X1 X2 Xn) as GR.
    assert (LRR : length (ring_row xs (x1 - (x2 - x1)) (xn + (x2 - x1))%Qc) = length xs + 2). { unfold ring_row. simpl. rewrite app_length. simpl. lia. }
    destruct (lint2xy_ok (ring_row xs (x1 - (x2 - x1)) (xn + (x2 - x1))%Qc) ys (ring_rows fi) xo yo m) as [vs [E F]]; auto.
    + lia. + unfold ring_rows. rewrite map_length. auto.
    + intros row Hr. apply in_map_iff in Hr. destruct Hr as [r [<- Hr]]. rewrite LRR. unfold ring_row. simpl. rewrite app_length. simpl. rewrite (LR r Hr). lia.
    + rewrite E. cbn [bind]. eexists vs, _, _. split; [reflexivity|]. split; [|exact F]. split; auto. exists x1, x2, xn. auto.
Qed.
End Pts.

(** ** The workspace that f2py provides *)
Lemma foldM_reach (A St : Type) (f : St -> A -> option St) (I : St -> Prop) : (forall s x s', I s -> f s x = Some s' -> I s') -> forall l s s', I s -> foldM f l s = Some s' -> forall x, In x l -> exists s1 s2, I s1 /\ f s1 x = Some s2.
Proof.
  intros P. induction l as [|y l IH]; intros s s' Hs E x Hx; [destruct Hx|]. cbn [foldM] in E. destruct (f s y) as [s1|] eqn:E1; [|discriminate]. cbn [bind] in E. destruct Hx as [<-|Hx]; eauto.
Qed.
Lemma wrx_len (A : Type) (l : list A) k v l' : wrx l k v = Some l' -> length l' = length l /\ 1 <= k <= length l.
Proof. unfold wrx. destruct (Nat.leb_spec 1 k), (Nat.leb_spec k (length l)); cbn [andb]; try discriminate. intros E. injection E as <-. rewrite wr_length. auto. Qed.
Lemma copy_row_over xi fi w : 1 <= length xi -> length (fst w) = length xi -> copy_row xi fi w = None.
Proof.
  intros H L. destruct (copy_row xi fi w) as [w'|] eqn:E; auto. exfalso. unfold copy_row in E.
  refine (_ (foldM_reach _ _ _ (fun w => length (fst w) = length xi) _ _ _ _ L E (length xi) _)).
  - intros [s1 [s2 [I1 E1]]]. destruct (rd xi (length xi)); [|discriminate]. cbn [bind] in E1. destruct (rd fi (length xi)); [|discriminate]. cbn [bind] in E1.
    destruct (wrx (fst s1) (length xi + 1) q) eqn:E2; [|discriminate]. apply wrx_len in E2. lia.
  - intros s x s' I1 E1. destruct (rd xi x); [|discriminate]. cbn [bind] in E1. destruct (rd fi x); [|discriminate]. cbn [bind] in E1. destruct (wrx (fst s) (x + 1) q) eqn:E2; [|discriminate]. cbn [bind] in E1.
    destruct (wrx (snd s) (x + 1) q0); [|discriminate]. cbn [bind] in E1. injection E1 as <-. simpl. apply wrx_len in E2. lia.
  - apply in_seq. lia.
Qed.
Lemma pack_over m : forall xs fs nx c w, length xs = length fs -> (forall f, In f fs -> f <> m) -> 1 <= length xs -> length (fst w) < fst c + length xs + 1 -> pack m xs fs nx c w = None.
Proof.
  induction xs as [|x xs IH]; intros fs nx c w L V H B; [simpl in H; lia|]. destruct fs as [|f fs]; [discriminate|]. injection L as L. cbn [pack].
  destruct (Qceqb_spec f m) as [E|E]; [exfalso; apply (V f); simpl; auto|]. cbn [negb]. destruct (wrx (fst w) (fst c + 1 + 1) x) as [xiw|] eqn:E1; [|reflexivity]. cbn [bind]. apply wrx_len in E1.
  destruct (wrx (snd w) (fst c + 1 + 1) f) as [fw|]; [|reflexivity]. cbn [bind]. simpl in B. apply IH; auto; [intros; apply V; simpl; auto| |cbn [fst]; lia]. destruct xs; simpl in *; lia.
Qed.
Lemma linint1_over xi fi xo icycx iopt m w f : length xi = length fi -> 2 <= length xi -> xo <> [] -> dmonoid2 xi xo = (f, 0%Z) -> f <> 0%Z -> py_workspace xi w ->
  (icycx <> 0%Z /\ iopt = 0%Z) \/ (iopt = 1%Z /\ forall v, In v fi -> v <> m) -> dlinint1 xi fi xo icycx iopt m w = None.
Proof.
  intros L H2 NO D NF [W1 W2] C. unfold dlinint1. rewrite D. destruct (Nat.ltb_spec (length xo) 1); [destruct xo; simpl in *; [congruence|lia]|]. destruct (Nat.leb_spec (length xi) 1); [lia|]. destruct (Z.eqb_spec f 0); [contradiction|]. cbn [orb negb Z.eqb].
  assert (E : one_row true xi fi xo icycx iopt m f w = None); [|rewrite E; reflexivity]. unfold one_row. destruct C as [[C1 ->]|[-> V]].
  - destruct (Z.eqb_spec icycx 0); [contradiction|]. change (0 =? 0)%Z with true. cbv iota. rewrite copy_row_over by (auto; lia). reflexivity.
  - change (1 =? 0)%Z with false. change (1 =? 1)%Z with true. cbv iota. rewrite pack_over by (auto; simpl; lia). destruct (icycx =? 0)%Z; reflexivity.
Qed.
Lemma linint2pts_over isq xs ys fi icycx xo yo m xiw fixw : 2 <= length xs -> 2 <= length ys -> goes_up xs -> goes_up ys -> icycx <> 0%Z -> length xiw = length xs ->
  dlinint2pts isq xs ys fi icycx xo yo m xiw fixw = None.
Proof.
  intros HX HY GX GY Z L. unfold dlinint2pts. destruct (Nat.ltb_spec (length xs) 2); [lia|]. destruct (Nat.ltb_spec (length ys) 2); [lia|]. cbn [orb].
  unfold dmonoinc. destruct (steps_up xs); [|contradiction]. destruct (steps_up ys); [|contradiction]. cbn [negb]. destruct (Z.eqb_spec icycx 0); [contradiction|].
  destruct (rd xs 1); [|reflexivity]. cbn [bind]. destruct (rd xs 2); [|reflexivity]. cbn [bind]. destruct (rd xs (length xs)); [|reflexivity]. cbn [bind].
  destruct (wrap_row xs _ _ xiw) eqn:E; [|reflexivity]. exfalso. unfold wrap_row in E. destruct (foldM _ _ xiw) as [w|] eqn:F; [|discriminate].
  refine (_ (foldM_reach _ _ _ (fun w => length w = length xs) _ _ _ _ L F (length xs) _)).
  - intros [s1 [s2 [I1 E1]]]. destruct (rd xs (length xs)); [|discriminate]. cbn [bind] in E1. apply wrx_len in E1. lia.
  - intros s x s' I1 E1. destruct (rd xs x); [|discriminate]. cbn [bind] in E1. apply wrx_len in E1. lia.
  - apply in_seq. lia.
Qed.
