From Verif Require Import Base Buffer Loops VH_Model VH_Spec VH_Proofs LM_Proofs IS_Proofs LI_Model LI_Spec LI_Proofs LI_Proofs2 LI_Proofs3.
Local Open Scope nat_scope.

Lemma mapS_ok (A B St : Type) (f : St -> A -> option (B * St)) (I : St -> Prop) (Q : A -> B -> Prop) : forall l s, I s ->
  (forall x s, In x l -> I s -> exists y s', f s x = Some (y, s') /\ I s' /\ Q x y) -> exists ys, mapS f l s = Some ys /\ Forall2 Q l ys.
Proof.
  induction l as [|x l IH]; intros s Hs H; [exists []; split; auto|]. cbn [mapS]. destruct (H x s) as [y [s' [E [Hs' Hq]]]]; simpl; auto.
  rewrite E. cbn [bind fst snd]. destruct (IH s') as [ys [E2 F]]; auto. { intros; apply H; simpl; auto. } rewrite E2. cbn [bind]. exists (y :: ys). auto.
Qed.
Lemma pack_y_ok m ys : forall fs np a b c d, length ys = length fs -> length a = np -> length c = np -> length ys <= length b -> length ys <= length d ->
  exists b' d', let L := points true m ys fs in
    pack_y m ys fs np (a ++ b, c ++ d) = Some (np + length L, (a ++ map fst L ++ b', c ++ map snd L ++ d')) /\ length b' = length b - length L /\ length d' = length d - length L.
Proof.
  induction ys as [|x ys IH]; intros fs np a b c d L LA LC LB LD.
  - exists b, d. simpl. rewrite Nat.add_0_r, !Nat.sub_0_r. auto.
  - destruct fs as [|f fs]; [discriminate|]. injection L as L. simpl in LB, LD. cbn [pack_y]. unfold points. cbn [combine filter snd].
    change (filter (fun p => negb (snd p =? m)%Qc) (combine ys fs)) with (points true m ys fs). destruct (Qceqb_spec f m) as [E|E]; cbn [negb].
    + destruct (IH fs np a b c d) as [b' [d' [H1 H2]]]; auto; try lia. eauto.
    + cbn [fst snd]. rewrite wrx_split by lia. cbn [bind]. rewrite wrx_split by lia. cbn [bind].
      destruct (IH fs (np + 1) (a ++ x :: nil) (skipn 1 b) (c ++ f :: nil) (skipn 1 d)) as [b' [d' [H1 [H2 H3]]]]; auto; try (rewrite ?app_length, ?skipn_length; simpl; lia).
      exists b', d'. rewrite H1. rewrite skipn_length in H2, H3. cbn [length map fst snd]. rewrite <- !app_assoc. cbn [app]. split; [rewrite <- Nat.add_assoc; auto|]. lia.
Qed.
Lemma column_ok ys yo ftmp iopt m f wa wb nx col : 2 <= length ys -> goes f ys -> goes f yo -> iopt = 0%Z \/ iopt = 1%Z ->
  mapM (fun row => rd row nx) ftmp = Some col -> length col = length ys -> 2 <= length (points (iopt =? 1)%Z m ys col) -> length ys <= length wa -> length ys <= length wb ->
  exists vs wa' wb', one_column ys yo ftmp iopt m f (wa, wb) nx = Some (vs, (wa', wb')) /\ length ys <= length wa' /\ length ys <= length wb' /\ pointwise (points (iopt =? 1)%Z m ys col) m yo vs.
Proof.
  intros H2 G GO IO EC LC LP LA LB. unfold one_column. rewrite EC. cbn [bind].
  assert (SR : source false (iopt =? 1)%Z m ys col (points (iopt =? 1)%Z m ys col)) by reflexivity.
  pose proof (source_goes f _ _ m ys col _ H2 G SR) as GW.
  assert (LIN : forall xt ft, exists vs, dlin2int1 (length (points (iopt =? 1)%Z m ys col)) (map fst (points (iopt =? 1)%Z m ys col) ++ xt) (map snd (points (iopt =? 1)%Z m ys col) ++ ft) yo m f = Some vs /\ pointwise (points (iopt =? 1)%Z m ys col) m yo vs).
  { intros xt ft. rewrite <- (map_length fst (points (iopt =? 1)%Z m ys col)). apply lin2int1_ok; auto; rewrite ?map_length; auto. }
  destruct IO as [-> | ->].
  - change (0 =? 0)%Z with true in *. change (0 =? 1)%Z with false in *. cbv iota in *. destruct (LIN [] []) as [vs [E P]]. rewrite !app_nil_r in E. unfold points in E. rewrite combine_fst, combine_snd, combine_length, LC, Nat.min_id in E by auto. rewrite E. cbn [bind fst]. exists vs, wa, col. split; auto. split; auto. split; [lia|]. auto.
  - change (1 =? 0)%Z with false in *. change (1 =? 1)%Z with true in *. cbv iota in *. destruct (pack_y_ok m ys col 0 [] wa [] wb) as [b' [d' [E [B1 B2]]]]; auto. cbn [app Nat.add] in E. rewrite E. cbn [bind fst snd].
    destruct (LIN b' d') as [vs [E2 P]]. rewrite E2. cbn [bind]. eexists vs, _, _. split; [reflexivity|]. rewrite !app_length, !map_length. split; [lia|]. split; [lia|]. auto.
Qed.
Lemma Forall2_nth (A B : Type) (R : A -> B -> Prop) l m : Forall2 R l m -> forall i a, nth_error l i = Some a -> exists b, nth_error m i = Some b /\ R a b.
Proof. intros F. induction F; intros [|i] a E; try discriminate; simpl in *; [injection E as <-; eauto|auto]. Qed.
Lemma Forall2_len (A B : Type) (R : A -> B -> Prop) l m : Forall2 R l m -> length l = length m. Proof. intros F. induction F; simpl; auto. Qed.
Lemma rows_column cy drop m xs xo fi ftmp nx x : rd xo nx = Some x -> Forall2 (fun row vs => exists W, source cy drop m xs row W /\ pointwise W m xo vs) fi ftmp ->
  exists col, mapM (fun row => rd row nx) ftmp = Some col /\ rows_at cy drop m xs fi x col.
Proof.
  intros E F. induction F as [|row vs fi ftmp [W [SR [LV P]]] F [col [EC R]]]; [exists []; split; [auto|constructor]|]. cbn [mapM].
  pose proof (rd_Some_bounds _ _ E) as Bn. rewrite rd_nth in E by lia. destruct (P _ _ E) as [v [Ev LA]].
  rewrite rd_nth by lia. rewrite Ev. cbn [bind]. rewrite EC. cbn [bind]. exists (v :: col). split; auto. constructor; eauto.
Qed.
Lemma linint2_ok f xs ys fi xo yo icycx iopt m xw fw wa wb :
  2 <= length xs -> 2 <= length ys -> length fi = length ys -> (forall row, In row fi -> length row = length xs) -> xo <> [] -> yo <> [] ->
  f <> 0%Z -> dmonoid2 xs xo = (f, 0%Z) -> dmonoid2 ys yo = (f, 0%Z) -> iopt = 0%Z \/ iopt = 1%Z ->
  length xs + 2 <= length xw -> length xs + 2 <= length fw -> length ys <= length wa -> length ys <= length wb ->
  (iopt = 1%Z -> forall row W, In row fi -> source (cyc icycx) true m xs row W -> 2 <= length W) ->
  (iopt = 1%Z -> forall row, In row fi -> exists v, In v row /\ v <> m) ->
  (iopt = 1%Z -> forall x g, In x xo -> rows_at (cyc icycx) true m xs fi x g -> 2 <= length (points true m ys g)) ->
  exists cols, dlinint2 xs ys fi xo yo icycx iopt m (xw, fw) (wa, wb) = Some (cols, 0%Z) /\ length cols = length xo /\
    forall i j x y, nth_error xo i = Some x -> nth_error yo j = Some y ->
      exists col v, nth_error cols i = Some col /\ length col = length yo /\ nth_error col j = Some v /\ grid_value (cyc icycx) (iopt =? 1)%Z m xs ys fi x y v.
Proof.
  intros H2 H2y LF LR NX NY NF DX DY IO W1 W2 W3 W4 RV RN CV. destruct (monoid2_ok _ _ _ _ DX NF eq_refl) as [GX GXO]. destruct (monoid2_ok _ _ _ _ DY NF eq_refl) as [GY GYO].
  unfold dlinint2. rewrite DX, DY. destruct (Nat.ltb_spec (length xo) 1); [destruct xo; simpl in *; [congruence|lia]|]. destruct (Nat.ltb_spec (length yo) 1); [destruct yo; simpl in *; [congruence|lia]|].
  destruct (Nat.ltb_spec (length xs) 2); [lia|]. destruct (Nat.ltb_spec (length ys) 2); [lia|]. destruct (Z.eqb_spec f 0); [contradiction|]. cbn [orb negb Z.eqb].
  match goal with |- context [mapS ?h fi (xw, fw)] =>
    destruct (mapS_ok _ _ _ h (fun w => length xs + 2 <= length (fst w) /\ length xs + 2 <= length (snd w))
      (fun row vs => exists W, source (cyc icycx) (iopt =? 1)%Z m xs row W /\ pointwise W m xo vs) fi (xw, fw)) as [ftmp [EF F]] end; [simpl; auto| |].
  { intros row [w w'] Hin [Hw1 Hw2]. simpl in Hw1, Hw2. assert (LRW := LR row Hin).
    assert (NE : points (iopt =? 1)%Z m xs row <> []).
    { destruct IO as [-> | ->]. { change (0 =? 1)%Z with false. intros E. apply (f_equal (@length _)) in E. unfold points in E. rewrite combine_length in E. simpl in E. lia. }
      change (1 =? 1)%Z with true. intros E. apply points_nil in E; auto. rewrite forallb_forall in E. destruct (RN eq_refl row Hin) as [v [Hv1 Hv2]]. specialize (E v Hv1). apply Hv2. destruct (Qceqb_spec v m); congruence. }
    destruct (source_exists xs row m (cyc icycx) (iopt =? 1)%Z H2 NE) as [W SR].
    assert (LW : 2 <= length W).
    { destruct IO as [-> | ->]; [|eapply RV; eauto]. unfold source in SR. destruct (cyc icycx).
      - destruct SR as [p [q [x1 [x2 [xm [xn [P [Q [_ [_ [_ [_ ->]]]]]]]]]]]]. simpl. rewrite app_length. simpl. lia.
      - subst W. change (0 =? 1)%Z with false. unfold points. rewrite combine_length. lia. }
    destruct (one_row_ok false xs row xo icycx iopt m f w w' W) as [vs [xw' [fw' [E [E1 [E2 P]]]]]]; auto. rewrite E. cbn [bind fst snd].
    exists vs, (xw', fw'). split; auto. split; [simpl; lia|]. exists W. auto. }
  rewrite EF. cbn [bind].
  match goal with |- context [mapS ?h (seq 1 (length xo)) (wa, wb)] =>
    destruct (mapS_ok _ _ _ h (fun w => length ys <= length (fst w) /\ length ys <= length (snd w))
      (fun nx vs => forall x, rd xo nx = Some x -> exists g, rows_at (cyc icycx) (iopt =? 1)%Z m xs fi x g /\ pointwise (points (iopt =? 1)%Z m ys g) m yo vs) (seq 1 (length xo)) (wa, wb)) as [cols [EC FC]] end; [simpl; auto| |].
  { intros nx [w w'] Hin [Hw1 Hw2]. simpl in Hw1, Hw2. apply in_seq in Hin. destruct (rd_Some xo (i := nx)) as [x Ex]; [lia|].
    destruct (rows_column _ _ _ _ _ _ _ _ _ Ex F) as [col [Ecol R]].
    assert (LC : length col = length ys). { apply Forall2_len in R. lia. }
    assert (LP : 2 <= length (points (iopt =? 1)%Z m ys col)).
    { destruct IO as [-> | ->]; [|apply (CV eq_refl x); auto; eapply rd_In; eauto]. change (0 =? 1)%Z with false. unfold points. rewrite combine_length. lia. }
    destruct (column_ok ys yo ftmp iopt m f w w' nx col) as [vs [wa' [wb' [E [E1 [E2 P]]]]]]; auto. rewrite E. exists vs, (wa', wb'). split; auto. split; auto.
    intros x' Ex'. rewrite Ex in Ex'. injection Ex' as <-. eauto. }
  rewrite EC. cbn [bind]. exists cols. split; auto. split. { apply Forall2_len in FC. rewrite seq_length in FC. auto. }
  intros i j x y Ex Ey. assert (B : i < length xo) by (apply nth_error_Some; congruence).
  destruct (Forall2_nth _ _ _ _ _ FC i (i + 1)) as [col [E P]]. { rewrite (nth_error_nth' _ 0) by (rewrite seq_length; auto). rewrite seq_nth by auto. f_equal. lia. }
  destruct (P x) as [g [R [LV PW]]]. { rewrite <- nth_rd. auto. } destruct (PW j y Ey) as [v [Ev LA]]. exists col, v. split; auto. split; auto. split; auto. exists g. auto.
Qed.

(** ** [linear_at] determines the value *)
Lemma inc_bracket xs i j a b c d t : goes_up xs -> nth_error xs i = Some a -> nth_error xs (i + 1) = Some b -> nth_error xs j = Some c -> nth_error xs (j + 1) = Some d ->
  (a < t)%Qc -> (t < b)%Qc -> (c < t)%Qc -> (t < d)%Qc -> i = j.
Proof.
  intros G A B C D H1 H2 H3 H4. destruct (Nat.lt_trichotomy i j) as [H|[H|H]]; auto; exfalso.
  - destruct (Nat.eq_dec (i + 1) j) as [<-|]. { rewrite B in C. injection C as <-. qclra. }
    apply (Qclt_irrefl t). apply Qclt_trans with b; auto. apply Qclt_trans with c; auto. apply (G (i + 1) j); auto. lia.
  - destruct (Nat.eq_dec (j + 1) i) as [<-|]. { rewrite D in A. injection A as <-. qclra. }
    apply (Qclt_irrefl t). apply Qclt_trans with d; auto. apply Qclt_trans with a; auto. apply (G (j + 1) i); auto. lia.
Qed.
Lemma dec_bracket xs i j a b c d t : goes_down xs -> nth_error xs i = Some a -> nth_error xs (i + 1) = Some b -> nth_error xs j = Some c -> nth_error xs (j + 1) = Some d ->
  (b < t)%Qc -> (t < a)%Qc -> (d < t)%Qc -> (t < c)%Qc -> i = j.
Proof.
  intros G A B C D H1 H2 H3 H4. destruct (Nat.lt_trichotomy i j) as [H|[H|H]]; auto; exfalso.
  - destruct (Nat.eq_dec (i + 1) j) as [<-|]. { rewrite B in C. injection C as <-. qclra. }
    apply (Qclt_irrefl t). apply Qclt_trans with c; auto. apply Qclt_trans with b; auto. apply (G (i + 1) j); auto. lia.
  - destruct (Nat.eq_dec (j + 1) i) as [<-|]. { rewrite D in A. injection A as <-. qclra. }
    apply (Qclt_irrefl t). apply Qclt_trans with a; auto. apply Qclt_trans with d; auto. apply (G (j + 1) i); auto. lia.
Qed.
Lemma step_between xs i a b : strictly_monotone xs -> nth_error xs i = Some a -> nth_error xs (i + 1) = Some b -> (goes_up xs /\ (a < b)%Qc) \/ (goes_down xs /\ (b < a)%Qc).
Proof. intros [G|G] A B; [left|right]; split; auto; apply (G i (i + 1)); auto; lia. Qed.
Lemma same_cell xs i j a b c d t : strictly_monotone xs -> nth_error xs i = Some a -> nth_error xs (i + 1) = Some b -> nth_error xs j = Some c -> nth_error xs (j + 1) = Some d ->
  strictly_between t a b -> strictly_between t c d -> i = j.
Proof.
  intros M A B C D H K. destruct (step_between _ _ _ _ M A B) as [[G O]|[G O]], H as [[H1 H2]|[H1 H2]], K as [[K1 K2]|[K1 K2]];
    try (exfalso; apply (Qclt_irrefl t); apply Qclt_trans with a; auto; apply Qclt_trans with b; auto; fail);
    try (exfalso; apply (Qclt_irrefl t); apply Qclt_trans with b; auto; apply Qclt_trans with a; auto; fail);
    pose proof (G j (j + 1) _ _ ltac:(lia) C D) as Q;
    first [eapply (inc_bracket xs i j a b c d t); eauto; fail | eapply (dec_bracket xs i j a b c d t); eauto; fail
          | exfalso; apply (Qclt_irrefl t); apply Qclt_trans with c; auto; apply Qclt_trans with d; auto; fail
          | exfalso; apply (Qclt_irrefl t); apply Qclt_trans with d; auto; apply Qclt_trans with c; auto; fail].
Qed.
Lemma mono_inj xs i j t : strictly_monotone xs -> nth_error xs i = Some t -> nth_error xs j = Some t -> i = j.
Proof. intros M A B. destruct (Nat.lt_trichotomy i j) as [H|[H|H]]; auto; exfalso; apply (Qclt_irrefl t); destruct M as [G|G]; pose proof (G _ _ _ _ H ltac:(eassumption) ltac:(eassumption)); auto. Qed.
Lemma no_point xs i j a b t : strictly_monotone xs -> nth_error xs i = Some a -> nth_error xs (i + 1) = Some b -> strictly_between t a b -> nth_error xs j = Some t -> False.
Proof.
  intros M A B H T. destruct (Nat.eq_dec j i) as [->|]. { rewrite A in T. injection T as <-. destruct H as [[H _]|[_ H]]; apply (Qclt_irrefl _ H). }
  destruct (Nat.eq_dec j (i + 1)) as [->|]. { rewrite B in T. injection T as <-. destruct H as [[_ H]|[H _]]; apply (Qclt_irrefl _ H). }
  assert (j < i \/ i + 1 < j) as [O|O] by lia; destruct M as [G|G], H as [[H1 H2]|[H1 H2]].
  - pose proof (G j i _ _ O T A). qclra.
  - pose proof (G j i _ _ O T A). pose proof (G i (i + 1) _ _ ltac:(lia) A B). qclra.
  - pose proof (G j i _ _ O T A). pose proof (G i (i + 1) _ _ ltac:(lia) A B). qclra.
  - pose proof (G j i _ _ O T A). qclra.
  - pose proof (G _ j _ _ O B T). qclra.
  - pose proof (G _ j _ _ O B T). pose proof (G i (i + 1) _ _ ltac:(lia) A B). qclra.
  - pose proof (G _ j _ _ O B T). pose proof (G i (i + 1) _ _ ltac:(lia) A B). qclra.
  - pose proof (G _ j _ _ O B T). qclra.
Qed.
Definition beyond (xs : list Qc) t := (forall x, In x xs -> (t < x)%Qc) \/ (forall x, In x xs -> (x < t)%Qc).
Lemma beyond_point xs i t : beyond xs t -> nth_error xs i = Some t -> False.
Proof. intros [H|H] E; apply nth_error_In in E; apply H in E; apply (Qclt_irrefl _ E). Qed.
Lemma beyond_between xs i j a b t : beyond xs t -> nth_error xs i = Some a -> nth_error xs j = Some b -> strictly_between t a b -> False.
Proof.
  intros H A B K. apply nth_error_In in A, B. destruct H as [H|H], K as [[K1 K2]|[K1 K2]]; apply H in A; apply H in B; qclra.
Qed.
Lemma linear_at_unique xs fs m t v v' : strictly_monotone xs -> linear_at xs fs m t v -> linear_at xs fs m t v' -> v = v'.
Proof.
  intros M H K. destruct H as [i f A B|i a b c d A B C D S N1 N2|i a b c d A B C D S N1|O], K as [j f' A' B'|j a' b' c' d' A' B' C' D' S' N1' N2'|j a' b' c' d' A' B' C' D' S' N1'|O'];
    try (exfalso; exact (no_point _ _ _ _ _ _ M A' B' S' A)); try (exfalso; exact (no_point _ _ _ _ _ _ M A B S A')); try (exfalso; eapply beyond_point; eauto; fail); try (exfalso; exact (beyond_between _ _ _ _ _ _ O A' B' S')); try (exfalso; exact (beyond_between _ _ _ _ _ _ O' A B S)); auto.
  - rewrite (mono_inj _ _ _ _ M A A') in B. congruence.
  - pose proof (same_cell _ _ _ _ _ _ _ _ M A B A' B' S S') as <-. congruence.
  - exfalso. pose proof (same_cell _ _ _ _ _ _ _ _ M A B A' B' S S') as <-. destruct N1'; congruence.
  - exfalso. pose proof (same_cell _ _ _ _ _ _ _ _ M A B A' B' S S') as <-. destruct N1; congruence.
Qed.
