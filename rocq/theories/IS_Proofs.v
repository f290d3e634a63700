(** The sort and the search of the isentropic kernel. *)
From Coq Require Import Permutation Sorted.
From Verif Require Import Base Buffer Loops I2P_Model VH_Model VH_Proofs IS_Model IS_Spec.
Local Open Scope nat_scope.

Lemma rd_at (A : Type) (l1 l2 : list A) a k : k = length l1 + 1 -> rd (l1 ++ a :: l2) k = Some a.
Proof. intros ->. rewrite Nat.add_1_r. simpl. rewrite nth_error_app2, Nat.sub_diag by lia. reflexivity. Qed.
Lemma wr_at (A : Type) (l1 l2 : list A) a b k : k = length l1 + 1 -> wr (l1 ++ a :: l2) k b = l1 ++ b :: l2.
Proof. intros ->. rewrite Nat.add_1_r. simpl. induction l1; simpl; auto. f_equal. auto. Qed.
Lemma wrx_at (A : Type) (l1 l2 : list A) a b k : k = length l1 + 1 -> wrx (l1 ++ a :: l2) k b = Some (l1 ++ b :: l2).
Proof. intros ->. rewrite wrx_ok by (rewrite app_length; simpl; lia). f_equal. apply wr_at. auto. Qed.

Definition fsts (Z : list (Qc * Qc)) : list Qc := map fst Z.
Definition snds (Z : list (Qc * Qc)) : list Qc := map snd Z.

Lemma shift_ok tx : forall A h B, exists A1 A2 g, A = A1 ++ A2 /\ (forall a, In a A2 -> (tx < fst a)%Qc) /\
  (A1 = [] \/ exists A1' a, A1 = A1' ++ [a] /\ (fst a <= tx)%Qc) /\
  shift_pairs (length A) tx (map fst (A ++ h :: B)) (map snd (A ++ h :: B)) =
    Some (length A1, (map fst (A1 ++ g :: A2 ++ B), map snd (A1 ++ g :: A2 ++ B))).
Proof.
  induction A as [|a A IH] using rev_ind; intros h B.
  - exists [], [], h. simpl. split; auto. split; [tauto|]. split; auto.
  - rewrite app_length. cbn [length]. rewrite Nat.add_1_r. cbn [shift_pairs].
    assert (E : forall (f : Qc * Qc -> Qc) g, map f ((A ++ [a]) ++ g :: B) = map f A ++ f a :: f g :: map f B).
    { intros f g. rewrite !map_app. simpl. rewrite <- app_assoc. reflexivity. }
    rewrite !E. rewrite (rd_at _ (map fst A)) by (rewrite map_length; lia). cbn [bind].
    destruct (Qcltb_spec tx (fst a)) as [C|C].
    + rewrite (rd_at _ (map snd A)) by (rewrite map_length; lia). cbn [bind].
      replace (map fst A ++ fst a :: fst h :: map fst B) with ((map fst A ++ [fst a]) ++ fst h :: map fst B) by (rewrite <- app_assoc; reflexivity).
      replace (map snd A ++ snd a :: snd h :: map snd B) with ((map snd A ++ [snd a]) ++ snd h :: map snd B) by (rewrite <- app_assoc; reflexivity).
      rewrite !wrx_at by (rewrite app_length, map_length; simpl; lia). cbn [bind]. rewrite <- !app_assoc. cbn [app].
      destruct (IH a (a :: B)) as [A1 [A2 [g [E1 [H1 [H2 E2]]]]]].
      exists A1, (A2 ++ [a]), g. split; [rewrite E1, <- app_assoc; auto|]. split; [|split; auto].
      * intros b Hb. apply in_app_iff in Hb. destruct Hb as [Hb|[<-|[]]]; auto.
      * rewrite !(map_app _ A) in E2. cbn [map] in E2. rewrite <- !app_assoc. cbn [app]. exact E2.
    + exists (A ++ [a]), [], h. rewrite app_nil_r. split; auto. split; [intros b []|]. split.
      * right. exists A, a. split; auto. apply Qcnot_lt_le. auto.
      * rewrite app_length. simpl. rewrite Nat.add_1_r. rewrite !E. reflexivity.
Qed.

Definition le_key (p q : Qc * Qc) : Prop := (fst p <= fst q)%Qc.
Definition at_key (x : Qc) (L : list (Qc * Qc)) : list Qc := map snd (filter (fun p => Qceqb (fst p) x) L).
Lemma at_key_app x A B : at_key x (A ++ B) = at_key x A ++ at_key x B.
Proof. unfold at_key. rewrite filter_app, map_app. auto. Qed.
Lemma at_key_none x A : (forall a, In a A -> fst a <> x) -> at_key x A = [].
Proof. unfold at_key. induction A as [|a A IH]; simpl; intros H; auto. destruct (Qceqb_spec (fst a) x); [destruct (H a); auto|]. auto. Qed.
Lemma sorted_app (A B : list (Qc * Qc)) : StronglySorted le_key A -> StronglySorted le_key B -> (forall a b, In a A -> In b B -> le_key a b) -> StronglySorted le_key (A ++ B).
Proof.
  induction A as [|a A IH]; simpl; intros SA SB H; auto. inversion SA; subst. constructor.
  - apply IH; auto. - apply Forall_app. split; auto. apply Forall_forall. auto.
Qed.
Lemma sorted_app_inv (A B : list (Qc * Qc)) : StronglySorted le_key (A ++ B) -> StronglySorted le_key A /\ StronglySorted le_key B /\ (forall a b, In a A -> In b B -> le_key a b).
Proof.
  induction A as [|a A IH]; simpl; intros SA; [split; [constructor|]; split; [auto|intros ? ? []]|].
  inversion SA; subst. destruct (IH H1) as [S1 [S2 S3]]. rewrite Forall_app in H2. destruct H2 as [F1 F2]. split; [constructor; auto|]. split; auto.
  intros x b [<-|Hx] Hb; auto. rewrite Forall_forall in F2. auto.
Qed.

Definition sorting_step : list Qc * list Qc -> nat -> option (list Qc * list Qc) := fun '(x, y) i =>
    let* tx := rd x i in
    let* ty := rd y i in
    let* r := shift_pairs (i - 1) tx x y in
    let '(j, (x, y)) := r in
    let* x := wrx x (j + 1) tx in
    let* y := wrx y (j + 1) ty in
    Some (x, y).
Lemma step_ok A b B : StronglySorted le_key A ->
  exists A', sorting_step (map fst (A ++ b :: B), map snd (A ++ b :: B)) (length A + 1) = Some (map fst (A' ++ B), map snd (A' ++ B)) /\
    StronglySorted le_key A' /\ Permutation A' (A ++ [b]) /\ length A' = length A + 1 /\ forall x, at_key x A' = at_key x (A ++ [b]).
Proof.
  intros SA. unfold sorting_step. destruct b as [tx ty].
  assert (E : forall f : Qc * Qc -> Qc, map f (A ++ (tx, ty) :: B) = map f A ++ f (tx, ty) :: map f B) by (intros f; rewrite map_app; reflexivity).
  rewrite !E. rewrite !rd_at by (rewrite map_length; auto). cbn [bind]. rewrite <- !E. rewrite Nat.add_sub. cbn [fst snd].
  destruct (shift_ok tx A (tx, ty) B) as [A1 [A2 [g [E1 [H1 [H2 E2]]]]]]. rewrite E2. cbn [bind].
  rewrite !map_app. cbn [map]. rewrite !wrx_at by (rewrite map_length; auto). cbn [bind].
  exists (A1 ++ (tx, ty) :: A2). rewrite E1 in SA. destruct (sorted_app_inv _ _ SA) as [S1 [S2 S3]].
  split; [|split; [|split; [|split]]].
  - rewrite <- app_assoc. cbn [app]. rewrite !map_app. cbn [map]. rewrite !map_app. reflexivity.
  - apply sorted_app; auto.
    + constructor; auto. apply Forall_forall. intros a Ha. unfold le_key. cbn [fst]. apply Qclt_le_weak. auto.
    + intros a c Ha [<-|Hc]; auto. unfold le_key. cbn [fst]. destruct H2 as [->|[A1' [z [-> Hz]]]]; [destruct Ha|].
      apply Qcle_trans with (fst z); auto. apply in_app_iff in Ha. destruct Ha as [Ha|[<-|[]]]; [|apply Qcle_refl].
      destruct (sorted_app_inv _ _ S1) as [_ [_ S4]]. apply S4; simpl; auto.
  - rewrite E1. rewrite <- app_assoc. apply Permutation_app_head. apply Permutation_cons_append.
  - rewrite E1, !app_length. simpl. lia.
  - intros x. rewrite E1. rewrite <- app_assoc, !at_key_app. f_equal.
    change ((tx, ty) :: A2) with ([(tx, ty)] ++ A2). rewrite at_key_app.
    destruct (Qc_eq_dec tx x) as [<-|N].
    + rewrite (at_key_none tx A2), app_nil_r; [auto|]. intros a Ha Z. apply H1 in Ha. rewrite Z in Ha. destruct (Qclt_not_eq _ _ Ha eq_refl).
    + rewrite (at_key_none x [(tx, ty)]), app_nil_r; auto. intros a [<-|[]]. auto.
Qed.
Lemma sort_loop B : forall A, StronglySorted le_key A ->
  exists R, foldM sorting_step (seq (length A + 1) (length B)) (map fst (A ++ B), map snd (A ++ B)) = Some (map fst R, map snd R) /\
    StronglySorted le_key R /\ Permutation R (A ++ B) /\ forall x, at_key x R = at_key x (A ++ B).
Proof.
  induction B as [|b B IH]; intros A SA.
  - exists A. rewrite app_nil_r. simpl. split; auto.
  - cbn [length seq foldM]. destruct (step_ok A b B SA) as [A' [E [S1 [P1 [L1 K1]]]]]. rewrite E. cbn [bind].
    destruct (IH A' S1) as [R [ER [SR [PR KR]]]]. rewrite L1 in ER. replace (length A + 1 + 1) with (Datatypes.S (length A + 1)) in ER by lia.
    exists R. split; auto. split; auto. split.
    + rewrite PR, P1, <- app_assoc. reflexivity.
    + intros x. rewrite KR, !at_key_app, K1, at_key_app, <- app_assoc. rewrite <- (at_key_app x [b] B). reflexivity.
Qed.
Lemma sort_pairs_ok L : exists R, sort_pairs (map fst L) (map snd L) = Some (map fst R, map snd R) /\
  StronglySorted le_key R /\ Permutation R L /\ forall x, at_key x R = at_key x L.
Proof.
  change (sort_pairs (map fst L) (map snd L)) with (foldM sorting_step (seq 2 (length (map fst L) - 1)) (map fst L, map snd L)). rewrite map_length.
  destruct L as [|z L]. { exists []. simpl. split; auto. split; [constructor|]. auto. }
  destruct (sort_loop L [z]) as [R H]; [repeat constructor|]. exists R. cbn [length app] in *. rewrite Nat.sub_succ, Nat.sub_0_r. exact H.
Qed.

(** ** The search on sorted pairs *)
Lemma first_at_key L x y : first_at L x y <-> exists r, at_key x L = y :: r.
Proof.
  split.
  - intros [l1 [l2 [-> H]]]. exists (at_key x l2). rewrite at_key_app, at_key_none by auto. unfold at_key. simpl. destruct (Qceqb_spec x x); [auto|congruence].
  - induction L as [|[a b] L IH]; intros [r E]; [discriminate|]. unfold at_key in *. simpl in E. destruct (Qceqb_spec a x) as [->|N].
    + injection E as -> _. exists [], L. split; [reflexivity|intros p []].
    + destruct IH as [l1 [l2 [-> H]]]; eauto. exists ((a, b) :: l1), l2. split; auto. intros p [<-|Hp]; auto.
Qed.
Lemma last_at_key L x y : last_at L x y <-> exists r, at_key x L = r ++ [y].
Proof.
  split.
  - intros [l1 [l2 [-> H]]]. exists (at_key x l1). rewrite at_key_app. f_equal. unfold at_key at 1. simpl. destruct (Qceqb_spec x x); [|congruence].
    simpl. f_equal. apply (at_key_none x l2). auto.
  - induction L as [|[a b] L IH] using rev_ind; intros [r E]; [destruct r; discriminate|]. rewrite at_key_app in E.
    destruct (Qc_eq_dec a x) as [->|N].
    + unfold at_key at 2 in E. simpl in E. destruct (Qceqb_spec x x); [|congruence]. simpl in E. apply app_inj_tail in E. destruct E as [_ ->].
      exists L, []. split; [reflexivity|intros p []].
    + rewrite (at_key_none x [(a, b)]), app_nil_r in E by (intros p [<-|[]]; auto). destruct IH as [l1 [l2 [-> H]]]; eauto.
      exists l1, (l2 ++ [(a, b)]). rewrite <- app_assoc. split; auto. intros p Hp. apply in_app_iff in Hp. destruct Hp as [Hp|[<-|[]]]; auto.
Qed.
Lemma exact_ok t R2 : forall R1, exact_loop (map fst (R1 ++ R2)) (map snd (R1 ++ R2)) t (seq (length R1 + 1) (length R2)) =
  Some (match at_key t R2 with y :: _ => Some y | [] => None end).
Proof.
  induction R2 as [|[a b] R2 IH]; intros R1; auto. cbn [length seq exact_loop].
  rewrite !map_app. cbn [map fst snd]. rewrite rd_at by (rewrite map_length; auto). cbn [bind].
  unfold at_key. cbn [filter fst]. destruct (Qceqb_spec t a) as [E|N], (Qceqb_spec a t) as [E'|N']; try congruence.
  - rewrite rd_at by (rewrite map_length; auto). reflexivity.
  - specialize (IH (R1 ++ [(a, b)])). rewrite app_length in IH. cbn [length] in IH. rewrite <- !app_assoc in IH. cbn [app] in IH.
    rewrite !map_app in IH. cbn [map fst snd] in IH. replace (length R1 + 1 + 1) with (Datatypes.S (length R1 + 1)) in IH by lia. exact IH.
Qed.
Lemma bracket_ok t R2 : forall R1 z, (fst z < t)%Qc -> (exists a, In a R2 /\ (t < fst a)%Qc) -> (forall a, In a R2 -> fst a <> t) ->
  StronglySorted le_key (z :: R2) ->
  exists S1 x0 y0 x1 y1 S2, z :: R2 = S1 ++ (x0, y0) :: (x1, y1) :: S2 /\ (x0 < t)%Qc /\ (t < x1)%Qc /\
    bracket_loop (map fst (R1 ++ z :: R2)) (map snd (R1 ++ z :: R2)) t (seq (length R1 + 1) (length R2)) = Some (Some (y0 + (y1 - y0) * (t - x0) / (x1 - x0))%Qc).
Proof.
  induction R2 as [|a R2 IH]; intros R1 z Hz [w [Hw Hw']] Hn SS; [destruct Hw|].
  cbn [length seq bracket_loop]. rewrite !map_app. cbn [map]. rewrite rd_at by (rewrite map_length; auto). cbn [bind].
  assert (E2 : forall f : Qc * Qc -> Qc, rd (map f R1 ++ f z :: f a :: map f R2) (length R1 + 1 + 1) = Some (f a)).
  { intros f. change (map f R1 ++ f z :: f a :: map f R2) with (map f R1 ++ [f z] ++ f a :: map f R2). rewrite app_assoc. apply rd_at. rewrite app_length, map_length. simpl. lia. }
  rewrite !E2. cbn [bind].
  destruct (Qcleb_spec (fst z) t) as [_|C]; [|destruct C; apply Qclt_le_weak; auto]. cbn [andb].
  destruct (Qcleb_spec t (fst a)) as [C|C].
  - assert (C' : (t < fst a)%Qc). { destruct (Qcle_lt_or_eq _ _ C) as [|E]; auto. destruct (Hn a); simpl; auto. }
    rewrite rd_at by (rewrite map_length; auto). cbn [bind].
    exists [], (fst z), (snd z), (fst a), (snd a), R2. split; [destruct z, a; auto|]. split; auto. split; auto.
    destruct (Qceqb_spec (fst a) (fst z)) as [E|_]; auto. rewrite E in C'. exfalso. apply (Qclt_not_le _ _ C'). apply Qclt_le_weak. auto.
  - assert (Ha : (fst a < t)%Qc) by (apply Qcnot_le_lt; auto). inversion SS as [|? ? SS' _]; subst.
    destruct (IH (R1 ++ [z]) a) as [S1 [x0 [y0 [x1 [y1 [S2 [E [X0 [X1 E']]]]]]]]]; auto.
    { exists w. split; auto. destruct Hw as [<-|]; auto. exfalso. apply (Qclt_not_le _ _ Ha). apply Qclt_le_weak. auto. }
    { intros b Hb. apply Hn. simpl. auto. }
    exists (z :: S1), x0, y0, x1, y1, S2. split; [rewrite E; auto|]. split; auto. split; auto.
    rewrite app_length in E'. cbn [length] in E'. rewrite <- !app_assoc in E'. cbn [app] in E'. rewrite !map_app in E'. cbn [map] in E'.
    replace (length R1 + 1 + 1) with (Datatypes.S (length R1 + 1)) in E' by lia. exact E'.
Qed.
Definition spv_of (sp : Qc) (w : option Qc) : Qc := match w with Some v => v | None => sp end.
Lemma search_ok R t (ex : bool) sp : StronglySorted le_key R ->
  exists w, interp_sorted_profile (map fst R) (map snd R) (length R) t (if ex then 1 else 0)%Z sp = Some (spv_of sp w) /\ profile_value ex R t w.
Proof.
  intros SS. unfold interp_sorted_profile. destruct (Nat.ltb_spec (length R) 2) as [L|L]. { exists None. split; auto. constructor. auto. }
  destruct R as [|z R]; [simpl in L; lia|]. cbn [rd map nth_error bind].
  assert (exists R0 l, z :: R = R0 ++ [l]) as [R0 [l El]]. { destruct (@exists_last _ (z :: R)) as [R0 [l E]]; [discriminate|eauto]. }
  assert (RL : forall f : Qc * Qc -> Qc, rd (map f (z :: R)) (length (z :: R)) = Some (f l)).
  { intros f. rewrite El, map_app. cbn [map]. apply rd_at. rewrite app_length, map_length. reflexivity. }
  change (fst z :: map fst R) with (map fst (z :: R)). change (snd z :: map snd R) with (map snd (z :: R)).
  rewrite !RL. cbn [bind].
  assert (Zle : forall p, In p (z :: R) -> (fst z <= fst p)%Qc).
  { intros p [<-|Hp]; [apply Qcle_refl|]. inversion SS as [|? ? _ F]; subst. rewrite Forall_forall in F. apply F; auto. }
  assert (Lge : forall p, In p (z :: R) -> (fst p <= fst l)%Qc).
  { intros p Hp. rewrite El in Hp, SS. destruct (sorted_app_inv _ _ SS) as [_ [_ S3]]. apply in_app_iff in Hp. destruct Hp as [Hp|[<-|[]]]; [apply S3; simpl; auto|apply Qcle_refl]. }
  destruct (Qcltb_spec t (fst z)) as [C|C].
  - exists (if ex then Some (snd z) else None). split; [destruct ex; reflexivity|]. apply pv_low with (fst z); auto; [split; auto; simpl; auto|].
    exists [], R. split; [destruct z; auto|]; intros p [].
  - destruct (Qcltb_spec (fst l) t) as [D|D].
    + exists (if ex then Some (snd l) else None). split; [destruct ex; reflexivity|].
      apply pv_high with (fst l); auto; [split; auto; apply in_map; rewrite El; apply in_app_iff; simpl; auto|].
      exists R0, []. split; [rewrite El; destruct l; auto|]; intros p [].
    + pose proof (exact_ok t (z :: R) []) as EX. cbn [app length] in EX. change (seq (0 + 1) (Datatypes.S (length R))) with (seq 1 (length (z :: R))) in EX. rewrite EX. cbn [bind].
      destruct (at_key t (z :: R)) as [|y r] eqn:K.
      * assert (Hn : forall p, In p (z :: R) -> fst p <> t).
        { intros p Hp E. assert (X : In (snd p) (at_key t (z :: R))).
          { unfold at_key. apply in_map. apply filter_In. split; auto. destruct (Qceqb_spec (fst p) t); [auto|contradiction]. }
          rewrite K in X. destruct X. }
        assert (Hz : (fst z < t)%Qc). { destruct (Qcle_lt_or_eq _ _ (Qcnot_lt_le _ _ C)) as [|E]; auto. destruct (Hn z); simpl; auto. }
        assert (Hl : (t < fst l)%Qc). { destruct (Qcle_lt_or_eq _ _ (Qcnot_lt_le _ _ D)) as [|E]; auto. destruct (Hn l); [rewrite El; apply in_app_iff; simpl; auto|auto]. }
        destruct (bracket_ok t R [] z) as [S1 [x0 [y0 [x1 [y1 [S2 [E [X0 [X1 EB]]]]]]]]]; auto.
        { exists l. split; auto. assert (In l (z :: R)) by (rewrite El; apply in_app_iff; simpl; auto). destruct H as [<-|]; auto.
          exfalso. apply (Qclt_not_le _ _ Hl). apply Qclt_le_weak. auto. }
        { intros a Ha. apply Hn. simpl. auto. }
        cbn [app length] in EB. cbn [length]. rewrite Nat.sub_succ, Nat.sub_0_r. change (seq (0 + 1) (length R)) with (seq 1 (length R)) in EB. rewrite EB. cbn [bind].
        eexists (Some _). split; [reflexivity|]. apply pv_between; auto.
        -- rewrite E in SS. destruct (sorted_app_inv _ _ SS) as [_ [S3 S4]]. inversion S3 as [|? ? S5 F1]; subst. inversion S5 as [|? ? _ F2]; subst.
           rewrite E. split; [rewrite map_app; apply in_app_iff; simpl; auto|]. split; [rewrite map_app; apply in_app_iff; simpl; auto|]. split; auto. split; auto.
           intros p Hp. apply in_app_iff in Hp. destruct Hp as [Hp|[<-|[<-|Hp]]]; [left; apply (S4 p (x0, y0)); simpl; auto|left; apply Qcle_refl|right; apply Qcle_refl|].
           right. rewrite Forall_forall in F2. apply (F2 p Hp).
        -- exists S1, ((x1, y1) :: S2). split; [auto|]. intros p Hp Z. rewrite E in SS. destruct (sorted_app_inv _ _ SS) as [_ [S3 _]].
           inversion S3 as [|? ? S5 F1]; subst. assert (x1 <= fst p)%Qc. { destruct Hp as [<-|Hp]; [apply Qcle_refl|]. inversion S5 as [|? ? _ F2]; subst. rewrite Forall_forall in F2. apply (F2 p Hp). }
           apply (Qclt_not_le _ _ X0). apply Qclt_le_weak. apply Qclt_le_trans with x1; auto.
        -- exists (S1 ++ [(x0, y0)]), S2. split; [rewrite <- app_assoc; auto|]. intros p Hp Z. rewrite E in SS. destruct (sorted_app_inv _ _ SS) as [_ [_ S4]].
           assert (fst p <= x0)%Qc. { apply in_app_iff in Hp. destruct Hp as [Hp|[<-|[]]]; [apply (S4 p (x0, y0)); simpl; auto|apply Qcle_refl]. }
           rewrite Z in H. apply (Qclt_not_le _ _ X1). apply Qcle_trans with x0; auto. apply Qclt_le_weak. auto.
      * exists (Some y). split; auto. apply pv_at; auto. apply first_at_key. exists r. auto.
Qed.
(** the result depends only on what is stored under each coordinate *)
Lemma profile_transfer ex R L t w : Permutation R L -> (forall x, at_key x R = at_key x L) -> profile_value ex R t w -> profile_value ex L t w.
Proof.
  intros P K. assert (LE : length R = length L) by (apply Permutation_length; auto).
  assert (F : forall x y, first_at R x y -> first_at L x y) by (intros x y; rewrite !first_at_key, K; auto).
  assert (G : forall x y, last_at R x y -> last_at L x y) by (intros x y; rewrite !last_at_key, K; auto).
  assert (I : forall p, In p L -> In p R) by (intros p; apply Permutation_in; symmetry; auto).
  assert (J : forall x, In x (map fst R) -> In x (map fst L)) by (intros x; apply Permutation_in, Permutation_map; auto).
  intros V. destruct V as [H|y H1 H2|x0 x1 y0 y1 H1 [N1 [N2 [N3 [N4 N5]]]] H3 H4|x y H1 [M1 M2] H3 H4|x y H1 [M1 M2] H3 H4].
  - apply pv_few. lia.
  - apply pv_at; auto. lia.
  - apply pv_between; auto; [lia|]. repeat split; auto.
  - apply pv_low with x; auto; [lia|]. split; auto.
  - apply pv_high with x; auto; [lia|]. split; auto.
Qed.
Lemma profile_ok L t (ex : bool) sp : 2 <= length L -> exists R, sort_pairs (map fst L) (map snd L) = Some R /\
  exists w, interp_sorted_profile (fst R) (snd R) (length L) t (if ex then 1 else 0)%Z sp = Some (spv_of sp w) /\ profile_value ex L t w.
Proof.
  intros H. destruct (sort_pairs_ok L) as [R [E [SR [PR KR]]]]. exists (map fst R, map snd R). split; auto. cbn [fst snd].
  rewrite <- (Permutation_length PR). destruct (search_ok R t ex sp SR) as [w [Ew V]]. exists w. split; auto. eapply profile_transfer; eauto.
Qed.
