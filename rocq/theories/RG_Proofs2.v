From Verif Require Import Base Buffer Loops VH_Model VH_Proofs VH_Proofs3 LI_Proofs TG_Model RG_Model RG_Spec RG_Proofs.
Local Open Scope nat_scope.

(** * NaN in the native path *)
(** the samples at and after position [k] *)
Definition touches (xs : list Qc) (k p : nat) : Prop := p = k \/ (p = k + 1 /\ p < length xs).
Lemma csub_none a b : csub a b = None <-> a = None \/ b = None.
Proof. destruct a, b; simpl; intuition discriminate. Qed.
Lemma cadd_none a b : cadd a b = None <-> a = None \/ b = None.
Proof. destruct a, b; simpl; intuition discriminate. Qed.
Lemma cmul_none w b : cmul w b = None <-> b = None.
Proof. destruct b; simpl; intuition discriminate. Qed.
Lemma corner_touches xs x k f p : position xs x k f -> (p = k \/ p = corner xs k) <-> touches xs k p.
Proof.
  intros P. unfold touches. destruct (position_next _ _ _ _ P) as [A [B [C|[C _]]]].
  - rewrite C in *. split; intros [H|H]; auto. right. lia. right. tauto.
  - split; intros [H|H]; auto; [rewrite C in H; auto|]. unfold corner in C. destruct (Nat.ltb_spec 1 (length xs)); [lia|]. destruct H. lia.
Qed.
Lemma value_nan field xs ys x y k f l g : length field = length xs * length ys -> position xs x k f -> position ys y l g ->
  exists c, bilinear_value field (length xs) (length ys) (k, f) (l, g) = Some c /\
    (c = None <-> exists p q, touches xs k p /\ touches ys l q /\ nth_error field (p * length ys + q) = Some None).
Proof.
  intros L P Q. destruct (position_next _ _ _ _ P) as [A [B _]]. destruct (position_next _ _ _ _ Q) as [D [E _]].
  assert (R : forall p q, p < length xs -> q < length ys -> exists c, nth_error field (p * length ys + q) = Some c).
  { intros p q Hp Hq. apply nth_some. rewrite L. apply flat_bound; auto. }
  unfold bilinear_value. cbn [fst snd]. fold (corner xs k). fold (corner ys l).
  destruct (R k l) as [v00 E00]; auto. destruct (R (corner xs k) l) as [v10 E10]; auto. destruct (R k (corner ys l)) as [v01 E01]; auto. destruct (R (corner xs k) (corner ys l)) as [v11 E11]; auto.
  rewrite E00, E10, E01, E11. cbn [bind]. eexists. split; [reflexivity|].
  rewrite !cadd_none, !cmul_none, !csub_none, !cadd_none, !cmul_none, !csub_none. split.
  - intros H. assert (X : v00 = None \/ v10 = None \/ v01 = None \/ v11 = None) by tauto.
    destruct X as [->|[->|[->| ->]]].
    + exists k, l. rewrite <- (corner_touches xs x k f), <- (corner_touches ys y l g) by auto. auto.
    + exists (corner xs k), l. rewrite <- (corner_touches xs x k f), <- (corner_touches ys y l g) by auto. auto.
    + exists k, (corner ys l). rewrite <- (corner_touches xs x k f), <- (corner_touches ys y l g) by auto. auto.
    + exists (corner xs k), (corner ys l). rewrite <- (corner_touches xs x k f), <- (corner_touches ys y l g) by auto. auto.
  - intros [p [q [T1 [T2 N]]]]. rewrite <- (corner_touches xs x k f) in T1 by auto. rewrite <- (corner_touches ys y l g) in T2 by auto.
    destruct T1 as [->| ->], T2 as [->| ->]; rewrite N in *; repeat match goal with H : Some None = Some ?v |- _ => injection H as <- end; tauto.
Qed.
Lemma core_nan field xs ys tx ty : 0 < length xs -> 0 < length ys -> ascending xs -> ascending ys -> length field = length xs * length ys ->
  exists rows, bilinear_core field xs ys tx ty = Some (Some rows) /\ shaped rows (length tx) (length ty) /\
    forall i j x y k f l g, nth_error tx i = Some x -> nth_error ty j = Some y -> position xs x k f -> position ys y l g ->
      exists c, entry rows i j = Some c /\ (c = None <-> exists p q, touches xs k p /\ touches ys l q /\ nth_error field (p * length ys + q) = Some None).
Proof.
  intros Lx Ly Ax Ay H. unfold bilinear_core.
  set (R := fun (x y : Qc) (c : cell) => forall k f l g, position xs x k f -> position ys y l g -> (c = None <-> exists p q, touches xs k p /\ touches ys l q /\ nth_error field (p * length ys + q) = Some (None : cell))).
  destruct (emap_ok _ _ (fun x => ebind (bracket_clamped x xs) (fun px => emap (fun y => ebind (bracket_clamped y ys) (fun py => ok (bilinear_value field (length xs) (length ys) px py))) ty))
    (fun x r => length r = length ty /\ forall j y, nth_error ty j = Some y -> exists c : cell, nth_error r j = Some c /\ R x y c) tx) as [rows [E [L K]]].
  - intros x _. destruct (bracket_ok x xs Lx Ax) as [k [f [B [P _]]]]. rewrite B. cbn [ebind].
    destruct (emap_ok _ _ (fun y => ebind (bracket_clamped y ys) (fun py => ok (bilinear_value field (length xs) (length ys) (k, f) py))) (R x) ty) as [r [E [L K]]].
    + intros y _. destruct (bracket_ok y ys Ly Ay) as [l [g [B2 [Q _]]]]. rewrite B2. cbn [ebind].
      destruct (value_nan field xs ys x y k f l g H P Q) as [c [E C]]. rewrite E. eexists. split; [reflexivity|].
      intros k' f' l' g' P' Q'. destruct (position_fun _ _ _ _ _ _ Ax P P') as [<- <-]. destruct (position_fun _ _ _ _ _ _ Ay Q Q') as [<- <-]. auto.
    + exists r. split; auto.
  - exists rows. split; auto. split.
    + apply shaped_of; auto. intros i x Ex. destruct (K i x Ex) as [r [Er [Lr _]]]. eauto.
    + intros i j x y k f l g Ex Ey P Q. destruct (K i x Ex) as [r [Er [_ Kr]]]. unfold entry. rewrite Er. destruct (Kr j y Ey) as [c [Ec Rc]]. exists c. split; auto. apply (Rc k f l g); auto.
Qed.

(** * The fallback *)
Lemma mapM_okR (A B : Type) (f : A -> option B) (R : A -> B -> Prop) l : (forall a, In a l -> exists b, f a = Some b /\ R a b) ->
  exists bs, mapM f l = Some bs /\ length bs = length l /\ forall i a, nth_error l i = Some a -> exists b, nth_error bs i = Some b /\ R a b.
Proof.
  induction l as [|a l IH]; intros H; cbn [mapM].
  - exists []. split; auto. split; auto. intros [|i] a E; discriminate.
  - destruct (H a (or_introl eq_refl)) as [b [E Rb]]. rewrite E. cbn [bind]. destruct IH as [bs [E2 [L K]]]; [intros; apply H; right; auto|]. rewrite E2. cbn [bind].
    exists (b :: bs). split; auto. split; [simpl; auto|]. intros [|i] a' E'; [injection E' as <-; exists b; auto|]. apply K. auto.
Qed.
Lemma interp_ok xs ys G x k f : ascending xs -> position xs x k f -> length ys = length xs -> (forall i, i < length xs -> nth_error ys i = Some (Some (G i))) ->
  np_interp xs ys x = Some (Some ((1 - f) * G k + f * G (k + 1)%nat)%Qc).
Proof.
  intros A P L H. assert (N : 0 < length xs) by (destruct (position_next _ _ _ _ P); lia). unfold np_interp.
  destruct (nth_some _ xs 0) as [lo Lo]; [lia|]. destruct (nth_some _ xs (length xs - 1)) as [hi Hi]; [lia|]. rewrite Lo, Hi. cbn [bind]. rewrite !H by lia.
  destruct P as [[P1 [-> ->]]|[a [b [Ea [Eb P]]]]].
  { rewrite P1 in *. change (1 - 1) with 0 in *. replace hi with lo by congruence. replace ((1 - 0) * G 0%nat + 0 * G (0 + 1)%nat)%Qc with (G 0) by ring. destruct (Qcltb_spec x lo); auto. destruct (Qcleb_spec lo x); auto. exfalso. apply n0. apply Qcnot_lt_le. auto. }
  pose proof (nth_bound _ _ _ _ Eb) as B. 
  assert (LE : forall i j c d, i <= j -> nth_error xs i = Some c -> nth_error xs j = Some d -> (c <= d)%Qc).
  { intros i j c d Hij Hc Hd. destruct (Nat.eq_dec i j) as [->|Ne]; [replace d with c by congruence; apply Qcle_refl|]. apply Qclt_le_weak. apply (A i j); auto. lia. }
  assert (l1 : (lo <= a)%Qc) by (apply (LE 0 k); auto; lia). assert (l2 : (b <= hi)%Qc) by (apply (LE (k + 1) (length xs - 1)); auto; lia). assert (ab : (a < b)%Qc) by (apply (A k (k + 1)); auto; lia).
  destruct (Qcltb_spec x lo) as [X|X].
  { destruct P as [[P1 [-> ->]]|[[P1 [P2 ->]]|[P1 [P2 P3]]]]; [|exfalso; qclra|exfalso; qclra]. do 2 f_equal. ring. }
  destruct (Qcleb_spec hi x) as [Y|Y].
  { destruct P as [[P1 [-> ->]]|[[P1 [P2 ->]]|[P1 [P2 P3]]]]; [exfalso; qclra| |exfalso; qclra]. replace (length xs - 1) with (k + 1) by lia. do 2 f_equal. ring. }
  destruct (bisect_ok x xs A (length xs) 0 (length xs - 1) lo hi) as [j [c [d [E [C [D [P1 P2]]]]]]]; auto; try lia.
  { apply Qcnot_lt_le. auto. } { apply Qcnot_le_lt. auto. }
  assert (cd : (c < d)%Qc) by (apply (A j (j + 1)); auto; lia).
  rewrite E. cbn [bind]. rewrite C, D. cbn [bind]. pose proof (nth_bound _ _ _ _ D). rewrite !H by lia. cbn [bind].
  assert (PJ : position xs x j ((x - c) / (d - c))%Qc).
  { right. exists c, d. split; auto. split; auto. right. right. split; auto. split; auto. apply Qcfrac. auto. }
  assert (PK : position xs x k f) by (right; exists a, b; auto).
  destruct (position_fun _ _ _ _ _ _ A PK PJ) as [-> ->].
  destruct (Qceqb_spec c x) as [Z|Z].
  { subst. replace ((x - x) / (d - x))%Qc with 0%Qc by (field; apply Qcpos_neq; qclra). do 2 f_equal. ring. }
  destruct (Qceqb_spec (d - c)%Qc 0%Qc) as [W|W]; [exfalso; qclra|]. cbn [csub cmul cadd]. do 2 f_equal. field. auto.
Qed.
Lemma nth_skipn (A : Type) (l : list A) n i : nth_error (skipn n l) i = nth_error l (n + i).
Proof. revert l. induction n as [|n IH]; intros l; simpl; auto. destruct l; simpl; auto. destruct i; auto. Qed.
Lemma nth_firstn (A : Type) (l : list A) n i : i < n -> nth_error (firstn n l) i = nth_error l i.
Proof. revert l i. induction n as [|n IH]; intros l i H; [lia|]. destruct l; simpl; [destruct i; auto|]. destruct i; simpl; auto. apply IH. lia. Qed.
Lemma row_ok nlon nlat field F i : holds nlon nlat field F -> i < nlon -> length (field_row field nlat i) = nlat /\ forall j, j < nlat -> nth_error (field_row field nlat i) j = Some (Some (F i j)).
Proof.
  intros [L H] I. unfold field_row. split.
  - rewrite firstn_length, skipn_length. unfold cell in *. rewrite L. nia.
  - intros j J. rewrite nth_firstn, nth_skipn by auto. apply H; auto.
Qed.
Lemma nth_seq0 n i : i < n -> nth_error (seq 0 n) i = Some i.
Proof. intros H. rewrite (nth_error_nth' _ 0) by (rewrite seq_length; auto). rewrite seq_nth; auto. Qed.
Lemma fallback_ok field xs ys tx ty F : 0 < length xs -> 0 < length ys -> ascending xs -> ascending ys -> holds (length xs) (length ys) field F ->
  exists rows, bilinear_fallback field xs ys tx ty = Some rows /\ shaped rows (length tx) (length ty) /\
    forall i j x y, nth_error tx i = Some x -> nth_error ty j = Some y -> exists v, entry rows i j = Some (Some v) /\ bilinear_at xs ys F x y v.
Proof.
  intros Lx Ly Ax Ay H. unfold bilinear_fallback.
  destruct (mapM_okR _ _ (fun i => mapM (np_interp ys (field_row field (length ys) i)) ty)
     (fun i r => length r = length ty /\ forall j y l g, nth_error ty j = Some y -> position ys y l g -> nth_error r j = Some (Some ((1 - g) * F i l + g * F i (l + 1)%nat)%Qc)) (seq 0 (length xs))) as [li [E [L K]]].
  { intros i I. apply in_seq in I. destruct (row_ok _ _ _ _ i H) as [R1 R2]; [lia|].
    destruct (mapM_okR _ _ (np_interp ys (field_row field (length ys) i)) (fun y c => forall l g, position ys y l g -> c = Some ((1 - g) * F i l + g * F i (l + 1)%nat)%Qc) ty) as [r [E [L K]]].
    - intros y _. destruct (bracket_ok y ys Ly Ay) as [l [g [_ [Q _]]]]. rewrite (interp_ok ys _ (F i) y l g) by auto. eexists. split; [reflexivity|].
      intros l' g' Q'. destruct (position_fun _ _ _ _ _ _ Ay Q Q') as [<- <-]. auto.
    - exists r. split; auto. split; auto. intros j y l g Ey Q. destruct (K j y Ey) as [c [Ec Rc]]. rewrite Ec, (Rc l g); auto. }
  rewrite E. cbn [bind]. rewrite seq_length in L.
  destruct (mapM_okR _ _ (fun x => mapM (fun j => let* col := mapM (fun row => nth_error row j) li in np_interp xs col x) (seq 0 (length ty)))
    (fun x r => length r = length ty /\ forall j y, nth_error ty j = Some y -> exists v, nth_error r j = Some (Some v) /\ bilinear_at xs ys F x y v) tx) as [rows [E2 [L2 K2]]].
  { intros x _. destruct (bracket_ok x xs Lx Ax) as [k [f [_ [P _]]]].
    destruct (mapM_okR _ _ (fun j => let* col := mapM (fun row => nth_error row j) li in np_interp xs col x) (fun j c => forall y, nth_error ty j = Some y -> exists v, c = Some v /\ bilinear_at xs ys F x y v) (seq 0 (length ty))) as [r [E2 [L2 K2]]].
    - intros j J. apply in_seq in J. destruct (nth_some _ ty j) as [y Ey]; [lia|]. destruct (bracket_ok y ys Ly Ay) as [l [g [_ [Q _]]]].
      destruct (mapM_okR _ _ (fun row : list cell => nth_error row j) (fun row c => nth_error row j = Some c) li) as [col [E3 [L3 K3]]].
      { intros row I. apply In_nth_error in I. destruct I as [i I]. pose proof (nth_bound _ _ _ _ I) as B. destruct (K i i) as [r' [E3 [L3 _]]]; [apply nth_seq0; lia|]. replace r' with row in * by congruence. destruct (nth_some _ row j) as [c C]; [lia|]. eauto. }
      rewrite E3. cbn [bind]. rewrite (interp_ok xs col (fun i => (1 - g) * F i l + g * F i (l + 1)%nat)%Qc x k f); auto; [|unfold cell in *; lia|].
      + eexists. split; [reflexivity|]. intros y' Ey'. replace y' with y by congruence. eexists. split; [reflexivity|]. exists k, f, l, g. split; auto. split; auto. ring.
      + intros i I. destruct (K i i) as [row [E4 [_ K4]]]; [apply nth_seq0; lia|]. destruct (K3 i row E4) as [c [C1 C2]]. rewrite (K4 j y l g Ey Q) in C2. etransitivity; [exact C1|]. symmetry. exact C2.
    - exists r. rewrite seq_length in L2. split; auto. split; auto. intros j y Ey. pose proof (nth_bound _ _ _ _ Ey). destruct (K2 j j) as [c [C R]]; [apply nth_seq0; auto|]. destruct (R y Ey) as [v [-> V]]. eauto. }
  exists rows. split; auto. split.
  - apply shaped_of; auto. intros i x Ex. destruct (K2 i x Ex) as [r [Er [Lr _]]]. eauto.
  - intros i j x y Ex Ey. destruct (K2 i x Ex) as [r [Er [_ Kr]]]. unfold entry. rewrite Er. apply Kr. auto.
Qed.
Lemma native_core field xs ys tx ty : ascending xs -> ascending ys -> ascending tx -> ascending ty -> 0 < length xs -> 0 < length ys -> 0 < length tx -> 0 < length ty -> length field = length xs * length ys ->
  bilinear_regrid field xs ys tx ty = bilinear_core field xs ys tx ty.
Proof.
  intros A B C D a b c d L. unfold bilinear_regrid. rewrite L, Nat.eqb_refl. cbn [negb].
  apply empty_ok in a, b, c, d. rewrite a, b, c, d. cbn [orb]. apply increasing_ok in A, B, C, D. rewrite A, B, C, D. reflexivity.
Qed.
Lemma regrid_2d_ok field xs ys tx ty F : 0 < length xs -> 0 < length ys -> ascending xs -> ascending ys -> holds (length xs) (length ys) field F ->
  exists rows, bilinear_2d field xs ys tx ty = Some (Some rows) /\ shaped rows (length tx) (length ty) /\
    forall i j x y, nth_error tx i = Some x -> nth_error ty j = Some y -> exists v, entry rows i j = Some (Some v) /\ bilinear_at xs ys F x y v.
Proof.
  intros Lx Ly Ax Ay H. unfold bilinear_2d. pose proof (proj1 H) as Len. unfold cell in *. rewrite Len, Nat.eqb_refl. cbn [negb]. destruct (supports_native xs ys tx ty) eqn:S.
  - unfold supports_native in S. rewrite !andb_true_iff, !Nat.ltb_lt, !increasing_ok in S. destruct S as [[[[[[[S1 S2] S3] S4] S5] S6] S7] S8].
    rewrite native_core; auto. apply core_ok; auto.
  - destruct (fallback_ok field xs ys tx ty F Lx Ly Ax Ay H) as [rows [E K]]. exists rows. rewrite E. auto.
Qed.
Lemma rows_equal (A : Type) (r s : list (list A)) n m : shaped r n m -> shaped s n m -> (forall i j, i < n -> j < m -> entry r i j = entry s i j) -> r = s.
Proof.
  intros [Lr Wr] [Ls Ws] H. apply nth_ext_all. intros i. destruct (Nat.lt_ge_cases i n) as [I|I].
  - destruct (nth_some _ r i) as [a Ea]; [lia|]. destruct (nth_some _ s i) as [b Eb]; [lia|]. rewrite Ea, Eb. f_equal.
    pose proof (Wr a (nth_error_In _ _ Ea)). pose proof (Ws b (nth_error_In _ _ Eb)). apply nth_ext_all. intros j. destruct (Nat.lt_ge_cases j m) as [J|J].
    + specialize (H i j I J). unfold entry in H. rewrite Ea, Eb in H. auto.
    + rewrite !(proj2 (nth_error_None _ _)); auto; lia.
  - rewrite !(proj2 (nth_error_None _ _)); auto; lia.
Qed.
