From Verif Require Import Base Buffer Loops VH_Model VH_Proofs TG_Model TG_Spec.
Local Open Scope nat_scope.

Lemma foldM_app (A St : Type) (f : St -> A -> option St) l1 : forall l2 s, foldM f (l1 ++ l2) s = bind (foldM f l1 s) (foldM f l2).
Proof. induction l1 as [|a l1 IH]; intros l2 s; auto. cbn [foldM app bind]. destruct (f s a) as [s'|]; cbn [bind]; auto. Qed.
Lemma seq_S a n : seq a (Datatypes.S n) = seq a n ++ (a + n :: nil).
Proof. replace (Datatypes.S n) with (n + 1) by lia. rewrite seq_app. reflexivity. Qed.
Lemma cell_is_spec v a : reflect (a = Some v) (cell_is v a).
Proof. destruct a as [q|]; simpl; [|constructor; discriminate]. destruct (Qceqb_spec q v); constructor; congruence. Qed.
Lemma cell_eq_dec (a b : cell) : a = b \/ a <> b.
Proof. destruct a as [p|], b as [q|]; try (right; discriminate); auto. destruct (Qc_eq_dec p q); [left; congruence|right; congruence]. Qed.

(** kept *)
Lemma kept_app (A : Type) (P : A -> Prop) l1 o1 l2 o2 : kept P l1 o1 -> kept P l2 o2 -> kept P (l1 ++ l2) (o1 ++ o2).
Proof. induction 1; simpl; intros; auto; constructor; auto. Qed.
Lemma kept_ext (A : Type) (P Q : A -> Prop) l o : (forall a, In a l -> (P a <-> Q a)) -> kept P l o -> kept Q l o.
Proof.
  intros H K. induction K; simpl in *; constructor; try (apply IHK; auto); try (apply H; auto).
  rewrite <- (H a); auto.
Qed.
Lemma kept_length (A : Type) (P : A -> Prop) l o : kept P l o -> length o <= length l.
Proof. induction 1; simpl; lia. Qed.
Lemma kept_nil_iff (A : Type) (P : A -> Prop) l o : kept P l o -> (o = [] <-> forall a, In a l -> ~ P a).
Proof.
  induction 1; simpl.
  - split; auto; intros _ a [].
  - split; [discriminate|]. intros F. destruct (F a); auto.
  - rewrite IHkept. split; intros F b; [intros [<-|I]; auto|intros I; apply F; auto].
Qed.
Lemma kept_unique (A : Type) (P : A -> Prop) l o : kept P l o -> forall o', kept P l o' -> o = o'.
Proof. induction 1; intros o' K; inversion K; subst; auto; try contradiction. f_equal; auto. Qed.
Lemma kept_In (A : Type) (P : A -> Prop) l o a : kept P l o -> (In a o <-> In a l /\ P a).
Proof.
  induction 1; simpl; [tauto| |].
  - rewrite IHkept. split; [intros [<-|[]]; auto|intros [[<-|] ]; auto].
  - rewrite IHkept. split; [intros []; auto|intros [[<-|] ]; tauto].
Qed.

(** the packed rows *)
Definition holds_rows (N : nat) (st : nat * list triple) (acc : list triple) : Prop :=
  fst st = length acc /\ firstn (length acc) (snd st) = acc /\ length (snd st) = N.
Lemma push N st acc t : holds_rows N st acc -> length acc < N -> exists d, wrx (snd st) (fst st + 1) t = Some d /\ holds_rows N (fst st + 1, d) (acc ++ t :: nil).
Proof.
  intros [E1 [E2 E3]] H. destruct st as [ld d]; simpl in *. subst ld. rewrite wrx_ok by lia.
  eexists; split; eauto. assert (D : d = acc ++ skipn (length acc) d) by (rewrite <- E2 at 1; symmetry; apply firstn_skipn).
  assert (L : length (skipn (length acc) d) = N - length acc) by (rewrite skipn_length; lia).
  destruct (skipn (length acc) d) as [|a r] eqn:S; [simpl in L; lia|]. split; [|split]; simpl.
  - rewrite app_length. simpl. lia.
  - rewrite D. rewrite (Nat.add_1_r (length acc)). simpl. rewrite upd0_app_r, Nat.sub_diag by lia. simpl.
    rewrite app_length. simpl. rewrite firstn_app. rewrite firstn_all2 by lia. replace (length acc + 1 - length acc) with 1 by lia. reflexivity.
  - rewrite wr_length. lia.
Qed.

Section G2T.
Variables (x y : list Qc) (z : list cell) (zmsg : Qc) (N : nat).
Hypothesis Lz : length z = length x * length y.
Hypothesis HN : length x * length y <= N.
Let cellat (k : nat) : triple := (nth (k mod length x) x 0%Qc, (nth (k / length x) y 0%Qc, nth k z None)).
Let valid (o : triple) : Prop := tz o <> Some zmsg.

Lemma rd_nth_default (A : Type) (l : list A) k dflt : k < length l -> rd l (k + 1) = Some (nth k l dflt).
Proof. intros H. rewrite Nat.add_1_r. simpl. rewrite (nth_error_nth' l dflt H). reflexivity. Qed.
Lemma kept_bound (A : Type) (P : A -> Prop) l o n : kept P l o -> length l <= n -> length o <= n.
Proof. intros K L. apply kept_length in K. lia. Qed.

Lemma row_ok n y_n : n < length y -> rd y (n + 1) = Some y_n -> forall k st acc0, k <= length x ->
  holds_rows N st acc0 -> length acc0 <= n * length x ->
  exists st' acc, foldM (pack_cell x z zmsg (n + 1) y_n) (seq 1 k) st = Some st' /\ holds_rows N st' (acc0 ++ acc) /\ kept valid (map cellat (seq (n * length x) k)) acc.
Proof.
  intros Hn Ey. induction k as [|k IH]; intros st acc0 Hk R B.
  - exists st, []. rewrite app_nil_r. repeat split; try apply R; constructor.
  - destruct (IH st acc0) as [st' [acc [E [R' K]]]]; auto; try lia.
    rewrite !seq_S, foldM_app, E. cbn [bind foldM]. rewrite map_app. cbn [map].
    set (q := n * length x + k). assert (Hq : q < length z) by (rewrite Lz; unfold q; nia).
    unfold pack_cell. replace ((n + 1 - 1) * length x + (1 + k)) with (q + 1) by (unfold q; nia).
    rewrite (rd_nth_default _ z q None) by auto. cbn [bind].
    assert (Mx : q mod length x = k). { unfold q. rewrite Nat.add_comm, Nat.mod_add by lia. apply Nat.mod_small; lia. }
    assert (Dx : q / length x = n). { unfold q. rewrite Nat.div_add_l by lia. rewrite Nat.div_small by lia. lia. }
    assert (Ct : cellat q = (nth k x 0%Qc, (y_n, nth q z None))).
    { unfold cellat. rewrite Mx, Dx. rewrite (rd_nth_default _ y n 0%Qc) in Ey by lia. injection Ey as ->. reflexivity. }
    destruct (cell_is_spec zmsg (nth q z None)) as [Em|Em].
    + exists st', (acc ++ []). cbn [bind]. split; [reflexivity|]. split; [rewrite app_nil_r; auto|]. apply kept_app; auto.
      rewrite Ct. constructor; [|constructor]. unfold valid, tz. cbn [snd fst]. auto.
    + rewrite (Nat.add_comm 1 k). rewrite (rd_nth_default _ x k 0%Qc) by lia. cbn [bind].
      assert (La : length acc <= k) by (eapply kept_bound; eauto; rewrite map_length, seq_length; lia).
      destruct (push N st' (acc0 ++ acc) (nth k x 0%Qc, (y_n, nth q z None)) R') as [d [Ed Rd]].
      { rewrite app_length. nia. }
      rewrite Ed. cbn [bind]. exists (fst st' + 1, d), (acc ++ (nth k x 0%Qc, (y_n, nth q z None)) :: nil). rewrite app_assoc.
      split; auto. split; auto. apply kept_app; auto. rewrite Ct. repeat constructor. unfold valid, tz. cbn [snd fst]. auto.
Qed.
Lemma rows_ok : forall n st, n <= length y -> holds_rows N st [] ->
  exists st' acc, foldM (fun st n => let* y_n := rd y n in foldM (pack_cell x z zmsg n y_n) (seq 1 (length x)) st) (seq 1 n) st = Some st'
    /\ holds_rows N st' acc /\ kept valid (map cellat (seq 0 (length x * n))) acc.
Proof.
  induction n as [|n IH]; intros st Hn R.
  - exists st, []. rewrite Nat.mul_0_r. repeat split; try apply R; constructor.
  - destruct (IH st) as [st' [acc [E [R' K]]]]; auto; try lia.
    rewrite seq_S, foldM_app, E. cbn [bind foldM]. rewrite (Nat.add_comm 1 n). rewrite (rd_nth_default _ y n 0%Qc) by lia. cbn [bind].
    destruct (row_ok n (nth n y 0%Qc) ltac:(lia) (rd_nth_default _ y n 0%Qc ltac:(lia)) (length x) st' acc) as [st2 [acc2 [E2 [R2 K2]]]]; auto.
    { eapply kept_bound; eauto. rewrite map_length, seq_length. lia. }
    rewrite E2. cbn [bind]. exists st2, (acc ++ acc2). split; auto. split; auto.
    replace (length x * Datatypes.S n) with (length x * n + length x) by lia. rewrite seq_app, map_app. apply kept_app; auto.
    rewrite Nat.add_0_l, (Nat.mul_comm (length x) n). auto.
Qed.
Lemma grid2triple_ok d : length d = N -> exists d' ld ier acc, grid2triple_impl x y z d zmsg = Some (d', (ld, ier)) /\
  firstn ld d' = acc /\ ld = length acc /\ length d' = N /\ kept valid (cells x y z) acc /\ ((ier = (-10)%Z /\ acc = []) \/ (ier = 0%Z /\ acc <> [])).
Proof.
  intros Ld. destruct (rows_ok (length y) (0, d)) as [st [acc [E [[R1 [R2 R3]] K]]]]; auto.
  { repeat split; auto. }
  unfold grid2triple_impl. rewrite E. cbn [bind]. exists (snd st), (fst st), (if fst st =? 0 then (-10)%Z else 0%Z), acc. rewrite R1.
  repeat split; auto. destruct acc; simpl; [left|right]; split; auto; discriminate.
Qed.
End G2T.

(** rewriting and restoring *)
Lemma is_msg_spec m a : reflect (a = m) (is_msg m a).
Proof. destruct m as [m|]; simpl; [apply cell_is_spec|]. destruct a; constructor; congruence. Qed.
Lemma needs_rewrite_spec a m f : reflect (m <> Some f /\ In m a) (needs_rewrite a m f).
Proof.
  assert (X : reflect (In m a) (existsb (is_msg m) a)).
  { destruct (existsb (is_msg m) a) eqn:E; constructor.
    - apply existsb_exists in E. destruct E as [v [I M]]. destruct (is_msg_spec m v); [subst; auto|discriminate].
    - intros I. assert (existsb (is_msg m) a = true); [|congruence]. apply existsb_exists. exists m. split; auto. destruct (is_msg_spec m m); congruence. }
  unfold needs_rewrite. destruct m as [m|].
  - destruct (Qceqb_spec m f) as [->|N]; cbn [negb andb].
    + constructor. intros [[] _]; auto.
    + destruct X; constructor; [split; congruence|tauto].
  - destruct X; constructor; [split; congruence|tauto].
Qed.
Lemma rewrite_id a m f : ~ In m a -> py2fort_msg a m f = a.
Proof.
  intros H. unfold py2fort_msg. rewrite <- (map_id a) at 2. apply map_ext_in. intros v I. destruct (is_msg_spec m v); auto. congruence.
Qed.
Lemma restore_rewrite a m f : fort2py_msg (py2fort_msg a m f) f m = map (fun v => if cell_is f v then m else v) a.
Proof.
  unfold fort2py_msg, py2fort_msg. rewrite map_map. apply map_ext. intros v. destruct (is_msg_spec m v) as [->|N]; auto.
  destruct (cell_is_spec f (Some f)); try congruence. destruct (cell_is_spec f m) as [->|]; auto.
Qed.
Lemma restore_id a m f : (In (Some f) a -> m = Some f) -> map (fun v => if cell_is f v then m else v) a = a.
Proof.
  intros H. rewrite <- (map_id a) at 2. apply map_ext_in. intros v I. destruct (cell_is_spec f v) as [->|]; auto.
Qed.
Lemma restore_id_inv a m f : map (fun v => if cell_is f v then m else v) a = a -> In (Some f) a -> m = Some f.
Proof.
  intros H I. apply In_nth_error in I. destruct I as [k E]. rewrite <- H in E. rewrite nth_error_map in E.
  destruct (nth_error a k) as [v|]; [|discriminate]. cbn [option_map] in E. injection E as E. destruct (cell_is_spec f v); congruence.
Qed.
Lemma py2fort_id_inv a m f : py2fort_msg a m f = a -> In m a -> m = Some f.
Proof.
  intros H I. apply In_nth_error in I. destruct I as [k E]. pose proof E as E2. rewrite <- H in E2. unfold py2fort_msg in E2. rewrite nth_error_map, E in E2.
  simpl in E2. destruct (is_msg_spec m m); congruence.
Qed.
Lemma kept_map (A B : Type) (f : A -> B) (P : A -> Prop) (Q : B -> Prop) l : forall o, (forall a, In a l -> (Q (f a) <-> P a)) -> kept Q (map f l) o -> exists o', kept P l o' /\ o = map f o'.
Proof.
  induction l as [|a l IH]; simpl; intros o H K; inversion K; subst.
  - exists []. split; constructor.
  - destruct (IH out) as [o' [K' ->]]; auto. exists (a :: o'). split; auto. constructor; auto. apply H; auto.
  - destruct (IH o) as [o' [K' ->]]; auto. exists o'. split; auto. constructor; auto. rewrite <- H; auto.
Qed.
Definition recell (f : cell -> cell) (o : triple) : triple := (tx o, (ty o, f (tz o))).
Lemma tz_recell f o : tz (recell f o) = f (tz o). Proof. reflexivity. Qed.
Lemma cells_map x y z f : length z = length x * length y -> cells x y (map f z) = map (recell f) (cells x y z).
Proof.
  intros L. unfold cells. rewrite map_map. apply map_ext_in. intros k I. apply in_seq in I. unfold recell, tx, ty, tz. cbn [fst snd]. do 2 f_equal.
  rewrite (nth_indep _ None (f None)) by (rewrite map_length; lia). apply map_nth.
Qed.
Lemma py2fort_length a m f : length (py2fort_msg a m f) = length a. Proof. apply map_length. Qed.

Lemma grid_to_triple_run x y z d m f : length z = length x * length y -> length d = length x * length y ->
  exists out, grid_to_triple true x y z d m f = Some (Some out, if needs_rewrite z m f then map (fun v => if cell_is f v then m else v) z else z) /\
    kept (fun o => tz o <> m /\ tz o <> Some f) (cells x y z) out.
Proof.
  intros Lz Ld. unfold grid_to_triple. rewrite Lz, Nat.eqb_refl. cbn [negb andb].
  set (z1 := if needs_rewrite z m f then py2fort_msg z m f else z).
  assert (L1 : length z1 = length x * length y) by (unfold z1; destruct (needs_rewrite z m f); rewrite ?py2fort_length; auto).
  destruct (grid2triple_ok x y z1 f _ L1 (Nat.le_refl _) d Ld) as [d' [ld [ier [acc [E [F [-> [_ [K _]]]]]]]]].
  rewrite E. cbn [bind fst snd]. exists acc. rewrite F. split.
  { f_equal. f_equal. unfold z1. destruct (needs_rewrite z m f); auto. rewrite restore_rewrite. auto. }
  unfold z1 in K. destruct (needs_rewrite_spec z m f) as [[N I]|N].
  - unfold py2fort_msg in K. rewrite cells_map in K by auto.
    assert (KM : exists o', kept (fun o => tz o <> m /\ tz o <> Some f) (cells x y z) o' /\ acc = map (recell (fun v => if is_msg m v then Some f else v)) o').
    { refine (kept_map triple triple _ _ (fun o => tz o <> Some f) _ _ _ K). intros a _. rewrite tz_recell. cbv beta.
      destruct (is_msg_spec m (tz a)) as [E1|E1]; split; intros H; try tauto; exfalso; congruence. }
    destruct KM as [o' [K' Eo]].
    assert (M : map (recell (fun v => if is_msg m v then Some f else v)) o' = o'); [|assert (Ea : acc = o') by (etransitivity; [exact Eo|exact M]); rewrite Ea; exact K'].
      rewrite <- (map_id o') at 2. apply map_ext_in. intros a Ia. apply (kept_In _ _ _ _ _ K') in Ia. unfold recell.
      destruct (is_msg_spec m (tz a)); [tauto|]. destruct a as [? [? ?]]; reflexivity.
  - assert (Q : forall o, In o (cells x y z) -> (tz o <> Some f <-> tz o <> m /\ tz o <> Some f)).
    { intros o Io. split; [|tauto]. intros H. split; auto. intros Em. unfold cells in Io. apply in_map_iff in Io. destruct Io as [k [<- Ik]]. apply in_seq in Ik.
      unfold tz in *. cbn [snd] in *. apply N. split; [congruence|]. rewrite <- Em. apply nth_In. lia. }
    exact (kept_ext _ _ _ _ _ Q K).
Qed.
