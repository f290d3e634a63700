From Verif Require Import Base Buffer VH_Model VH_Proofs IS_Proofs2 MKStat_Proofs1 TG_Proofs RG_Proofs8 TP_Model DC_Model DC_Spec.
Local Close Scope Qc_scope.
Local Open Scope nat_scope.

Lemma rd_nthS (T : Type) (l : list T) k : rd l (Datatypes.S k) = nth_error l k.
Proof. reflexivity. Qed.
Lemma nth_seq a n j k : nth_error (seq a n) j = Some k -> k = a + j /\ j < n.
Proof. intros H. assert (j < n) by (rewrite <- (seq_length n a); apply nth_error_Some; congruence). split; auto.
  apply nth_error_nth with (d := 0) in H. rewrite seq_nth in H by auto. auto. Qed.
Lemma rd_app_front (T : Type) (l r : list T) k : k <= length l -> rd (l ++ r) k = rd l k.
Proof. apply rd_app1. Qed.
Lemma firstn_S (T : Type) (l : list T) j x : nth_error l j = Some x -> firstn (j + 1) l = firstn j l ++ x :: nil.
Proof.
  revert j; induction l as [|a l IH]; intros j E; destruct j; cbn in *; try discriminate.
  - congruence.
  - f_equal. apply IH. auto.
Qed.
Lemma foldM_rd (T S : Type) (f : S -> nat -> option S) (g : S -> T -> S) (l junk : list T) s :
  (forall s k x, rd (l ++ junk) k = Some x -> f s k = Some (g s x)) ->
  foldM f (seq 1 (length l)) s = Some (fold_left g l s).
Proof.
  intros Hf.
  destruct (foldM_inv _ _ f (fun j t => t = fold_left g (firstn j l) s) (seq 1 (length l)) s 0) as [t [E I]].
  - reflexivity.
  - intros j k t Hj It. apply nth_seq in Hj as [-> Hl]. destruct (nth_error l j) as [x|] eqn:Ex; [|apply nth_error_None in Ex; lia].
    exists (g t x). split.
    + apply Hf. cbn [Nat.add]. rewrite rd_app1 by lia. exact Ex.
    + rewrite Nat.add_0_l, (firstn_S _ _ _ _ Ex), fold_left_app. cbn. rewrite It. reflexivity.
  - rewrite E, I, seq_length, Nat.add_0_l, firstn_all. reflexivity.
Qed.

Section DCP.
Variable A : fl.
Variables (pw : A -> A -> A) (fin : A -> bool) (nan : A) (trunc : A -> nat).
Notation level := (level A).
Notation lp := (lp A).

(** * Compaction *)
Lemma usable_app l1 l2 : usable A fin (l1 ++ l2) = usable A fin l1 ++ usable A fin l2.
Proof. unfold usable. apply filter_app. Qed.
Lemma usable_len l : length (usable A fin l) <= length l.
Proof. unfold usable. induction l as [|a l IH]; cbn; [lia|]. destruct (_ && _); cbn; lia. Qed.
Lemma compact_ok inp work : length work = length inp ->
  foldM (compact_step A fin inp) (seq 1 (length inp)) (0, work)
  = Some (length (usable A fin inp), usable A fin inp ++ skipn (length (usable A fin inp)) work).
Proof.
  intros Hw.
  destruct (foldM_inv _ _ (compact_step A fin inp)
    (fun j s => let u := usable A fin (firstn j inp) in s = (length u, u ++ skipn (length u) work)) (seq 1 (length inp)) (0, work) 0) as [t [E I]].
  - reflexivity.
  - intros j k s Hj Is. apply nth_seq in Hj as [-> Hl]. destruct (nth_error inp j) as [x|] eqn:Ex; [|apply nth_error_None in Ex; lia].
    rewrite Nat.add_0_l in *. unfold compact_step. cbn [Nat.add]. rewrite rd_nthS, Ex. cbn [bind].
    rewrite (firstn_S _ _ _ _ Ex), usable_app. cbv zeta in Is. subst s. cbn [fst snd].
    set (u := usable A fin (firstn j inp)).
    assert (Hu : length u < length work).
    { unfold u. pose proof (usable_len (firstn j inp)). rewrite firstn_length in H. lia. }
    unfold finite_level, DC_Model.lp, lt, ltd. unfold usable at 1 2 3. cbn [filter].
    destruct (fin (fst (fst x)) && fin (snd (fst x)) && fin (snd x)).
    + rewrite wrx_ok by (rewrite app_length, skipn_length; lia). cbn [bind]. eexists. split; [reflexivity|].
      rewrite wr_append by auto. rewrite app_length. reflexivity.
    + eexists. split; [reflexivity|]. rewrite app_nil_r. reflexivity.
  - rewrite E. f_equal. rewrite I, seq_length, Nat.add_0_l, firstn_all. reflexivity.
Qed.

(** * Reversal in place *)
Lemma swaps_ok (l junk : list level) : foldM (swap_step A (length l)) (seq 1 (length l / 2)) (l ++ junk) = Some (rev l ++ junk).
Proof.
  set (m := length l).
  destruct (foldM_inv _ _ (swap_step A m)
    (fun j t => length t = length (l ++ junk) /\
       forall k, rd t k = if (1 <=? k) && (k <=? m) && ((k <=? j) || (m + 1 - j <=? k)) then rd l (m + 1 - k) else rd (l ++ junk) k)
    (seq 1 (m / 2)) (l ++ junk) 0) as [t [E [L I]]].
  - split; auto. intros k. destruct (Nat.leb_spec 1 k), (Nat.leb_spec k m), (Nat.leb_spec k 0), (Nat.leb_spec (m + 1 - 0) k); cbn [andb orb]; auto; lia.
  - intros j k t Hj [Lt It]. apply nth_seq in Hj as [-> Hl]. rewrite Nat.add_0_l in *.
    assert (H2 : 2 * (m / 2) <= m) by (apply Nat.mul_div_le; lia).
    unfold swap_step. rewrite (It (1 + j)), (It (m + 1 - (1 + j))).
    destruct (Nat.leb_spec (1 + j) j); [lia|]. destruct (Nat.leb_spec (m + 1 - j) (1 + j)); [lia|].
    destruct (Nat.leb_spec (m + 1 - (1 + j)) j); [lia|]. destruct (Nat.leb_spec (m + 1 - j) (m + 1 - (1 + j))); [lia|].
    rewrite !andb_false_r. rewrite !rd_app1 by (fold m; lia).
    destruct (rd_Some l (i := 1 + j)) as [a Ea]; [fold m; lia|]. destruct (rd_Some l (i := m + 1 - (1 + j))) as [b Eb]; [fold m; lia|].
    rewrite Ea, Eb. cbn [bind].
    rewrite app_length in Lt. fold m in Lt.
    rewrite wrx_ok by lia. cbn [bind]. rewrite wrx_ok by (rewrite wr_length; lia). eexists. split; [reflexivity|]. split.
    + rewrite !wr_length, app_length. fold m. lia.
    + intros k. destruct (Nat.eq_dec k (m + 1 - (1 + j))) as [->|N1].
      * rewrite rd_wr_eq by (rewrite wr_length; lia).
        destruct (Nat.leb_spec 1 (m + 1 - (1 + j))); [|lia]. destruct (Nat.leb_spec (m + 1 - (1 + j)) m); [|lia].
        destruct (Nat.leb_spec (m + 1 - (j + 1)) (m + 1 - (1 + j))); [|lia]. rewrite orb_true_r. cbn [andb].
        rewrite <- Ea. f_equal. lia.
      * rewrite rd_wr_neq by lia. destruct (Nat.eq_dec k (1 + j)) as [->|N2].
        -- rewrite rd_wr_eq by lia. destruct (Nat.leb_spec 1 (1 + j)); [|lia]. destruct (Nat.leb_spec (1 + j) m); [|lia].
           destruct (Nat.leb_spec (1 + j) (j + 1)); [|lia]. cbn [andb orb]. rewrite <- Eb. f_equal.
        -- rewrite rd_wr_neq by lia. rewrite It.
           destruct (Nat.leb_spec k j), (Nat.leb_spec k (j + 1)), (Nat.leb_spec (m + 1 - j) k), (Nat.leb_spec (m + 1 - (j + 1)) k); cbn [orb]; auto; lia.
  - rewrite E. f_equal. apply rd_ext_all. intros k. rewrite I, seq_length, Nat.add_0_l.
    pose proof (Nat.div_mod m 2 ltac:(lia)). pose proof (Nat.mod_upper_bound m 2 ltac:(lia)).
    destruct (Nat.leb_spec 1 k), (Nat.leb_spec k m); cbn [andb].
    + rewrite !rd_app1 by (rewrite ?rev_length; auto).
      assert (Hrev : rd (rev l) k = rd l (m + 1 - k)).
      { destruct k; [lia|]. replace (m + 1 - Datatypes.S k) with (Datatypes.S (m - Datatypes.S k)) by lia. rewrite !rd_nthS.
        destruct (nth_error l (m - Datatypes.S k)) as [x|] eqn:Ex; [|apply nth_error_None in Ex; unfold m in *; lia].
        rewrite nth_error_nth' with (d := x) by (rewrite rev_length; fold m; lia). f_equal. rewrite rev_nth by (fold m; lia).
        apply nth_error_nth. exact Ex. }
      rewrite Hrev. destruct (Nat.leb_spec k (m / 2)); cbn [orb]; auto. destruct (Nat.leb_spec (m + 1 - m / 2) k); auto.
      f_equal. lia.
    + rewrite !rd_app2; rewrite ?rev_length; auto.
    + destruct k; [reflexivity|lia].
    + lia.
Qed.

(** * The start *)
Lemma layer_ok (l junk : list level) s :
  foldM (layer_step A pw (l ++ junk)) (seq 1 (length l)) s
  = Some (fold_left (better A pw) (filter (fun x => between A (fc A 500 1) (fc A 700 1) (lp x)) l) s).
Proof.
  rewrite (foldM_rd _ _ _ (fun s x => if between A (fc A 500 1) (fc A 700 1) (lp x) then better A pw s x else s) l junk).
  - f_equal. revert s. induction l as [|x l IH]; intros s; cbn [fold_left filter]; auto.
    destruct (between _ _ _ _); cbn [fold_left]; apply IH.
  - intros t k x Hx. unfold layer_step. rewrite Hx. reflexivity.
Qed.
Lemma bracket_ok' b : forall (l pre junk : list level) n, length l = n + 1 ->
  exists r, bracket A (pre ++ l ++ junk) b (seq (length pre + 1) n) = Some r /\
    crossing A l b = match r with Some x => x :: nil | None => nil end.
Proof.
  induction l as [|x l IH]; intros pre junk n Hn; [cbn in Hn; lia|]. destruct n.
  - destruct l; [|cbn in Hn; lia]. exists None. split; reflexivity.
  - destruct l as [|y l]; [cbn in Hn; lia|]. cbn [seq bracket].
    assert (E1 : rd (pre ++ (x :: y :: l) ++ junk) (length pre + 1) = Some x).
    { rewrite rd_app2 by lia. replace (length pre + 1 - length pre) with 1 by lia. reflexivity. }
    assert (E2 : rd (pre ++ (x :: y :: l) ++ junk) (length pre + 1 + 1) = Some y).
    { rewrite rd_app2 by lia. replace (length pre + 1 + 1 - length pre) with 2 by lia. reflexivity. }
    rewrite E1, E2. cbn [bind].
    change (crossing A (x :: y :: l) b) with
      (if between A (lp y) (lp x) b || between A (lp x) (lp y) b
       then (b, interp_linear_p A (lp x) (snd (fst x)) (lp y) (snd (fst y)) b,
                interp_linear_p A (lp x) (snd x) (lp y) (snd y) b) :: nil
       else crossing A (y :: l) b).
    unfold between. rewrite (andb_comm (dle A (lp y) b)).
    destruct (_ || _).
    + eexists. split; reflexivity.
    + destruct (IH (pre ++ x :: nil) junk n) as [r [Er Hr]]; [cbn in *; lia|].
      rewrite app_length, <- app_assoc in Er. cbn [length app] in Er. cbn [app].
      replace (Datatypes.S (length pre + 1)) with (length pre + 1 + 1) by lia. eauto.
Qed.
Lemma bound_ok (l junk : list level) s b : l <> nil ->
  bound_step A pw (l ++ junk) (length l) s b = Some (fold_left (better A pw) (crossing A l b) s).
Proof.
  intros Hl. destruct (bracket_ok' b l nil junk (length l - 1)) as [r [Er Hr]]; [destruct l; cbn; [congruence|lia]|].
  unfold bound_step. cbn [app length Nat.add] in Er. rewrite Er. cbn [bind]. rewrite Hr. destruct r; reflexivity.
Qed.
Lemma better_coldest : forall l best found, snd (fold_left (better A pw) l (best, found)) = coldest A pw l best found.
Proof.
  induction l as [|x l IH]; intros best found; auto. cbn [fold_left coldest]. unfold better at 2. cbn [fst].
  change (thetae A pw (lp x) (lt A x) (ltd A x)) with (theta A pw x). destruct (fltb A (theta A pw x) best); apply IH.
Qed.
Lemma thetae_min_ok (l junk : list level) : l <> nil -> thetae_min A pw (l ++ junk) (length l) = Some (origin A pw l).
Proof.
  intros Hl. unfold thetae_min. rewrite layer_ok. cbn [bind foldM]. rewrite bound_ok by auto. cbn [bind].
  rewrite bound_ok by auto. cbn [bind]. f_equal. unfold origin. rewrite <- better_coldest. unfold candidates.
  rewrite !fold_left_app. reflexivity.
Qed.

Lemma start_ok p : forall (l pre junk : list level) idx,
  start_index A (pre ++ l ++ junk) p (seq (length pre + 1) (length l)) idx
  = Some (match up_to A p l with nil => idx | u => length pre + length u end).
Proof.
  induction l as [|x l IH]; intros pre junk idx; [reflexivity|].
  cbn [length seq start_index up_to].
  assert (E1 : rd (pre ++ (x :: l) ++ junk) (length pre + 1) = Some x).
  { rewrite rd_app2 by lia. replace (length pre + 1 - length pre) with 1 by lia. reflexivity. }
  rewrite E1. cbn [bind]. destruct (dle A p (lp x)); auto.
  specialize (IH (pre ++ x :: nil) junk (length pre + 1)). rewrite app_length, <- app_assoc in IH. cbn [length app] in IH. cbn [app].
  replace (Datatypes.S (length pre + 1)) with (length pre + 1 + 1) by lia. rewrite IH. f_equal.
  destruct (up_to A p l); cbn [length]; lia.
Qed.
Lemma up_to_prefix p l : exists r, l = up_to A p l ++ r.
Proof. induction l as [|x l [r IH]]; [exists nil; auto|]. cbn [up_to]. destruct (dle A p (lp x)); [|exists (x :: l); auto].
  exists r. cbn. congruence. Qed.

(** * The descent *)
Lemma descent_cons x y u p t : descent A trunc (x :: y :: u) p t =
  match descent A trunc (y :: u) p t with
  | (v :: _) as vs => moist_t A trunc (hpa A (lp y)) v (hpa A (lp x)) :: vs
  | nil => nil
  end.
Proof. reflexivity. Qed.
Lemma descent_len : forall u p t, length (descent A trunc u p t) = length u.
Proof.
  induction u as [|x u IH]; intros p t; auto. destruct u as [|y u]; [reflexivity|]. rewrite descent_cons.
  specialize (IH p t). destruct (descent A trunc (y :: u) p t) as [|v vs]; [cbn in IH; lia|]. cbn [length] in *. lia.
Qed.
Lemma descent_nth : forall u p t k x y v, nth_error u k = Some x -> nth_error u (k + 1) = Some y ->
  nth_error (descent A trunc u p t) (k + 1) = Some v ->
  nth_error (descent A trunc u p t) k = Some (moist_t A trunc (hpa A (lp y)) v (hpa A (lp x))).
Proof.
  induction u as [|a u IH]; intros p t k x y v Hx Hy Hv; [destruct k; discriminate|].
  destruct u as [|b u].
  - destruct k; cbn in Hy; [discriminate|]. destruct k; discriminate.
  - rewrite descent_cons in *. pose proof (descent_len (b :: u) p t) as L. specialize (IH p t).
    destruct (descent A trunc (b :: u) p t) as [|w ws] eqn:E; [cbn in L; lia|].
    destruct k.
    + cbn in Hx, Hy, Hv. injection Hx as <-. injection Hy as <-. injection Hv as <-. reflexivity.
    + cbn [Nat.add nth_error] in *. apply (IH k x y v); auto.
Qed.
Lemma descent_last : forall u p t x, u <> nil -> nth_error u (length u - 1) = Some x ->
  nth_error (descent A trunc u p t) (length u - 1) = Some (moist_t A trunc (hpa A p) t (hpa A (lp x))).
Proof.
  induction u as [|a u IH]; intros p t x Hu Hx; [congruence|]. destruct u as [|b u].
  - cbn in *. congruence.
  - rewrite descent_cons. pose proof (descent_len (b :: u) p t) as L. specialize (IH p t x).
    destruct (descent A trunc (b :: u) p t) as [|w ws] eqn:E; [cbn in L; lia|].
    cbn [length] in *. replace (Datatypes.S (Datatypes.S (length u)) - 1) with (Datatypes.S (length u)) in * by lia.
    cbn [nth_error] in *. rewrite Nat.sub_succ, Nat.sub_0_r in IH. apply IH; auto. congruence.
Qed.
Lemma nth_rev_seq n j k : nth_error (rev (seq 2 (n - 1))) j = Some k -> 2 <= k /\ k + j = n.
Proof.
  intros H. assert (Hj : j < n - 1). { rewrite <- (seq_length (n - 1) 2), <- rev_length. apply nth_error_Some. congruence. }
  apply nth_error_nth with (d := 0) in H. rewrite rev_nth in H by (rewrite seq_length; auto). rewrite seq_length, seq_nth in H by lia. lia.
Qed.
Lemma parcel_ok (u junk : list level) p t tk0 : 2 <= length u -> length u <= length tk0 ->
  rd tk0 (length u) = rd (descent A trunc u p t) (length u) ->
  exists tk, foldM (parcel_step A trunc (u ++ junk)) (rev (seq 2 (length u - 1))) tk0 = Some tk /\
    forall k, 1 <= k <= length u -> rd tk k = rd (descent A trunc u p t) k.
Proof.
  intros Hu Ht Hr. set (n := length u) in *. set (D := descent A trunc u p t) in *.
  assert (LD : length D = n) by apply descent_len.
  destruct (foldM_inv _ _ (parcel_step A trunc (u ++ junk))
    (fun j tk => length tk = length tk0 /\ forall k, n - j <= k <= n -> 1 <= k -> rd tk k = rd D k) (rev (seq 2 (n - 1))) tk0 0) as [tk [E [L I]]].
  - split; auto. intros k Hk _. replace k with n by lia. auto.
  - intros j k tk Hj [Lt It]. apply nth_rev_seq in Hj as [Hk2 Hkj]. rewrite Nat.add_0_l in *.
    unfold parcel_step. rewrite !rd_app1 by (fold n; lia).
    destruct (rd_Some u (i := k)) as [x Ex]; [fold n; lia|]. destruct (rd_Some u (i := k - 1)) as [y Ey]; [fold n; lia|].
    destruct (rd_Some D (i := k)) as [v Ev]; [lia|].
    rewrite Ex, Ey, (It k), Ev by lia. cbn [bind]. rewrite wrx_ok by lia. eexists. split; [reflexivity|].
    rewrite wr_length. split; auto. intros i Hi H1. destruct (Nat.eq_dec i (k - 1)) as [->|N].
    + rewrite rd_wr_eq by lia. symmetry. destruct k as [|[|k]]; try lia. cbn [Nat.sub] in *. rewrite rd_nthS in *.
      eapply descent_nth; rewrite ?Nat.add_1_r; eauto.
    + rewrite rd_wr_neq by auto. apply It; lia.
  - exists tk. split; auto. intros k Hk. apply I; [|lia]. rewrite rev_length, seq_length. lia.
Qed.

(** * The integral *)
Definition point (q : level * A) : A * A := (tv_diff A (fst q) (snd q), fln A (lp (fst q))).
Definition istep (s : A * option (A * A)) (q : level * A) : A * option (A * A) :=
  match snd s with
  | None => (fst s, Some (point q))
  | Some (d, x) => (fadd A (fst s) (fmul A (fmul A (fc A 5 10) (fadd A d (fst (point q)))) (fsub A (snd (point q)) x)), Some (point q))
  end.
Lemma istep_some : forall l s a, fst (fold_left istep l (s, Some a)) = fold_left (fadd A) (trapezoids A (a :: map point l)) s.
Proof.
  induction l as [|q l IH]; intros s [d x]; [reflexivity|].
  cbn [fold_left map]. unfold istep at 2. cbn [fst snd]. rewrite IH. reflexivity.
Qed.
Lemma istep_none l s : fst (fold_left istep l (s, None)) = fold_left (fadd A) (trapezoids A (map point l)) s.
Proof. destruct l as [|q l]; [reflexivity|]. cbn [fold_left map]. unfold istep at 2. cbn [fst snd]. apply istep_some. Qed.
Lemma nth_combine2 (S T : Type) : forall (a : list S) (b : list T) k x y, nth_error a k = Some x -> nth_error b k = Some y ->
  nth_error (combine a b) k = Some (x, y).
Proof. induction a as [|a0 a IH]; intros b k x y Ha Hb; destruct k, b; cbn in *; try discriminate; [congruence|auto]. Qed.
Lemma integral_ok (u junk : list level) tk vs s : length vs = length u -> (forall k, 1 <= k <= length u -> rd tk k = rd vs k) ->
  exists r, foldM (integral_step A (u ++ junk) tk) (seq 1 (length u)) s = Some r /\ r = fold_left istep (combine u vs) s.
Proof.
  intros L H.
  destruct (foldM_inv _ _ (integral_step A (u ++ junk) tk) (fun j t => t = fold_left istep (firstn j (combine u vs)) s) (seq 1 (length u)) s 0) as [r [E I]].
  - reflexivity.
  - intros j k t Hj It. apply nth_seq in Hj as [-> Hl]. rewrite Nat.add_0_l in *.
    destruct (nth_error u j) as [x|] eqn:Ex; [|apply nth_error_None in Ex; lia].
    destruct (nth_error vs j) as [v|] eqn:Ev; [|apply nth_error_None in Ev; lia].
    exists (istep t (x, v)). split.
    + unfold integral_step. rewrite rd_app1 by lia. rewrite H by lia. cbn [Nat.add]. rewrite !rd_nthS, Ex, Ev. cbn [bind].
      unfold istep, point. cbn [fst snd]. destruct (snd t) as [[d y]|]; reflexivity.
    + rewrite (firstn_S _ _ _ _ (nth_combine2 _ _ _ _ _ _ _ Ex Ev)), fold_left_app, It. reflexivity.
  - exists r. split; auto. rewrite I, seq_length, Nat.add_0_l. rewrite firstn_all2; auto. rewrite combine_length. lia.
Qed.

(** * The profile *)
Lemma upward_len l : length (upward A l) = length l.
Proof. destruct l as [|x l]; auto. unfold upward. destruct (fltb _ _ _); rewrite ?rev_length; auto. Qed.
Lemma last_nth (T : Type) (l : list T) d : l <> nil -> nth_error l (length l - 1) = Some (last l d).
Proof. intros H. destruct (exists_last H) as [a [z ->]]. rewrite last_last, app_length. cbn [length].
  rewrite Nat.add_sub, nth_error_app2, Nat.sub_diag by lia. reflexivity. Qed.
Lemma rest_ok (l junk : list level) tk : length l <= length tk ->
  dcape_rest A pw fin nan trunc (length l) (l ++ junk) tk = Some (downdraft A pw fin nan trunc l).
Proof.
  intros Ht. unfold dcape_rest, downdraft. destruct (Nat.ltb_spec (length l) 4); auto.
  destruct l as [|x0 l0] eqn:El; [cbn in *; lia|]. rewrite <- El in *. clear H.
  assert (E1 : rd (l ++ junk) 1 = Some x0) by (subst l; reflexivity). rewrite E1. cbn [bind].
  assert (Hne : l <> nil) by (subst l; discriminate).
  assert (Em : rd (l ++ junk) (length l) = Some (last l x0)).
  { rewrite rd_app1 by lia. rewrite <- (last_nth _ l x0) by auto. assert (1 <= length l) by (subst l; cbn; lia).
    replace (length l) with (Datatypes.S (length l - 1)) at 1 by lia. reflexivity. }
  rewrite Em. cbn [bind].
  assert (Ea : (if fltb A (lp x0) (lp (last l x0)) then foldM (swap_step A (length l)) (seq 1 (length l / 2)) (l ++ junk) else Some (l ++ junk))
    = Some (upward A l ++ junk)).
  { replace (upward A l) with (if fltb A (lp x0) (lp (last l x0)) then rev l else l) by (rewrite El; reflexivity).
    destruct (fltb _ _ _); [|reflexivity]. rewrite swaps_ok. reflexivity. }
  rewrite Ea. cbn [bind]. clear Ea. pose proof (upward_len l) as Lw. set (w := upward A l) in *. rewrite <- Lw.
  assert (Hw : w <> nil) by (destruct w; [subst l; cbn in Lw; lia|discriminate]).
  rewrite thetae_min_ok by auto. cbn [bind]. destruct (origin A pw w) as [s|]; auto.
  assert (Es : start_index A (w ++ junk) (lp s) (seq 1 (length w)) 0 = Some (length (up_to A (lp s) w))).
  { pose proof (start_ok (lp s) w nil junk 0) as Es. destruct (up_to A (lp s) w); exact Es. }
  rewrite Es. cbn [bind]. set (u := up_to A (lp s) w) in *.
  destruct (Nat.leb_spec (length u) 1) as [?|Hu]; auto.
  destruct (up_to_prefix (lp s) w) as [r Er]. fold u in Er.
  unfold energy, wet_bulb.
  destruct (lcl_bolton A pw (fst (fst s)) (snd (fst s)) (snd s)) as [plcl tlcl] eqn:Elcl.
  change (lcl_bolton A pw (lp s) (lt A s) (ltd A s)) with (lcl_bolton A pw (fst (fst s)) (snd (fst s)) (snd s)). rewrite Elcl.
  set (tw := moist_t A trunc (hpa A plcl) tlcl (hpa A (lp s))).
  rewrite Er, <- app_assoc.
  destruct (rd_Some u (i := length u)) as [z Ez]; [lia|].
  rewrite (rd_app1 u (r ++ junk) (i := length u)) by lia. rewrite Ez. cbn [bind].
  assert (Lu : length u <= length tk). { assert (length w = length u + length r) by (rewrite Er at 1; apply app_length). lia. }
  rewrite wrx_ok by lia. cbn [bind].
  set (tk0 := wr tk (length u) _).
  destruct (parcel_ok u (r ++ junk) (lp s) tw tk0) as [tk1 [E2 H2]]; [lia|unfold tk0; rewrite wr_length; lia| |].
  { unfold tk0. rewrite rd_wr_eq by lia. symmetry. replace (length u) with (Datatypes.S (length u - 1)) in * by lia. rewrite rd_nthS in *.
    replace (Datatypes.S (length u - 1) - 1) with (length u - 1) in * by lia. apply descent_last; auto. destruct u; [cbn in Hu; lia|discriminate]. }
  rewrite E2. cbn [bind].
  destruct (integral_ok u (r ++ junk) tk1 (descent A trunc u (lp s) tw) (fc A 0 1, None)) as [q [E3 H3]]; auto. { apply descent_len. }
  rewrite E3. cbn [bind]. f_equal. unfold cut, buoyancy. rewrite H3, istep_none. reflexivity.
Qed.
Theorem profile_ok inp work tk : length work = length inp -> length tk = length inp ->
  dcape_profile A pw fin nan trunc inp work tk = Some (downdraft A pw fin nan trunc (usable A fin inp)).
Proof.
  intros Hw Ht. unfold dcape_profile. pose proof (usable_len inp). destruct (Nat.ltb_spec (length inp) 4).
  - unfold downdraft. destruct (Nat.ltb_spec (length (usable A fin inp)) 4); auto. lia.
  - rewrite compact_ok by auto. cbn [bind fst snd]. apply rest_ok. lia.
Qed.
End DCP.
