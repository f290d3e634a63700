(** Properties of the linint2 interpolation routines (C31, C57, C58). *)
From Verif Require Import Base Buffer Loops VH_Model VH_Spec LM_Proofs LI_Model LI_Spec LI_Proofs LI_Proofs2 LI_Proofs3 LI_Proofs4 LI_Proofs5 LI_Proofs6 LI_Proofs7.
Local Open Scope nat_scope.

(** ** C31: the one-pass sweep *)
Theorem lin2int1_pointwise xs fs xo m iflag :
  length xs = length fs -> 2 <= length xs -> (iflag = 1%Z /\ goes_up xs /\ goes_up xo) \/ (iflag = (-1)%Z /\ goes_down xs /\ goes_down xo) ->
  exists vs, dlin2int1 (length xs) xs fs xo m iflag = Some vs /\ length vs = length xo /\
    forall j t, nth_error xo j = Some t -> exists v, nth_error vs j = Some v /\ linear_at xs fs m t v.
Proof.
  intros L H2 G. destruct (lin2int1_ok iflag xs fs [] [] xo m) as [vs [E P]]; auto; try (unfold goes; tauto). rewrite !app_nil_r in E. eauto.
Qed.
Theorem linear_at_determined xs fs m t v v' : strictly_monotone xs -> linear_at xs fs m t v -> linear_at xs fs m t v' -> v = v'.
Proof. apply linear_at_unique. Qed.
Theorem linear_at_in_range xs fs m t v lo hi : (forall f, In f fs -> f <> m -> (lo <= f)%Qc /\ (f <= hi)%Qc) -> linear_at xs fs m t v -> v = m \/ ((lo <= v)%Qc /\ (v <= hi)%Qc).
Proof. apply linear_at_range. Qed.
Lemma up3 (a b c : Qc) : (a < b)%Qc -> (b < c)%Qc -> goes_up [a; b; c].
Proof. intros H K. apply goes_up_cons. split; [|auto]. apply goes_up_cons. split; [|auto]. apply goes_up_cons. split; auto. intros [|i] j p q; discriminate. Qed.
Example lin2int1_demo : exists vs, dlin2int1 3 [qz 0; qz 2; qz 3] [qz 10; qz 20; qz (-9)] [qz (-1); qz 1; qz 2] (qz (-9)) 1 = Some vs /\ map this vs = map this [qz (-9); qz 15; qz 20]
  /\ goes_up [qz 0; qz 2; qz 3] /\ goes_up [qz (-1); qz 1; qz 2].
Proof. eexists. split; [vm_compute; reflexivity|]. split; [vm_compute; reflexivity|]. split; apply up3; reflexivity. Qed.

(** ** C58: the drivers, given the documented workspace of nxi + 2 elements *)
Theorem linint1_values xs fs xo icycx iopt m xw fw W :
  length xs = length fs -> 2 <= length xs -> xo <> [] -> (goes_up xs /\ goes_up xo) \/ (goes_down xs /\ goes_down xo /\ 2 <= length xo) -> iopt = 0%Z \/ iopt = 1%Z ->
  source (negb (icycx =? 0)%Z) (iopt =? 1)%Z m xs fs W -> 2 <= length W -> length xs + 2 <= length xw -> length xs + 2 <= length fw ->
  exists vs, dlinint1 xs fs xo icycx iopt m (xw, fw) = Some (vs, true) /\ length vs = length xo /\
    strictly_monotone (map fst W) /\
    forall j t, nth_error xo j = Some t -> exists v, nth_error vs j = Some v /\ linear_at (map fst W) (map snd W) m t v.
Proof.
  intros L H2 NO G IO SR LW LX LF.
  assert (GG : exists f, f <> 0%Z /\ goes f xs /\ goes f xo /\ (2 <= length xo \/ f = 1%Z)).
  { destruct G as [[G1 G2]|[G1 [G2 G3]]]; [exists 1%Z|exists (-1)%Z]; unfold goes; (split; [discriminate|tauto]). }
  destruct GG as [f [NF [G1 [G2 G3]]]].
  destruct (linint1_ok xs fs xo icycx iopt m xw fw W f) as [vs [E [LV P]]]; auto. { apply monoid2_same; auto. }
  exists vs. split; auto. split; auto. split; auto. destruct (source_goes f _ _ m xs fs W H2 G1 SR) as [[_ H]|[_ H]]; [left|right]; auto.
Qed.
Theorem linint1_rejects xs fs xo icycx iopt m w :
  xo = [] \/ length xs <= 1 \/ (~ (goes_up xs /\ goes_up xo) /\ ~ (goes_down xs /\ goes_down xo)) -> dlinint1 xs fs xo icycx iopt m w = Some (map (fun _ => m) xo, false).
Proof. apply linint1_bad. Qed.
(** on a uniform ring of n points at spacing d the wrapped points are the real
    neighbours, one turn n * d away, however many points are missing at the ends *)
Theorem wrapped_uniform xs fs m drop W (a d : Qc) :
  length xs = length fs -> 2 <= length xs -> (forall k x, nth_error xs k = Some x -> x = (a + qz (Z.of_nat k) * d)%Qc) ->
  source true drop m xs fs W ->
  exists p q l, W = ((fst q - qz (Z.of_nat (length xs)) * d)%Qc, snd q) :: l ++ ((fst p + qz (Z.of_nat (length xs)) * d)%Qc, snd p) :: nil /\
    l = points drop m xs fs /\ nth_error l 0 = Some p /\ nth_error l (length l - 1) = Some q.
Proof.
  intros L H2 U [p [q [x1 [x2 [xm [xn [P [Q [X1 [X2 [Xm [Xn ->]]]]]]]]]]]]. exists p, q, (points drop m xs fs).
  set (s := if drop then leading m fs + leading m (rev fs) + 1 else 1).
  assert (E1 : (x2 - x1)%Qc = d). { rewrite (U _ _ X1), (U _ _ X2). change (Z.of_nat 0) with 0%Z. change (Z.of_nat 1) with 1%Z. rewrite qz_0, qz_1. ring. }
  assert (E2 : (xn - xm)%Qc = d). { rewrite (U _ _ Xm), (U _ _ Xn). replace (Z.of_nat (length xs - 1)) with (Z.of_nat (length xs - 2) + 1)%Z by lia. rewrite qz_add, qz_1. ring. }
  rewrite E1, E2.
  assert (K : exists i j, nth_error xs i = Some (fst p) /\ nth_error xs j = Some (fst q) /\ i + length xs = j + s).
  { subst s. destruct drop.
    - assert (FIRST : forall xs fs, length xs = length fs -> forall p, nth_error (points true m xs fs) 0 = Some p -> nth_error xs (leading m fs) = Some (fst p)).
      { clear. induction xs as [|x xs IH]; intros [|f fs] L p P; try discriminate. injection L as L. unfold points in P. simpl in *. destruct (Qceqb f m); simpl in *; [apply IH; auto|]. injection P as <-. auto. }
      assert (LAST : forall xs fs, length xs = length fs -> forall q, nth_error (points true m xs fs) (length (points true m xs fs) - 1) = Some q -> leading m (rev fs) < length xs /\ nth_error xs (length xs - 1 - leading m (rev fs)) = Some (fst q)).
      { clear. induction xs as [|x xs IH] using rev_ind; intros fs L q Q. { destruct fs; discriminate. }
        destruct (exists_last (l := fs)) as [fs' [f ->]]; [destruct fs; [rewrite app_length in L; simpl in L; lia|discriminate]|]. rewrite !app_length in L. simpl in L.
        assert (C : combine (xs ++ x :: nil) (fs' ++ f :: nil) = combine xs fs' ++ (x, f) :: nil).
        { assert (L' : length xs = length fs') by lia. clear -L'. revert fs' L'. induction xs as [|y xs IH]; intros [|g fs'] L'; try discriminate; auto. simpl. f_equal. apply IH. injection L'; auto. }
        unfold points in Q. rewrite C in Q. rewrite filter_app in Q. rewrite rev_app_distr. simpl. simpl in Q. destruct (Qceqb f m); simpl in *.
        - rewrite app_nil_r in Q. destruct (IH fs') with (q := q) as [B E]; [lia|exact Q|]. rewrite app_length. simpl. split; [lia|]. rewrite nth_error_app1 by lia. rewrite <- E. f_equal. lia.
        - rewrite app_length in Q. simpl in Q. rewrite nth_error_app2 in Q by lia. replace (_ + 1 - 1 - _) with 0 in Q by lia. injection Q as <-. rewrite app_length. simpl. split; [lia|]. rewrite nth_error_app2 by lia. replace (_ - 0 - _) with 0 by lia. auto. }
      destruct (LAST xs fs L q Q) as [B E]. exists (leading m fs), (length xs - 1 - leading m (rev fs)). split; [apply FIRST; auto|]. split; auto. lia.
    - unfold points in P, Q. rewrite combine_length, <- L, Nat.min_id in Q. exists 0, (length xs - 1). pose proof (map_nth_error fst _ _ P) as P'. pose proof (map_nth_error fst _ _ Q) as Q'. rewrite combine_fst in P', Q' by auto. split; auto. split; auto. lia. }
  destruct K as [i [j [I [J K]]]]. rewrite (U _ _ I), (U _ _ J).
  assert (KQ : (qz (Z.of_nat i) + qz (Z.of_nat (length xs)))%Qc = (qz (Z.of_nat j) + qz (Z.of_nat s))%Qc) by (rewrite <- !qz_add; f_equal; lia).
  split; auto. f_equal; [f_equal|f_equal; f_equal; f_equal].
  - replace (qz (Z.of_nat s)) with (qz (Z.of_nat i) + qz (Z.of_nat (length xs)) - qz (Z.of_nat j))%Qc by (rewrite KQ; ring). ring.
  - replace (qz (Z.of_nat s)) with (qz (Z.of_nat i) + qz (Z.of_nat (length xs)) - qz (Z.of_nat j))%Qc by (rewrite KQ; ring). ring.
Qed.
(** 4 points 90 degrees apart, the last two missing: the target 300 lies between
    90 and 360 = 0 + one turn *)
Example linint1_demo : exists vs W, dlinint1 [qz 0; qz 90; qz 180; qz 270] [qz 1; qz 10; qz (-9); qz (-9)] [qz 90; qz 300] 1 1 (qz (-9)) (repeat 0%Qc 6, repeat 0%Qc 6) = Some (vs, true) /\
  map this vs = map this [qz 10; qz 3] /\ source true true (qz (-9)) [qz 0; qz 90; qz 180; qz 270] [qz 1; qz 10; qz (-9); qz (-9)] W /\ 2 <= length W.
Proof.
  eexists. exists [((qz 0 - qz 3 * (qz 90 - qz 0))%Qc, qz 10); (qz 0, qz 1); (qz 90, qz 10); ((qz 90 + qz 3 * (qz 270 - qz 180))%Qc, qz 1)].
  split; [vm_compute; reflexivity|]. split; [vm_compute; reflexivity|]. split; [|simpl; lia].
  exists (qz 0, qz 1), (qz 90, qz 10), (qz 0), (qz 90), (qz 180), (qz 270). repeat (split; [reflexivity|]). reflexivity.
Qed.
(** with a missing-point drop and fewer than two points left the work arrays are
    read beyond the packed points: one present point, targets on two sides of it *)
Theorem linint1_stale_refuted : exists xs fs xo m xw fw xw' vs vs',
  length xs = length fs /\ goes_up xs /\ goes_up xo /\ length xw = length xs + 2 /\ length xw' = length xs + 2 /\
  dlinint1 xs fs xo 0 1 m (xw, fw) = Some (vs, true) /\ dlinint1 xs fs xo 0 1 m (xw', fw) = Some (vs', true) /\ map this vs <> map this vs'.
Proof.
  exists [qz 0; qz 1; qz 2], [qz 5; qz (-9); qz (-9)], (qz 1 :: nil), (qz (-9)), (repeat (qz 0) 5), (repeat (qz 7) 5), (repeat (qz 1) 5). do 2 eexists.
  split; [reflexivity|]. split; [apply up3; reflexivity|]. split; [apply goes_up_cons; split; auto; intros [|i] j p q; discriminate|]. split; [reflexivity|]. split; [reflexivity|].
  split; [vm_compute; reflexivity|]. split; [vm_compute; reflexivity|]. vm_compute. discriminate.
Qed.
(** a single target is always taken as ascending, so a descending source rejects it *)
Theorem linint1_single_descending_refuted : exists xs fs t m w, goes_down xs /\ (forall f, In f fs -> f <> m) /\ (exists v, linear_at xs fs m t v /\ v <> m) /\
  dlinint1 xs fs (t :: nil) 0 0 m w = Some (m :: nil, false).
Proof.
  exists [qz 2; qz 1; qz 0], [qz 20; qz 10; qz 0], (qz 1), (qz (-9)), ([], []). split.
  - apply goes_down_cons. split; [|reflexivity]. apply goes_down_cons. split; [|reflexivity]. apply goes_down_cons. split; auto. intros [|i] j p q; discriminate.
  - split; [intros f [<-|[<-|[<-|[]]]]; intros E; discriminate E|]. split; [exists (qz 10); split; [apply (la_point _ _ _ _ 1); reflexivity|intros E; discriminate E]|]. vm_compute. reflexivity.
Qed.

(** two dimensions: rows, then columns *)
Theorem linint2_values xs ys fi xo yo icycx iopt m xw fw wa wb :
  2 <= length xs -> 2 <= length ys -> length fi = length ys -> (forall row, In row fi -> length row = length xs) -> xo <> [] -> yo <> [] ->
  (goes_up xs /\ goes_up xo /\ goes_up ys /\ goes_up yo) \/ (goes_down xs /\ goes_down xo /\ 2 <= length xo /\ goes_down ys /\ goes_down yo /\ 2 <= length yo) ->
  iopt = 0%Z \/ iopt = 1%Z -> length xs + 2 <= length xw -> length xs + 2 <= length fw -> length ys <= length wa -> length ys <= length wb ->
  (iopt = 1%Z -> forall row W, In row fi -> source (negb (icycx =? 0)%Z) true m xs row W -> 2 <= length W) ->
  (iopt = 1%Z -> forall row, In row fi -> exists v, In v row /\ v <> m) ->
  (iopt = 1%Z -> forall x g, In x xo -> rows_at (negb (icycx =? 0)%Z) true m xs fi x g -> 2 <= length (points true m ys g)) ->
  exists cols, dlinint2 xs ys fi xo yo icycx iopt m (xw, fw) (wa, wb) = Some (cols, 0%Z) /\ length cols = length xo /\
    forall i j x y, nth_error xo i = Some x -> nth_error yo j = Some y ->
      exists col v, nth_error cols i = Some col /\ length col = length yo /\ nth_error col j = Some v /\ grid_value (negb (icycx =? 0)%Z) (iopt =? 1)%Z m xs ys fi x y v.
Proof.
  intros H2 H2y LF LR NX NY G IO W1 W2 W3 W4 RV RN CV.
  assert (GG : exists f, f <> 0%Z /\ dmonoid2 xs xo = (f, 0%Z) /\ dmonoid2 ys yo = (f, 0%Z)).
  { destruct G as [G|G]; [exists 1%Z|exists (-1)%Z]; (split; [discriminate|]); split; apply monoid2_same; unfold goes; tauto. }
  destruct GG as [f [NF [DX DY]]]. exact (linint2_ok f xs ys fi xo yo icycx iopt m xw fw wa wb H2 H2y LF LR NX NY NF DX DY IO W1 W2 W3 W4 RV RN CV).
Qed.
Theorem grid_value_in_range cy drop m xs ys fi x y v lo hi : (forall row f, In row fi -> In f row -> f <> m -> (lo <= f)%Qc /\ (f <= hi)%Qc) -> grid_value cy drop m xs ys fi x y v ->
  v = m \/ ((lo <= v)%Qc /\ (v <= hi)%Qc).
Proof. apply grid_range. Qed.
Example linint2_demo : exists cols, dlinint2 [qz 0; qz 2; qz 3] [qz 0; qz 2; qz 3] [[qz 0; qz 2; qz 3]; [qz 4; qz 6; qz 7]; [qz 5; qz 7; qz 8]] [qz 0; qz 1; qz 2] [qz 1; qz 2; qz 4] 0 0 (qz (-9))
    (repeat 0%Qc 5, repeat 0%Qc 5) (repeat 0%Qc 3, repeat 0%Qc 3) = Some (cols, 0%Z) /\ map (map this) cols = map (map this) [[qz 2; qz 4; qz (-9)]; [qz 3; qz 5; qz (-9)]; [qz 4; qz 6; qz (-9)]].
Proof. eexists. split; vm_compute; reflexivity. Qed.
(** x increasing and y decreasing, each matching its targets: the direction of x is
    forgotten and a target inside the grid, every corner present, comes out missing *)
Theorem linint2_mixed_refuted : exists xs ys fi xo yo m w wy col v,
  goes_up xs /\ goes_up xo /\ goes_down ys /\ goes_down yo /\ (forall row f, In row fi -> In f row -> f <> m) /\
  grid_value false false m xs ys fi (hd 0%Qc xo) (hd 0%Qc yo) v /\ v <> m /\
  dlinint2 xs ys fi xo yo 0 0 m w wy = Some (col, 0%Z) /\ nth_error col 0 = Some [m; m].
Proof.
  exists [qz 0; qz 2; qz 4], [qz 1; qz 0], [[qz 1; qz 1; qz 1]; [qz 1; qz 1; qz 1]], [qz 1; qz 3], [qz 1; qz 0], (qz (-9)), ([], []), ([], []). eexists. exists (along (qz 1) (qz 1) (linear_part (qz 1) (qz 0) (qz 2))).
  split; [apply up3; reflexivity|]. split; [apply goes_up_cons; split; [apply goes_up_cons; split; auto; intros [|i] j p q; discriminate|reflexivity]|].
  split; [apply goes_down_cons; split; [apply goes_down_cons; split; auto; intros [|i] j p q; discriminate|reflexivity]|]. split; [apply goes_down_cons; split; [apply goes_down_cons; split; auto; intros [|i] j p q; discriminate|reflexivity]|].
  split. { intros row f [<-|[<-|[]]] [<-|[<-|[<-|[]]]]; intros E; discriminate E. }
  split. { exists [along (qz 1) (qz 1) (linear_part (qz 1) (qz 0) (qz 2)); along (qz 1) (qz 1) (linear_part (qz 1) (qz 0) (qz 2))]. split.
    - constructor; [|constructor; [|constructor]]; (eexists; split; [reflexivity|]); apply (la_line _ _ _ _ 0); try reflexivity; try (left; split; reflexivity); intros E; discriminate E.
    - apply (la_point _ _ _ _ 0); reflexivity. }
  split; [intros E; discriminate E|]. split; [vm_compute; reflexivity|]. reflexivity.
Qed.
(** dropping missing points: a column with none present repeats the column before it *)
Theorem linint2_stale_column_refuted : exists xs ys fi xo yo m w wy cols c,
  goes_up xs /\ goes_up ys /\ goes_up xo /\ goes_up yo /\ length (fst w) = length xs + 2 /\ length (snd w) = length xs + 2 /\ length (fst wy) = length ys /\ length (snd wy) = length ys /\
  (forall x, In x xs -> (x < nth 1 xo 0)%Qc) /\
  dlinint2 xs ys fi xo yo 0 1 m w wy = Some (cols, 0%Z) /\ nth_error cols 0 = Some c /\ nth_error cols 1 = Some c /\ (forall v, In v c -> v <> m).
Proof.
  exists [qz 0; qz 1], [qz 0; qz 1], [[qz 3; qz 4]; [qz 5; qz 6]], [qz 0; qz 9], [qz 0; qz 1], (qz (-9)), (repeat 0%Qc 4, repeat 0%Qc 4), (repeat 0%Qc 2, repeat 0%Qc 2). do 2 eexists.
  assert (U : forall a b, (a < b)%Qc -> goes_up [a; b]) by (intros a b H; apply goes_up_cons; split; auto; apply goes_up_cons; split; auto; intros [|i] j p q; discriminate).
  do 4 (split; [apply U; reflexivity|]). do 4 (split; [reflexivity|]). split; [intros x [<-|[<-|[]]]; reflexivity|]. split; [vm_compute; reflexivity|]. split; [reflexivity|]. split; [reflexivity|].
  intros v [<-|[<-|[]]]; intros E; discriminate E.
Qed.

(** scattered targets *)
Theorem linint2pts_values (isq : Qc -> Qc) xs ys fi icycx xo yo m xiw fixw :
  (forall d, (0 < d)%Qc -> (0 < isq d)%Qc) ->
  2 <= length xs -> 2 <= length ys -> goes_up xs -> goes_up ys -> length fi = length ys -> (forall row, In row fi -> length row = length xs) ->
  (icycx <> 0%Z -> length xiw = length xs + 2 /\ length fixw = length fi /\ forall w, In w fixw -> length w = length xs + 2) ->
  exists vs xs' fi', dlinint2pts isq xs ys fi icycx xo yo m xiw fixw = Some (Some vs) /\
    (if (icycx =? 0)%Z then xs' = xs /\ fi' = fi
     else (exists x1 x2 xn, nth_error xs 0 = Some x1 /\ nth_error xs 1 = Some x2 /\ nth_error xs (length xs - 1) = Some xn /\
             xs' = (x1 - (x2 - x1))%Qc :: xs ++ (xn + (x2 - x1))%Qc :: nil) /\
          fi' = map (fun row => nth (length row - 1) row 0%Qc :: row ++ nth 0 row 0%Qc :: nil) fi) /\
    Forall2 (fun p v => point_at isq xs' ys fi' m (fst p) (snd p) v) (combine xo yo) vs.
Proof. intros IP. apply linint2pts_ok. exact IP. Qed.
Theorem point_at_in_range (isq : Qc -> Qc) xs ys fi m x y v lo hi :
  (forall d, (0 < d)%Qc -> (0 < isq d)%Qc) ->
  (forall row f, In row fi -> In f row -> f <> m -> (lo <= f)%Qc /\ (f <= hi)%Qc) -> point_at isq xs ys fi m x y v -> v = m \/ ((lo <= v)%Qc /\ (v <= hi)%Qc).
Proof. intros IP. apply point_range. exact IP. Qed.
Theorem cell_determined xs t i j a b c d : goes_up xs -> in_cell xs t i a b -> in_cell xs t j c d -> i = j.
Proof. apply cell_unique. Qed.
(** bilinear inside, the present corners' mean next to a missing one, missing on
    the upper edge *)
Example linint2pts_demo : exists vs, dlinint2pts (fun _ => 1%Qc) [qz 0; qz 2; qz 4] [qz 0; qz 2; qz 4] [[qz 0; qz 2; qz 4]; [qz 2; qz 4; qz (-9)]; [qz 4; qz 6; qz 8]] 0
   [qz 1; qz 3; qz 4] [qz 1; qz 1; qz 0] (qz (-9)) [] [] = Some (Some vs) /\ map this vs = map this [qz 2; (qz 10 / qz 3)%Qc; qz (-9)] /\ forall d, (0 < d)%Qc -> (0 < 1)%Qc.
Proof. eexists. split; [vm_compute; reflexivity|]. split; [vm_compute; reflexivity|]. intros; reflexivity. Qed.

(** ** C57: the workspace allocated by linint2.pyf, nxi2 = len(xi), is overrun *)
Theorem linint1_pyf_overrun xi fi xo icycx iopt m w :
  length xi = length fi -> 2 <= length xi -> xo <> [] -> (goes_up xi /\ goes_up xo) \/ (goes_down xi /\ goes_down xo /\ 2 <= length xo) -> py_workspace xi w ->
  (icycx <> 0%Z /\ iopt = 0%Z) \/ (iopt = 1%Z /\ forall v, In v fi -> v <> m) -> dlinint1 xi fi xo icycx iopt m w = None.
Proof.
  intros L H2 NO G W C. assert (GG : exists f, f <> 0%Z /\ dmonoid2 xi xo = (f, 0%Z)).
  { destruct G as [G|G]; [exists 1%Z|exists (-1)%Z]; (split; [discriminate|]); apply monoid2_same; unfold goes; tauto. }
  destruct GG as [f [NF D]]. eapply linint1_over; eauto.
Qed.
Theorem linint2pts_pyf_overrun isq xs ys fi icycx xo yo m xiw fixw : 2 <= length xs -> 2 <= length ys -> goes_up xs -> goes_up ys -> icycx <> 0%Z -> length xiw = length xs ->
  dlinint2pts isq xs ys fi icycx xo yo m xiw fixw = None.
Proof. apply linint2pts_over. Qed.
Theorem linint1_workspace_refuted : exists xi fi xo icycx iopt m w, length xi = length fi /\ goes_up xi /\ goes_up xo /\ py_workspace xi w /\ (iopt = 0%Z \/ iopt = 1%Z) /\ dlinint1 xi fi xo icycx iopt m w = None.
Proof.
  exists [qz 0; qz 90; qz 180], [qz 1; qz 2; qz 3], [qz 10; qz 20; qz 30], 1%Z, 0%Z, (qz (-9)), (repeat 0%Qc 3, repeat 0%Qc 3).
  split; [reflexivity|]. split; [apply up3; reflexivity|]. split; [apply up3; reflexivity|]. split; [split; reflexivity|]. split; auto.
Qed.

Print Assumptions lin2int1_pointwise.
Print Assumptions linear_at_determined.
Print Assumptions linear_at_in_range.
Print Assumptions linint1_values.
Print Assumptions linint1_rejects.
Print Assumptions wrapped_uniform.
Print Assumptions linint1_stale_refuted.
Print Assumptions linint1_single_descending_refuted.
Print Assumptions linint2_values.
Print Assumptions grid_value_in_range.
Print Assumptions linint2_mixed_refuted.
Print Assumptions linint2_stale_column_refuted.
Print Assumptions linint2pts_values.
Print Assumptions point_at_in_range.
Print Assumptions cell_determined.
Print Assumptions linint1_pyf_overrun.
Print Assumptions linint2pts_pyf_overrun.
Print Assumptions linint1_workspace_refuted.
