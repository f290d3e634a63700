From Verif Require Import Base Buffer Loops VH_Model VH_Spec VH_Proofs LM_Proofs IS_Proofs LI_Model LI_Spec LI_Proofs LI_Proofs2.
Local Open Scope nat_scope.

Lemma dist_dir f xs i j a b : goes f xs -> i < j -> nth_error xs i = Some a -> nth_error xs j = Some b -> (qz f * qcdist b a)%Qc = (b - a)%Qc.
Proof.
  intros G H A B. unfold qcdist. destruct G as [[-> G]|[-> G]]; pose proof (G i j a b H A B) as O; destruct (Qcleb_spec a b) as [C|C].
  - rewrite qz_1. ring. - exfalso. apply C. apply Qclt_le_weak. auto. - exfalso. apply (Qclt_not_le _ _ O). auto.
  - replace (qz (-1)) with (0 - 1)%Qc by (apply Qc_is_canon; vm_compute; reflexivity). ring.
Qed.
Lemma combine_fst (xs fs : list Qc) : length xs = length fs -> map fst (combine xs fs) = xs.
Proof. revert fs. induction xs as [|x xs IH]; intros [|f fs] L; try discriminate; auto. simpl. f_equal. apply IH. injection L; auto. Qed.
Lemma combine_snd (xs fs : list Qc) : length xs = length fs -> map snd (combine xs fs) = fs.
Proof. revert fs. induction xs as [|x xs IH]; intros [|f fs] L; try discriminate; auto. simpl. f_equal. apply IH. injection L; auto. Qed.
Lemma nth_map (A B : Type) (f : A -> B) l i v : nth_error l i = Some v -> nth_error (map f l) i = Some (f v). Proof. apply map_nth_error. Qed.
Lemma wrx_head (h v : Qc) l : wrx (h :: l) 1 v = Some (v :: l). Proof. reflexivity. Qed.
Definition wrap_step (drop : bool) m (fs : list Qc) : nat := if drop then leading m fs + leading m (rev fs) + 1 else 1.
Lemma dlincyc_ok f drop m xs fs st la h t r h' t' r' p q :
  let L := points drop m xs fs in
  goes f xs -> 2 <= length xs -> length xs = length fs -> nth_error L 0 = Some p -> nth_error L (length L - 1) = Some q ->
  (if drop then st = 1 + leading m fs /\ la + leading m (rev fs) = length xs else st = 1 /\ la = length xs) ->
  exists W, wrapped xs (wrap_step drop m fs) L W /\ length W = length L + 2 /\
    dlincyc xs fs st la f (h :: map fst L ++ t :: r, h' :: map snd L ++ t' :: r') (length L) = Some (map fst W ++ r, map snd W ++ r').
Proof.
  intros L G H2 LE P Q ST. unfold dlincyc.
  destruct (rd_Some xs (i := 1)) as [x1 X1]; [lia|]. destruct (rd_Some xs (i := 2)) as [x2 X2]; [lia|].
  destruct (rd_Some xs (i := length xs)) as [xn Xn]; [lia|]. destruct (rd_Some xs (i := length xs - 1)) as [xm Xm]; [lia|].
  rewrite X1, X2, Xn, Xm. cbn [bind]. rewrite rd_nth in X1, X2, Xn, Xm by lia. cbn [Nat.sub] in X1, X2. replace (length xs - 1 - 1) with (length xs - 2) in Xm by lia.
  set (W := ((fst p - qz (Z.of_nat (wrap_step drop m fs)) * (x2 - x1))%Qc, snd q) :: L ++ ((fst q + qz (Z.of_nat (wrap_step drop m fs)) * (xn - xm))%Qc, snd p) :: nil).
  exists W. split. { exists p, q, x1, x2, xm, xn. repeat (split; auto). } split. { subst W. simpl. rewrite app_length. simpl. lia. }
  pose proof (dist_dir f xs 0 1 x1 x2 G ltac:(lia) X1 X2) as D1. pose proof (dist_dir f xs (length xs - 2) (length xs - 1) xm xn G ltac:(lia) Xm Xn) as D2.
  assert (LP : 0 < length L) by (apply nth_error_Some; congruence).
  assert (MW : map fst W ++ r = (fst p - qz (Z.of_nat (wrap_step drop m fs)) * (x2 - x1))%Qc :: map fst L ++ (fst q + qz (Z.of_nat (wrap_step drop m fs)) * (xn - xm))%Qc :: r).
  { subst W. simpl. rewrite map_app, <- app_assoc. auto. }
  assert (MW' : map snd W ++ r' = snd q :: map snd L ++ snd p :: r'). { subst W. simpl. rewrite map_app, <- app_assoc. auto. }
  rewrite MW, MW'. clear MW MW'. clearbody W.
  destruct ((st =? 1) && (la =? length xs)) eqn:C.
  - apply andb_true_iff in C. destruct C as [C1 C2]. apply Nat.eqb_eq in C1, C2.
    assert (K : nth_error (combine xs fs) 0 = Some p /\ nth_error (combine xs fs) (length xs - 1) = Some q /\ wrap_step drop m fs = 1).
    { unfold wrap_step. destruct drop.
      - destruct ST as [S1 S2]. assert (E1 : leading m fs = 0) by lia. assert (E2 : leading m (rev fs) = 0) by lia. split; [apply (points_ends m); auto|]. split; [apply (points_last m); auto|]. lia.
      - unfold L, points in P, Q. rewrite combine_length, <- LE, Nat.min_id in Q. auto. }
    destruct K as [K1 [K2 ->]]. change (Z.of_nat 1) with 1%Z. rewrite qz_1.
    pose proof (nth_map _ _ fst _ _ _ K1) as A1. pose proof (nth_map _ _ snd _ _ _ K1) as A2. pose proof (nth_map _ _ fst _ _ _ K2) as A3. pose proof (nth_map _ _ snd _ _ _ K2) as A4.
    rewrite combine_fst in A1, A3 by auto. rewrite combine_snd in A2, A4 by auto.
    rewrite wrx_head. cbn [bind app]. rewrite rd_nth by lia. rewrite A4. cbn [bind]. rewrite wrx_head. cbn [bind app].
    rewrite app_comm_cons, wrx_at by (simpl; rewrite map_length; lia). cbn [bind]. rewrite rd_nth by lia. cbn [Nat.sub]. rewrite A2. cbn [bind].
    rewrite app_comm_cons, wrx_at by (simpl; rewrite map_length; lia). cbn [bind app]. rewrite D1, D2. assert (fst p = x1) as -> by congruence. assert (fst q = xn) as -> by congruence. rewrite !Qcmult_1_l. auto.
  - assert (DR : drop = true) by (destruct drop; auto; destruct ST as [-> ->]; rewrite !Nat.eqb_refl in C; discriminate).
    assert (WS : (Z.of_nat st + (Z.of_nat (length xs) - Z.of_nat la))%Z = Z.of_nat (wrap_step drop m fs)). { rewrite DR in ST |- *. unfold wrap_step. lia. }
    rewrite WS. set (s := qz (Z.of_nat (wrap_step drop m fs))).
    destruct L as [|p0 L'] eqn:EL; [discriminate|]. cbn [nth_error] in P. injection P as ->.
    assert (QL : forall (g : Qc * Qc -> Qc) a u r, rd (a :: g p :: map g L' ++ u :: r) (length (p :: L') + 1) = Some (g q)).
    { intros g a u r0. change (a :: g p :: map g L' ++ u :: r0) with ((a :: map g (p :: L')) ++ u :: r0). rewrite rd_app1 by (simpl; rewrite map_length; lia). rewrite Nat.add_1_r. change (rd (a :: map g (p :: L')) (Datatypes.S (length (p :: L')))) with (nth_error (a :: map g (p :: L')) (length (p :: L'))).
      apply (nth_map _ _ g) in Q. cbn [length Nat.sub] in Q |- *. rewrite Nat.sub_0_r in Q. auto. }
    assert (WL : forall (g : Qc * Qc -> Qc) a u r v, wrx (a :: g p :: map g L' ++ u :: r) (length (p :: L') + 2) v = Some (a :: g p :: map g L' ++ v :: r)).
    { intros g a u r0 v. change (a :: g p :: map g L' ++ u :: r0) with ((a :: map g (p :: L')) ++ u :: r0). rewrite wrx_at by (simpl; rewrite map_length; lia). auto. }
    cbn [rd nth_error map app bind]. rewrite wrx_head. cbn [bind]. rewrite QL. cbn [bind]. rewrite wrx_head. cbn [bind]. rewrite QL. cbn [bind].
    rewrite WL. cbn [bind rd nth_error]. rewrite WL. cbn [bind]. replace (qz f * (s * qcdist x2 x1))%Qc with (s * (qz f * qcdist x2 x1))%Qc by ring. replace (qz f * (s * qcdist xn xm))%Qc with (s * (qz f * qcdist xn xm))%Qc by ring. rewrite D1, D2. auto.
Qed.

(** ** A row *)
Definition pointwise (W : list (Qc * Qc)) m xo (vs : list Qc) : Prop :=
  length vs = length xo /\ forall j t, nth_error xo j = Some t -> exists v, nth_error vs j = Some v /\ linear_at (map fst W) (map snd W) m t v.
Definition cyc (icycx : Z) : bool := negb (icycx =? 0)%Z.
Lemma source_exists xs fs m cy drop : 2 <= length xs -> points drop m xs fs <> [] -> exists W, source cy drop m xs fs W.
Proof.
  intros H2 N. unfold source. destruct cy; [|eauto]. unfold wrapped. set (L := points drop m xs fs) in *.
  assert (0 < length L) by (destruct L; [congruence|simpl; lia]).
  destruct (nth_error L 0) as [p|] eqn:P; [|apply nth_error_None in P; lia]. destruct (nth_error L (length L - 1)) as [q|] eqn:Q; [|apply nth_error_None in Q; lia].
  destruct (nth_error xs 0) as [a|] eqn:A; [|apply nth_error_None in A; lia]. destruct (nth_error xs 1) as [b|] eqn:B; [|apply nth_error_None in B; lia].
  destruct (nth_error xs (length xs - 2)) as [c|] eqn:C; [|apply nth_error_None in C; lia]. destruct (nth_error xs (length xs - 1)) as [d|] eqn:D; [|apply nth_error_None in D; lia].
  eexists. exists p, q, a, b, c, d. repeat (split; auto).
Qed.
Lemma wrapped_unique xs s L W W' : wrapped xs s L W -> wrapped xs s L W' -> W = W'.
Proof.
  intros [p [q [a [b [c [d [H1 [H2 [H3 [H4 [H5 [H6 ->]]]]]]]]]]]] [p' [q' [a' [b' [c' [d' [K1 [K2 [K3 [K4 [K5 [K6 ->]]]]]]]]]]]].
  rewrite H1 in K1. rewrite H2 in K2. rewrite H3 in K3. rewrite H4 in K4. rewrite H5 in K5. rewrite H6 in K6. congruence.
Qed.
Lemma points_len drop m xs fs : length (points drop m xs fs) <= length xs.
Proof.
  unfold points. destruct drop; [|rewrite combine_length; lia]. transitivity (length (combine xs fs)); [|rewrite combine_length; lia].
  induction (combine xs fs) as [|a l IH]; simpl; auto. destruct (negb _); simpl; lia.
Qed.
Lemma split1 (l : list Qc) : 1 <= length l -> exists h r, l = h :: r. Proof. destruct l; simpl; [lia|eauto]. Qed.
Lemma one_row_ok early xs fs xo icycx iopt m f xw fw W :
  length xs = length fs -> 2 <= length xs -> goes f xs -> goes f xo -> iopt = 0%Z \/ iopt = 1%Z ->
  source (cyc icycx) (iopt =? 1)%Z m xs fs W -> 2 <= length W -> length xs + 2 <= length xw -> length xs + 2 <= length fw ->
  exists vs xw' fw', one_row early xs fs xo icycx iopt m f (xw, fw) = Some (Some vs, (xw', fw')) /\ length xw' = length xw /\ length fw' = length fw /\ pointwise W m xo vs.
Proof.
  intros L H2 G GO IO SR LW LX LF. pose proof (source_goes f _ _ m xs fs W H2 G SR) as GW. unfold one_row, source, cyc in *.
  assert (LIN : forall xt ft, exists vs, dlin2int1 (length W) (map fst W ++ xt) (map snd W ++ ft) xo m f = Some vs /\ pointwise W m xo vs).
  { intros xt ft. rewrite <- (map_length fst W). apply lin2int1_ok; auto; rewrite ?map_length; auto. }
  destruct (icycx =? 0)%Z; cbn [negb] in SR.
  - subst W. destruct IO as [-> | ->].
    + change (0 =? 0)%Z with true in *. change (0 =? 1)%Z with false in *. cbv iota in *. unfold points in LIN. rewrite combine_fst, combine_snd, combine_length, <- L, Nat.min_id in LIN by auto. destruct (LIN [] []) as [vs [E P]]. rewrite !app_nil_r in E.
      rewrite E. cbn [bind]. exists vs, xw, fw. auto.
    + change (1 =? 0)%Z with false in *. change (1 =? 1)%Z with true in *. cbv iota in *. destruct (split1 xw) as [h [xr ->]]; [lia|]. destruct (split1 fw) as [h' [fr ->]]; [lia|]. simpl in LX, LF.
      destruct (pack_ok m xs fs 1 0 0 0 [h] xr [h'] fr) as [st [la [b' [d' [E [B1 [B2 _]]]]]]]; auto; try lia. cbn [app Nat.add] in E. rewrite E. cbn [bind fst snd skipn].
      destruct (LIN b' d') as [vs [E2 P]]. rewrite E2. cbn [bind]. eexists vs, _, _. split; [reflexivity|]. pose proof (points_len true m xs fs) as PL.
      cbn [length]. rewrite !app_length, !map_length, B1, B2. split; [lia|]. split; [lia|]. auto.
  - assert (NE : exists p q, nth_error (points (iopt =? 1)%Z m xs fs) 0 = Some p /\ nth_error (points (iopt =? 1)%Z m xs fs) (length (points (iopt =? 1)%Z m xs fs) - 1) = Some q).
    { destruct SR as [p [q [x1 [x2 [xm [xn [P [Q _]]]]]]]]. eauto. }
    destruct NE as [p [q [P Q]]]. destruct IO as [-> | ->].
    + change (0 =? 0)%Z with true in *. change (0 =? 1)%Z with false in *. cbv iota in *. rewrite copy_row_whole by lia. cbn [bind].
      destruct (split1 xw) as [h [xr ->]]; [lia|]. destruct (split1 fw) as [h' [fr ->]]; [lia|]. simpl in LX, LF. cbn [firstn app].
      replace (length xs + 1) with (S (length xs)) by lia. cbn [skipn].
      destruct (split1 (skipn (length xs) xr)) as [t [r ER]]; [rewrite skipn_length; lia|]. destruct (split1 (skipn (length xs) fr)) as [t' [r' ER']]; [rewrite skipn_length; lia|]. rewrite ER, ER'.
      apply (f_equal (@length Qc)) in ER, ER'. rewrite skipn_length in ER, ER'. simpl in ER, ER'.
      destruct (dlincyc_ok f false m xs fs 1 (length xs) h t r h' t' r' p q) as [W' [HW [LW' E]]]; auto. unfold points in E. rewrite combine_fst, combine_snd, combine_length, <- L, Nat.min_id in E by auto. rewrite E. cbn [bind fst snd].
      rewrite <- (wrapped_unique _ _ _ _ _ SR HW) in *. unfold points in LW'. rewrite combine_length, <- L, Nat.min_id in LW'. rewrite <- LW'. destruct (LIN r r') as [vs [E2 PW]]. rewrite E2. cbn [bind].
      eexists vs, _, _. split; [reflexivity|]. rewrite !app_length, !map_length, LW'. simpl. split; [lia|]. split; [lia|]. auto.
    + change (1 =? 0)%Z with false in *. change (1 =? 1)%Z with true in *. cbv iota in *. destruct (split1 xw) as [h [xr ->]]; [lia|]. destruct (split1 fw) as [h' [fr ->]]; [lia|]. simpl in LX, LF.
      destruct (pack_ok m xs fs 1 0 0 0 [h] xr [h'] fr) as [st [la [b' [d' [E [B1 [B2 B3]]]]]]]; auto; try lia. cbn [app Nat.add] in E. rewrite E. cbn [bind].
      destruct B3 as [K1 [K2 _]]. { intros N. rewrite N in P. discriminate. }
      pose proof (points_len true m xs fs) as PL. assert (NP : length (points true m xs fs) <> 0) by (destruct (points true m xs fs); [discriminate|simpl; lia]).
      destruct (Nat.eqb_spec (length (points true m xs fs)) 0); [contradiction|]. rewrite andb_false_r.
      destruct (split1 b') as [t [r ->]]; [lia|]. destruct (split1 d') as [t' [r' ->]]; [lia|]. simpl in B1, B2.
      destruct (dlincyc_ok f true m xs fs st la h t r h' t' r' p q) as [W' [HW [LW' E']]]; auto. { rewrite K2 by auto. split; auto. lia. }
      rewrite E'. cbn [bind fst snd]. rewrite <- (wrapped_unique _ _ _ _ _ SR HW) in *. rewrite <- LW'. destruct (LIN r r') as [vs [E2 PW]]. rewrite E2. cbn [bind].
      eexists vs, _, _. split; [reflexivity|]. rewrite !app_length, !map_length, LW'. simpl. split; [lia|]. split; [lia|]. auto.
Qed.

Lemma linint1_ok xs fs xo icycx iopt m xw fw W f :
  length xs = length fs -> 2 <= length xs -> xo <> [] -> dmonoid2 xs xo = (f, 0%Z) -> f <> 0%Z -> iopt = 0%Z \/ iopt = 1%Z ->
  source (cyc icycx) (iopt =? 1)%Z m xs fs W -> 2 <= length W -> length xs + 2 <= length xw -> length xs + 2 <= length fw ->
  exists vs, dlinint1 xs fs xo icycx iopt m (xw, fw) = Some (vs, true) /\ pointwise W m xo vs.
Proof.
  intros L H2 NO D NF IO SR LW LX LF. destruct (monoid2_ok _ _ _ _ D NF eq_refl) as [G GO]. unfold dlinint1.
  destruct xo as [|t xo']; [congruence|]. cbn [length]. destruct (Nat.ltb_spec (S (length xo')) 1); [lia|]. destruct (Nat.leb_spec (length xs) 1); [lia|]. rewrite D.
  destruct (Z.eqb_spec f 0); [contradiction|]. cbn [orb negb Z.eqb].
  destruct (one_row_ok true xs fs (t :: xo') icycx iopt m f xw fw W) as [vs [xw' [fw' [E [_ [_ P]]]]]]; auto. rewrite E. cbn [bind fst]. eauto.
Qed.
Lemma monoid2_same f xs xo : 2 <= length xs -> 2 <= length xo \/ f = 1%Z -> goes f xs -> goes f xo -> dmonoid2 xs xo = (f, 0%Z).
Proof.
  intros H2 HO G GO. unfold dmonoid2. destruct G as [[-> G]|[-> G]], GO as [[E GO]|[E GO]]; try discriminate.
  - rewrite (monoid1_up xs), (monoid1_up xo) by auto. reflexivity. - destruct HO; [|discriminate]. rewrite (monoid1_down xs), (monoid1_down xo) by auto. reflexivity.
Qed.
Lemma monoid2_bad xs xo : 2 <= length xs -> ~ (goes_up xs /\ goes_up xo) -> ~ (goes_down xs /\ goes_down xo) -> fst (dmonoid2 xs xo) = 0%Z \/ snd (dmonoid2 xs xo) <> 0%Z.
Proof.
  intros H2 U D. destruct (dmonoid2 xs xo) as [f e] eqn:E. simpl. destruct (Z.eq_dec f 0); auto. destruct (Z.eq_dec e 0) as [->|]; auto.
  destruct (monoid2_ok _ _ _ _ E n eq_refl) as [[[-> G1]|[-> G1]] [[F G2]|[F G2]]]; try discriminate; tauto.
Qed.
Lemma linint1_bad xs fs xo icycx iopt m w : xo = [] \/ length xs <= 1 \/ (~ (goes_up xs /\ goes_up xo) /\ ~ (goes_down xs /\ goes_down xo)) ->
  dlinint1 xs fs xo icycx iopt m w = Some (map (fun _ => m) xo, false).
Proof.
  intros H. unfold dlinint1. destruct (Nat.ltb_spec (length xo) 1); auto. destruct (Nat.leb_spec (length xs) 1); auto.
  destruct H as [->|[H|[U D]]]; [simpl in *; lia|lia|]. destruct (monoid2_bad xs xo) as [B|B]; auto; try lia; destruct (dmonoid2 xs xo) as [f e]; simpl in B.
  - subst f. reflexivity. - destruct (Z.eqb_spec e 0); [contradiction|]. rewrite orb_true_r. reflexivity.
Qed.
