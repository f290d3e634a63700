From Verif Require Import Base Buffer Loops VH_Model VH_Proofs LM_Model TG_Model RC_Model RC_Spec RC_Proofs.
Local Open Scope nat_scope.

Lemma near_within e a b : near e a b = true <-> within e a b.
Proof. unfold near, within. destruct (Qcleb_spec (b - e)%Qc a), (Qcleb_spec a (b + e)%Qc); cbn; split; try tauto; try discriminate. Qed.
Lemma repeat_map (A : Type) (v : A) n : repeat v n = map (fun _ => v) (seq 1 n).
Proof. generalize 1. induction n; intros k; cbn; auto. f_equal. auto. Qed.
Lemma rd_map_seq (A : Type) (g : nat -> A) n i : 1 <= i <= n -> rd (map g (seq 1 n)) i = Some (g i).
Proof. intros H. rewrite rd_map, rd_seq by auto. auto. Qed.
Lemma mapM_seq_map (A : Type) (f : nat -> option A) g n : (forall i, 1 <= i <= n -> f i = Some (g i)) -> mapM f (seq 1 n) = Some (map g (seq 1 n)).
Proof. intros H. apply mapM_Some_map. intros x X. apply in_seq in X. apply H. lia. Qed.
Lemma map_seq_ext (A : Type) (f g : nat -> A) n : (forall i, 1 <= i <= n -> f i = g i) -> map f (seq 1 n) = map g (seq 1 n).
Proof. intros H. apply map_ext_in. intros x X. apply in_seq in X. apply H. lia. Qed.
Lemma all_present_seq m g n : all_present m (map g (seq 1 n)) = true -> forall i, 1 <= i <= n -> g i <> m.
Proof.
  unfold all_present. rewrite forallb_forall. intros H i I E. specialize (H (g i)). rewrite E in H.
  destruct (Qceqb_spec m m); [|congruence]. cbn in H. assert (false = true); [|discriminate]. apply H. rewrite <- E. apply in_map_iff. exists i. split; auto. apply in_seq. lia.
Qed.

(** * the corner mean *)
Lemma qsum_cons a l : qsum (a :: l) = (a + qsum l)%Qc. Proof. reflexivity. Qed.
Lemma wsum_present m l : forall s, fold_left (wstep m) l s =
  (fst s + qsum (map (fun p => fst p * snd p) (present m l)), (fst (snd s) + qsum (map snd (present m l)), (snd (snd s) + length (present m l))%nat))%Qc.
Proof.
  induction l as [|[f w] l IH]; intros [sf [sw nw]]; cbn [fold_left].
  - cbn. f_equal; [ring|]. f_equal; [ring|lia].
  - rewrite IH. unfold wstep at 1, present at 4 5 6. cbn [fst snd filter]. destruct (Qceqb_spec f m); cbn [negb].
    + subst. fold (present m l). unfold wstep; cbn [fst snd]. destruct (Qceqb_spec m m); [|congruence]. reflexivity.
    + fold (present m l). unfold wstep; cbn [fst snd]. destruct (Qceqb_spec f m); [congruence|]. cbn [fst snd map]. rewrite !qsum_cons. cbn [fst snd length].
      f_equal; [ring|]. f_equal; [ring|lia].
Qed.
Lemma wsum_eq m l : wsum m l = (qsum (map (fun p => fst p * snd p) (present m l)), (qsum (map snd (present m l)), length (present m l)))%Qc.
Proof. unfold wsum. rewrite wsum_present. cbn [fst snd]. f_equal; [ring|]. f_equal; ring. Qed.
Lemma qsum_pos l : l <> [] -> (forall q, In q l -> (0 < q)%Qc) -> (0 < qsum l)%Qc.
Proof.
  induction l as [|a l IH]; intros N H; [congruence|]. rewrite qsum_cons. pose proof (H a (or_introl eq_refl)). destruct l as [|b l].
  - cbn. qclra.
  - assert ((0 < qsum (b :: l))%Qc) by (apply IH; [discriminate|]; intros q Q; apply H; right; auto). qclra.
Qed.
Lemma zero_corner_find m l : zero_corner m l = option_map fst (find (fun p => Qceqb (snd p) 0%Qc) (present m l)).
Proof.
  induction l as [|[f d] l IH]; cbn [zero_corner present filter find option_map]; auto. cbn [fst snd].
  destruct (Qceqb_spec f m) as [E|E]; cbn [negb].
  - rewrite andb_false_r. apply IH.
  - rewrite andb_true_r. cbn [find snd]. destruct (Qceqb d 0%Qc); auto.
Qed.
Lemma present_map m (g : Qc -> Qc) l : present m (map (fun p => (fst p, g (snd p))) l) = map (fun p => (fst p, g (snd p))) (present m l).
Proof.
  induction l as [|[f d] l IH]; [reflexivity|]. unfold present in *. cbn [map filter fst snd]. destruct (Qceqb f m); cbn [negb map fst snd]; rewrite IH; auto.
Qed.
Lemma idw_map huge l : find (fun p : Qc * Qc => Qceqb (snd p) 0%Qc) l = None -> map (fun p => (fst p, idw huge (snd p))) l = inverse_square l.
Proof.
  intros H. apply map_ext_in. intros [f d] I. apply (find_none _ _ H) in I. cbn [fst snd] in *. unfold idw. rewrite I.
  destruct (Qceqb_spec d 0%Qc) as [|D]; [discriminate|]. f_equal. field. auto.
Qed.
Lemma inverse_square_pos l : find (fun p : Qc * Qc => Qceqb (snd p) 0%Qc) l = None -> forall q, In q (map snd (inverse_square l)) -> (0 < q)%Qc.
Proof.
  intros H q I. unfold inverse_square in I. rewrite map_map in I. apply in_map_iff in I as ([f d] & E & I). apply (find_none _ _ H) in I. cbn [fst snd] in *. subst q.
  destruct (Qceqb_spec d 0%Qc) as [|D]; [discriminate|]. apply Qcinv_pos. destruct (Qclt_le_dec 0 d) as [C|C]. { qcnra. }
  assert ((d < 0)%Qc). { destruct (Qcle_lt_or_eq _ _ C); auto. congruence. } qcnra.
Qed.
Lemma curv_value_ok huge m ncrit l : corner_mean m ncrit l (curv_value huge m ncrit l m).
Proof.
  unfold curv_value, corner_mean. rewrite zero_corner_find. destruct (find _ (present m l)) as [p|] eqn:E; cbn [option_map].
  - left. eauto.
  - right. split; auto. rewrite wsum_eq. cbn [fst snd].
    rewrite (present_map m (idw huge)), (idw_map huge _ E).
    assert (L : length (inverse_square (present m l)) = length (present m l)) by apply map_length. rewrite L.
    destruct (Z.leb_spec ncrit (Z.of_nat (length (present m l)))) as [C|C]; cbn [andb].
    + destruct (present m l) as [|p r] eqn:P.
      * right. split; [left; auto|]. reflexivity.
      * left. cbn [length]. repeat split; try lia; auto. rewrite <- P in *.
        destruct (Qcltb_spec 0%Qc (qsum (map snd (inverse_square (present m l))))) as [D|D]; auto. exfalso. apply D.
        apply qsum_pos. { rewrite P. discriminate. } apply inverse_square_pos; auto.
    + right. split; auto.
Qed.

Section Point.
Variables (nxi nyi ngrd : nat) (xi yi : nat -> nat -> Qc) (fi : nat -> nat -> nat -> Qc).
Variables (dist : Qc -> Qc -> Qc -> Qc -> Qc) (huge xmsg : Qc).

Definition pe (e xo yo : Qc) (ix iy : nat) : bool := near e xo (xi ix iy) && near e yo (yi ix iy).
Definition pc (k : nat) (xo yo : Qc) (ix iy : nat) : bool :=
  Qcleb (xi ix iy) xo && Qcleb xo (xi (ix + k) iy) && (Qcleb (yi ix iy) yo && Qcleb yo (yi ix (iy + k))).
Lemma pc_in_cell k xo yo ix iy : pc k xo yo ix iy = true <-> in_cell xi yi k xo yo ix iy.
Proof.
  clear nxi nyi ngrd fi dist huge xmsg. unfold pc, in_cell. destruct (Qcleb_spec (xi ix iy) xo), (Qcleb_spec xo (xi (ix + k) iy)), (Qcleb_spec (yi ix iy) yo), (Qcleb_spec yo (yi ix (iy + k)));
    cbn; split; try tauto; try discriminate.
Qed.
Lemma pe_within e xo yo ix iy : pe e xo yo ix iy = true <-> (within e xo (xi ix iy) /\ within e yo (yi ix iy)).
Proof. clear nxi nyi ngrd fi dist huge xmsg. unfold pe. rewrite andb_true_iff, !near_within. tauto. Qed.

Lemma find_exact_window e xo yo lx hx ly hy : 1 <= lx -> hx <= nxi -> 1 <= ly -> hy <= nyi ->
  find_exact_curv_local nxi nyi xi yi e xo yo lx hx ly hy = Some (find2 (pe e xo yo) (rng lx hx) (rng ly hy)).
Proof.
  intros. apply first_in2_find. intros ix iy X Y. apply in_rng in X, Y. unfold exact_test. rewrite !at2_in by lia. reflexivity.
Qed.
Lemma find_cell_window k xo yo lx hx ly hy : 1 <= lx -> hx <= nxi - k -> 1 <= ly -> hy <= nyi - k ->
  find_curv_cell_local nxi nyi xi yi k xo yo lx hx ly hy = Some (find2 (pc k xo yo) (rng lx hx) (rng ly hy)).
Proof.
  intros. apply first_in2_find. intros ix iy X Y. apply in_rng in X, Y. unfold cell_test. rewrite !at2_in by lia. reflexivity.
Qed.
Lemma copy_ok ix iy : 1 <= ix <= nxi -> 1 <= iy <= nyi -> copy_node nxi nyi ngrd fi ix iy = Some (map (fi ix iy) (seq 1 ngrd)).
Proof. intros. apply mapM_seq_map. intros. apply at3_in; auto. Qed.
Lemma interp_ok k ncrit xo yo ix iy g : 1 <= ix -> ix + k <= nxi -> 1 <= iy -> iy + k <= nyi ->
  interpolate_curv_cell nxi nyi ngrd xi yi fi dist huge xmsg k ncrit xo yo ix iy (map g (seq 1 ngrd)) =
  Some (map (fun ng => if Qceqb (g ng) xmsg then curv_value huge xmsg ncrit (corners dist xi yi (fun a b => fi a b ng) k xo yo ix iy) xmsg else g ng) (seq 1 ngrd)).
Proof.
  intros. unfold interpolate_curv_cell, corner_dist. rewrite !at2_in by lia. cbn [bind].
  apply mapM_seq_map. intros ng Hng. rewrite rd_map_seq by auto. cbn [bind]. destruct (Qceqb_spec (g ng) xmsg) as [E|E]; cbn [negb]; auto.
  rewrite !at3_in by lia. cbn [bind]. rewrite E. reflexivity.
Qed.

Definition node_of (e : hit) (ng : nat) : Qc := match e with Some (ix, iy) => fi ix iy ng | None => xmsg end.
Definition res (ncrit : Z) (k : nat) (xo yo : Qc) (e c : hit) (ng : nat) : Qc :=
  if Qceqb (node_of e ng) xmsg
  then match c with Some (ix, iy) => curv_value huge xmsg ncrit (corners dist xi yi (fun a b => fi a b ng) k xo yo ix iy) xmsg | None => xmsg end
  else node_of e ng.
Lemma res_done ncrit k xo yo e c : all_present xmsg (map (node_of e) (seq 1 ngrd)) = true -> map (res ncrit k xo yo e c) (seq 1 ngrd) = map (node_of e) (seq 1 ngrd).
Proof.
  intros H. apply map_seq_ext. intros i I. unfold res. pose proof (all_present_seq _ _ _ H i I). destruct (Qceqb_spec (node_of e i) xmsg); congruence.
Qed.
Lemma res_none ncrit k xo yo e : map (res ncrit k xo yo e None) (seq 1 ngrd) = map (node_of e) (seq 1 ngrd).
Proof. apply map_seq_ext. intros i I. unfold res. destruct (Qceqb_spec (node_of e i) xmsg); congruence. Qed.

Definition e_full xo yo := find2 (pe eps_curv xo yo) (rng 1 nxi) (rng 1 nyi).
Definition c_full k xo yo := find2 (pc k xo yo) (rng 1 (nxi - k)) (rng 1 (nyi - k)).
Lemma rest_ok ncrit xo yo e c : 2 <= nxi -> 2 <= nyi ->
  (forall p, e = Some p -> 1 <= fst p <= nxi /\ 1 <= snd p <= nyi) ->
  (forall p, c = Some p -> 1 <= fst p <= nxi - 2 /\ 1 <= snd p <= nyi - 2) ->
  rcm2rgrid_rest nxi nyi ngrd xi yi fi dist huge xmsg ncrit xo yo e c (map (node_of e) (seq 1 ngrd)) =
  Some (map (res ncrit 2 xo yo (match c with Some _ => e | None => match e with Some _ => e | None => e_full xo yo end end)
                               (match c with Some _ => c | None => c_full 2 xo yo end)) (seq 1 ngrd)).
Proof.
  intros Hx Hy He Hc. unfold rcm2rgrid_rest. destruct c as [[cx cy]|].
  - specialize (Hc _ eq_refl). cbn [fst snd] in *. rewrite interp_ok by lia. f_equal.
  - assert (FIN : forall e', (let* c2 := find_curv_cell_full nxi nyi xi yi 2 xo yo in
              match c2 with None => Some (map (node_of e') (seq 1 ngrd))
              | Some p => interpolate_curv_cell nxi nyi ngrd xi yi fi dist huge xmsg 2 ncrit xo yo (fst p) (snd p) (map (node_of e') (seq 1 ngrd)) end)
            = Some (map (res ncrit 2 xo yo e' (c_full 2 xo yo)) (seq 1 ngrd))).
    { intros e'. unfold find_curv_cell_full. fold (find_curv_cell_local nxi nyi xi yi 2 xo yo 1 (nxi - 2) 1 (nyi - 2)).
      rewrite find_cell_window by lia. cbn [bind]. fold (c_full 2 xo yo). destruct (c_full 2 xo yo) as [[cx cy]|] eqn:E.
      - apply find2_some in E. cbn [fst snd] in *. rewrite interp_ok by lia. f_equal.
      - rewrite res_none. auto. }
    destruct e as [p|]; cbn [bind fst snd].
    + apply FIN.
    + unfold find_exact_curv_full. fold (find_exact_curv_local nxi nyi xi yi eps_curv xo yo 1 nxi 1 nyi).
      rewrite find_exact_window by lia. cbn [bind]. fold (e_full xo yo). destruct (e_full xo yo) as [[ex ey]|] eqn:E; cbn [bind fst snd].
      * apply find2_some in E. cbn [fst snd] in *. rewrite copy_ok by lia. cbn [bind fst snd].
        change (map (fi ex ey) (seq 1 ngrd)) with (map (node_of (Some (ex, ey))) (seq 1 ngrd)).
        destruct (all_present xmsg (map (node_of (Some (ex, ey))) (seq 1 ngrd))) eqn:AP; [|apply FIN].
        rewrite res_done by auto. auto.
      * apply (FIN None).
Qed.

(** one target: the result in terms of the two searches that were used *)
Definition e_loc xa ya xo yo := find2 (pe eps_curv xo yo) (rng (Nat.max 1 (xa - 2)) (Nat.min nxi (xa + 2 * 2))) (rng (Nat.max 1 (ya - 2)) (Nat.min nyi (ya + 2 * 2))).
Definition c_loc k xa ya xo yo := find2 (pc k xo yo) (rng (Nat.max 1 (xa - 1)) (Nat.min (nxi - k) (xa + 2))) (rng (Nat.max 1 (ya - 1)) (Nat.min (nyi - k) (ya + 2))).
Definition pick_c (c full : hit) : hit := match c with Some _ => c | None => full end.
Definition pick_e (e c full : hit) : hit := match c with Some _ => e | None => match e with Some _ => e | None => full end end.
Lemma point_ok fast ncrit xa ya xo yo : 2 <= nxi -> 2 <= nyi ->
  rcm2rgrid_point nxi nyi ngrd xi yi fi dist huge xmsg fast ncrit xa ya xo yo =
  Some (map (res ncrit 2 xo yo (pick_e (if fast then e_loc xa ya xo yo else None) (if fast then c_loc 2 xa ya xo yo else None) (e_full xo yo))
                               (pick_c (if fast then c_loc 2 xa ya xo yo else None) (c_full 2 xo yo))) (seq 1 ngrd)).
Proof.
  intros Hx Hy. unfold rcm2rgrid_point. rewrite repeat_map. destruct fast.
  - rewrite find_exact_window by lia. cbn [bind]. fold (e_loc xa ya xo yo).
    assert (HE : forall p, e_loc xa ya xo yo = Some p -> 1 <= fst p <= nxi /\ 1 <= snd p <= nyi) by (intros p P; apply find2_some in P; lia).
    assert (HC : forall p, c_loc 2 xa ya xo yo = Some p -> 1 <= fst p <= nxi - 2 /\ 1 <= snd p <= nyi - 2) by (intros p P; apply find2_some in P; lia).
    assert (X : match e_loc xa ya xo yo with Some p => copy_node nxi nyi ngrd fi (fst p) (snd p) | None => Some (map (fun _ => xmsg) (seq 1 ngrd)) end = Some (map (node_of (e_loc xa ya xo yo)) (seq 1 ngrd))).
    { destruct (e_loc xa ya xo yo) as [[ex ey]|]; auto. specialize (HE _ eq_refl). cbn [fst snd] in *. apply copy_ok; lia. }
    rewrite X. cbn [bind]. rewrite find_cell_window by lia. cbn [bind]. fold (c_loc 2 xa ya xo yo).
    destruct (found (e_loc xa ya xo yo) && all_present xmsg (map (node_of (e_loc xa ya xo yo)) (seq 1 ngrd))) eqn:D.
    + apply andb_prop in D as [D1 D2]. assert (P : pick_e (e_loc xa ya xo yo) (c_loc 2 xa ya xo yo) (e_full xo yo) = e_loc xa ya xo yo).
      { unfold pick_e. destruct (e_loc xa ya xo yo); [|discriminate]. destruct (c_loc 2 xa ya xo yo); auto. }
      rewrite P. rewrite res_done; auto.
    + apply rest_ok; auto.
  - cbn [bind found andb]. apply rest_ok; auto; intros; discriminate.
Qed.
End Point.
