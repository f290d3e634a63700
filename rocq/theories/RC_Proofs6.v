From Verif Require Import Base Buffer Loops VH_Model VH_Proofs LM_Model TG_Model RC_Model RC_Spec RC_Proofs RC_Proofs2 RC_Proofs3 RC_Proofs4 RC_Proofs5.
Local Open Scope nat_scope.

Lemma fold_qcmin r : forall a, (fold_left qcmin r a <= a)%Qc /\ forall v, In v r -> (fold_left qcmin r a <= v)%Qc.
Proof.
  assert (M : forall a b, (qcmin a b <= a)%Qc /\ (qcmin a b <= b)%Qc). { intros a b. unfold qcmin. match goal with |- context [if ?t then _ else _] => destruct t eqn:T end; revert T; try (destruct (Qcltb_spec a b)); try (destruct (Qcleb_spec a b)); try (destruct (Qcltb_spec b a)); try (destruct (Qcleb_spec b a)); intros; try discriminate; split; qclra. }
  induction r as [|b r IH]; intros a; cbn [fold_left]. { split; [qclra|intros v []]. }
  destruct (IH (qcmin a b)) as [I1 I2]. destruct (M a b) as [M1 M2]. split. { qclra. } intros v [<-|I]; [qclra|auto].
Qed.
Lemma fold_qcmax r : forall a, (a <= fold_left qcmax r a)%Qc /\ forall v, In v r -> (v <= fold_left qcmax r a)%Qc.
Proof.
  assert (M : forall a b, (a <= qcmax a b)%Qc /\ (b <= qcmax a b)%Qc). { intros a b. unfold qcmax. match goal with |- context [if ?t then _ else _] => destruct t eqn:T end; revert T; try (destruct (Qcltb_spec a b)); try (destruct (Qcleb_spec a b)); try (destruct (Qcltb_spec b a)); try (destruct (Qcleb_spec b a)); intros; try discriminate; split; qclra. }
  induction r as [|b r IH]; intros a; cbn [fold_left]. { split; [qclra|intros v []]. }
  destruct (IH (qcmax a b)) as [I1 I2]. destruct (M a b) as [M1 M2]. split. { qclra. } intros v [<-|I]; [qclra|auto].
Qed.
Lemma bounds_ok l : l <> [] -> exists b, bounds_of l = Some b /\ forall v, In v l -> (fst b <= v /\ v <= snd b)%Qc.
Proof.
  destruct l as [|a r]; [congruence|]. intros _. unfold bounds_of, minval, maxval. cbn [bind]. eexists. split; [reflexivity|]. cbn [fst snd].
  destruct (fold_qcmin r a) as [A1 A2], (fold_qcmax r a) as [B1 B2]. intros v [<-|I]; auto.
Qed.
Lemma inside_true b v : inside b v = true <-> (fst b <= v /\ v <= snd b)%Qc.
Proof. unfold inside. destruct (Qcleb_spec (fst b) v), (Qcleb_spec v (snd b)); cbn; split; try tauto; try discriminate. Qed.
Lemma length_concat_le (A : Type) (f : nat -> list A) n l : (forall i, In i l -> length (f i) <= n) -> length (concat (map f l)) <= n * length l.
Proof.
  induction l as [|a l IH]; intros H; cbn; [lia|]. rewrite app_length. pose proof (H a (or_introl eq_refl)). specialize (IH (fun i I => H i (or_intror I))). lia.
Qed.
Definition dflt (w : option Qc) : Qc := match w with Some q => q | None => 0%Qc end.
Definition dflts (l : list (Qc * option Qc)) : list (Qc * Qc) := map (fun p => (fst p, dflt (snd p))) l.
Lemma wsum_inf_none m l : fold_left (wstep_inf m) l None = None.
Proof. induction l as [|[f w] l IH]; cbn [fold_left]; auto. unfold wstep_inf at 2. cbn [fst snd]. destruct (Qceqb f m); apply IH. Qed.
Lemma wsum_inf_some m l : (forall p, In p l -> fst p <> m -> snd p <> None) -> forall s, fold_left (wstep_inf m) l (Some s) = Some (fold_left (wstep m) (dflts l) s).
Proof.
  induction l as [|[f w] l IH]; intros H s; cbn [fold_left dflts map]; auto. fold (dflts l). unfold wstep_inf at 2, wstep at 2. cbn [fst snd].
  destruct (Qceqb_spec f m) as [E|E]. { apply IH. intros p I. apply H. right; auto. }
  pose proof (H _ (or_introl eq_refl) E) as W. cbn in W. destruct w as [w|]; [|congruence]. cbn [dflt]. apply IH. intros p I. apply H. right; auto.
Qed.
Lemma wsum_inf_inf m l : (exists f, In (f, None) l /\ f <> m) -> forall s, fold_left (wstep_inf m) l s = None.
Proof.
  induction l as [|[f w] l IH]; intros (g & I & N) s; [destruct I|]. cbn [fold_left]. destruct I as [I|I].
  - inversion I; subst. unfold wstep_inf at 2. cbn [fst snd]. destruct (Qceqb_spec g m); [tauto|]. destruct s; apply wsum_inf_none.
  - apply IH. eauto.
Qed.
Lemma count_present m l : length (filter (fun fw : Qc * option Qc => negb (Qceqb (fst fw) m)) l) = length (present m (dflts l)).
Proof. induction l as [|[f w] l IH]; auto. unfold present in *. cbn [dflts map filter fst]. fold (dflts l). destruct (Qceqb f m); cbn [negb length]; auto. Qed.
Lemma points_value_ok m ncrit l : (forall p, In p l -> fst p <> m -> snd p <> None) -> exists v, points_value m ncrit l (Some m) = Some v /\ enough_mean m ncrit (dflts l) v.
Proof.
  intros H. unfold points_value, wsum_inf, enough_mean. rewrite wsum_inf_some by auto. fold (wsum m (dflts l)). rewrite wsum_eq, count_present. cbn [fst snd].
  destruct (Z.leb_spec ncrit (Z.of_nat (length (present m (dflts l))))) as [C|C]; cbn [andb].
  - destruct (Qcltb_spec 0%Qc (qsum (map snd (present m (dflts l))))) as [D|D]; eexists; (split; [reflexivity|]); auto.
  - eexists. split; [reflexivity|]. auto.
Qed.

Section Points.
Variables (nxi nyi ngrd : nat) (xi yi : nat -> nat -> Qc) (fi : nat -> nat -> nat -> Qc).
Variables (dist : Qc -> Qc -> Qc -> Qc -> Qc) (xmsg : Qc).
Definition rows_bound (rl : list (Qc * Qc)) : Prop :=
  length rl = nyi /\ forall iy b, rd rl iy = Some b -> forall ix, 1 <= ix <= nxi -> (fst b <= yi ix iy /\ yi ix iy <= snd b)%Qc.
Definition cols_bound (cl : list (Qc * Qc)) : Prop :=
  length cl = nxi /\ forall ix b, rd cl ix = Some b -> forall iy, 1 <= iy <= nyi -> (fst b <= xi ix iy /\ xi ix iy <= snd b)%Qc.
Lemma row_lats_ok : 1 <= nxi -> exists rl, row_lats nxi nyi yi = Some rl /\ rows_bound rl.
Proof.
  intros HX. unfold row_lats, rows_bound.
  destruct (mapM_seq_total _ (fun iy => let* r := row_of nxi nyi yi iy in bounds_of r) nyi
     (fun iy b => forall ix, 1 <= ix <= nxi -> (fst b <= yi ix iy /\ yi ix iy <= snd b)%Qc)) as (rl & E & L & R).
  { intros iy I. unfold row_of. rewrite (mapM_seq_map _ _ (fun ix => yi ix iy)) by (intros; apply at2_in; auto). cbn [bind].
    destruct (bounds_ok (map (fun ix => yi ix iy) (seq 1 nxi))) as (b & B & H). { destruct nxi; [lia|discriminate]. }
    exists b. split; auto. intros ix J. apply H. apply in_map_iff. exists ix. split; auto. apply in_seq. lia. }
  exists rl. auto.
Qed.
Lemma col_lons_ok : 1 <= nyi -> exists cl, col_lons nxi nyi xi = Some cl /\ cols_bound cl.
Proof.
  intros HX. unfold col_lons, cols_bound.
  destruct (mapM_seq_total _ (fun ix => let* r := col_of nxi nyi xi ix in bounds_of r) nxi
     (fun ix b => forall iy, 1 <= iy <= nyi -> (fst b <= xi ix iy /\ xi ix iy <= snd b)%Qc)) as (rl & E & L & R).
  { intros ix I. unfold col_of. rewrite (mapM_seq_map _ _ (fun iy => xi ix iy)) by (intros; apply at2_in; auto). cbn [bind].
    destruct (bounds_ok (map (fun iy => xi ix iy) (seq 1 nyi))) as (b & B & H). { destruct nyi; [lia|discriminate]. }
    exists b. split; auto. intros iy J. apply H. apply in_map_iff. exists iy. split; auto. apply in_seq. lia. }
  exists rl. auto.
Qed.
Definition same (xo yo : Qc) (ix iy : nat) : bool := Qceqb xo (xi ix iy) && Qceqb yo (yi ix iy).
Lemma exact_points_ok rl cl xo yo : rows_bound rl -> cols_bound cl ->
  first_in2 (points_exact_test nxi nyi xi yi rl cl xo yo) (rng 1 nxi) (rng 1 nyi) = Some (find2 (same xo yo) (rng 1 nxi) (rng 1 nyi)).
Proof.
  intros (LR & RB) (LC & CB). apply first_in2_find. intros ix iy X Y. apply in_rng in X, Y. unfold points_exact_test, same.
  destruct (rd_Some rl (i := iy)) as [rb Er]; [lia|]. destruct (rd_Some cl (i := ix)) as [cb Ec]; [lia|]. rewrite Er. cbn [bind].
  pose proof (RB _ _ Er ix X) as B1. pose proof (CB _ _ Ec iy Y) as B2.
  destruct (Qceqb_spec xo (xi ix iy)) as [EX|EX], (Qceqb_spec yo (yi ix iy)) as [EY|EY]; cbn [andb];
  try (rewrite (proj2 (inside_true rb yo)) by (rewrite EY; auto)); try (rewrite Ec; cbn [bind]); try (rewrite (proj2 (inside_true cb xo)) by (rewrite EX; auto));
  repeat match goal with |- context [inside ?a ?b] => destruct (inside a b) end; try rewrite Ec; cbn [bind]; 
  repeat match goal with |- context [inside ?a ?b] => destruct (inside a b) end; rewrite ?at2_in by auto; cbn [bind];
  repeat match goal with |- context [Qceqb ?a ?b] => destruct (Qceqb_spec a b) end; cbn; congruence.
Qed.
Definition pe0 (xo yo : Qc) := find2 (same xo yo) (rng 1 nxi) (rng 1 nyi).

(** weights of a cell *)
Definition pw (opt : Z) (k : nat) (xo yo : Qc) (ix iy : nat) : option (list (option Qc)) :=
  if (Z.abs opt =? 2)%Z then
    if Qceqb (xi (ix + k) iy - xi ix iy)%Qc 0%Qc || Qceqb (yi ix (iy + k) - yi ix iy)%Qc 0%Qc then None
    else
      let wx := ((xo - xi ix iy) / (xi (ix + k)%nat iy - xi ix iy))%Qc in
      let wy := ((yo - yi ix iy) / (yi ix (iy + k)%nat - yi ix iy))%Qc in
      Some [Some ((1 - wx) * (1 - wy))%Qc; Some (wx * (1 - wy))%Qc; Some ((1 - wx) * wy)%Qc; Some (wx * wy)%Qc]
  else
    let d a b := dist yo xo (yi a b) (xi a b) in
    Some [inv_square (d ix iy); inv_square (d (ix + k) iy); inv_square (d ix (iy + k)); inv_square (d (ix + k) (iy + k))].
Lemma points_weights_ok opt k xo yo ix iy : 1 <= ix <= nxi - k -> 1 <= iy <= nyi - k -> points_weights nxi nyi xi yi dist opt k xo yo ix iy = Some (pw opt k xo yo ix iy).
Proof.
  intros H1 H2. unfold points_weights, pw, corner_dist. destruct (_ =? _)%Z; rewrite !at2_in by lia; cbn [bind]; auto. destruct (_ || _); auto.
Qed.
Definition cellval (opt ncrit : Z) (k : nat) (xo yo : Qc) (c : hit) (ng : nat) : cell :=
  match c with
  | None => Some xmsg
  | Some (ix, iy) => match pw opt k xo yo ix iy with
                     | None => Some xmsg
                     | Some w => points_value xmsg ncrit (combine [fi ix iy ng; fi (ix + k) iy ng; fi ix (iy + k) ng; fi (ix + k) (iy + k) ng] w) (Some xmsg)
                     end
  end.
Definition first_val (opt ncrit : Z) (k : nat) (xo yo : Qc) (e c : hit) (ng : nat) : cell :=
  if Qceqb (node_of fi xmsg e ng) xmsg then cellval opt ncrit k xo yo c ng else Some (node_of fi xmsg e ng).
(** the cell that the search gives *)
Definition cell_found (fast : bool) (k : nat) (xo yo : Qc) (c : hit) : Prop :=
  if fast then exists gx gy, earliest_stride_candidate (xr nxi xi) xo k = Some gx /\ earliest_stride_candidate (yr nyi yi) yo k = Some gy /\
                 c = pick_c (c_loc nxi nyi xi yi k gx gy xo yo) (c_full nxi nyi xi yi k xo yo)
  else c = c_full nxi nyi xi yi k xo yo.
Lemma find_full_ok k xo yo : find_curv_cell_full nxi nyi xi yi k xo yo = Some (c_full nxi nyi xi yi k xo yo).
Proof. apply first_in2_find. intros ix iy X Y. apply in_rng in X, Y. unfold cell_test. rewrite !at2_in by lia. reflexivity. Qed.
Lemma points_find_cell_ok fast k xo yo : 2 <= nxi -> 2 <= nyi -> exists c, points_find_cell nxi nyi xi yi fast k (xr nxi xi) (yr nyi yi) xo yo = Some c /\ cell_found fast k xo yo c.
Proof.
  intros HX HY. unfold points_find_cell, cell_found. destruct fast.
  - destruct (earliest_range (xr nxi xi) xo k) as (gx & E1 & G1). { rewrite xr_length; auto. } destruct (earliest_range (yr nyi yi) yo k) as (gy & E2 & G2). { rewrite yr_length; auto. }
    rewrite E1, E2. cbn [bind]. unfold points_cell_window. cbn [fst snd]. rewrite find_cell_window by lia. cbn [bind]. fold (c_loc nxi nyi xi yi k gx gy xo yo).
    exists (pick_c (c_loc nxi nyi xi yi k gx gy xo yo) (c_full nxi nyi xi yi k xo yo)). split; [|exists gx, gy; auto].
    destruct (c_loc nxi nyi xi yi k gx gy xo yo); cbn [pick_c]; auto. apply find_full_ok.
  - cbn [bind]. rewrite find_full_ok. eexists. split; reflexivity.
Qed.
Lemma cell_found_in fast k xo yo p : cell_found fast k xo yo (Some p) -> (1 <= fst p <= nxi - k /\ 1 <= snd p <= nyi - k) /\ pc xi yi k xo yo (fst p) (snd p) = true.
Proof.
  unfold cell_found, c_full. intros H. destruct fast.
  - destruct H as (gx & gy & _ & _ & H). unfold pick_c, c_loc, c_full in H. match type of H with _ = match ?t with _ => _ end => destruct t eqn:E end; [inversion H; subst|symmetry in H; clear E; rename H into E]; apply find2_some in E as (E1 & E2 & E3); split; auto; lia.
  - symmetry in H. apply find2_some in H as (E1 & E2 & E3); split; auto; lia.
Qed.
Lemma points_first_ok fast opt ncrit k rl cl xo yo : 2 <= nxi -> 2 <= nyi -> rows_bound rl -> cols_bound cl ->
  exists c, cell_found fast k xo yo c /\
  points_first nxi nyi ngrd xi yi fi dist xmsg fast opt ncrit k (xr nxi xi) (yr nyi yi) rl cl xo yo =
  Some (map (first_val opt ncrit k xo yo (pe0 xo yo) c) (seq 1 ngrd)).
Proof.
  intros HX HY RB CB. unfold points_first. rewrite exact_points_ok by auto. cbn [bind]. fold (pe0 xo yo).
  assert (N : match pe0 xo yo with Some p => let* v := copy_node nxi nyi ngrd fi (fst p) (snd p) in Some (map Some v) | None => Some (repeat (Some xmsg) ngrd) end
    = Some (map (fun ng => Some (node_of fi xmsg (pe0 xo yo) ng)) (seq 1 ngrd))).
  { destruct (pe0 xo yo) as [[ex ey]|] eqn:E.
    - apply find2_some in E as (E1 & E2 & _). cbn [fst snd] in *. rewrite copy_ok by lia. cbn [bind]. rewrite map_map. reflexivity.
    - rewrite repeat_map. reflexivity. }
  rewrite N. cbn [bind]. destruct (points_find_cell_ok fast k xo yo HX HY) as (c & Ec & Fc). exists c. split; auto.
  destruct (has_missing _ _) eqn:HM.
  - rewrite Ec. cbn [bind]. destruct c as [[cx cy]|].
    + apply cell_found_in in Fc as [[F1 F2] _]. cbn [fst snd] in *. unfold points_cell. rewrite points_weights_ok by lia. cbn [bind].
      apply mapM_seq_map. intros ng I. rewrite rd_map_seq by auto. cbn [bind cell_is]. unfold first_val. destruct (Qceqb_spec (node_of fi xmsg (pe0 xo yo) ng) xmsg) as [E|E]; auto.
      rewrite !at3_in by lia. cbn [bind]. unfold cellval. destruct (pw opt k xo yo cx cy); rewrite E; auto.
    + f_equal. apply map_seq_ext. intros ng I. unfold first_val. destruct (Qceqb_spec (node_of fi xmsg (pe0 xo yo) ng) xmsg) as [E|E]; auto. rewrite E. reflexivity.
  - f_equal. apply map_seq_ext. intros ng I. unfold first_val. destruct (Qceqb_spec (node_of fi xmsg (pe0 xo yo) ng) xmsg) as [E|E]; auto. exfalso.
    assert (T : has_missing xmsg (map (fun ng => Some (node_of fi xmsg (pe0 xo yo) ng)) (seq 1 ngrd)) = true).
    { unfold has_missing. apply existsb_exists. exists (Some (node_of fi xmsg (pe0 xo yo) ng)). split. { apply in_map_iff. exists ng. split; auto. apply in_seq. lia. } cbn. rewrite E. destruct (Qceqb_spec xmsg xmsg); congruence. }
    congruence.
Qed.

(** the fallback *)
Definition cand (dkm xo yo : Qc) (ix iy : nat) : list (nat * (nat * Qc)) :=
  let d := dist yo xo (yi ix iy) (xi ix iy) in
  if Qcleb (yo - qz 5)%Qc (yi ix iy) && Qcleb (yi ix iy) (yo + qz 5)%Qc && (Qcleb d dkm && Qcltb 0%Qc d) then (ix, (iy, (1 / (d * d))%Qc)) :: nil else [].
Lemma candidate_ok dkm rl xo yo ix iy : rows_bound rl -> 1 <= ix <= nxi -> 1 <= iy <= nyi -> candidate_at nxi nyi xi yi dist dkm rl xo yo ix iy = Some (cand dkm xo yo ix iy).
Proof.
  intros (LR & RB) X Y. unfold candidate_at, cand. destruct (rd_Some rl (i := iy)) as [rb Er]; [lia|]. rewrite Er. cbn [bind]. rewrite !at2_in by auto. cbn [bind]. unfold dlat.
  pose proof (RB _ _ Er ix X) as [B1 B2]. cbn zeta.
  destruct (Qcleb_spec (yo - qz 5)%Qc (yi ix iy)) as [A|A], (Qcleb_spec (yi ix iy) (yo + qz 5)%Qc) as [B|B]; cbn [andb].
  - destruct (Qcleb_spec (yo - qz 5)%Qc (snd rb)) as [C|C]; [|exfalso; apply C; qclra]. destruct (Qcleb_spec (fst rb) (yo + qz 5)%Qc) as [D|D]; [|exfalso; apply D; qclra]. cbn [andb]. destruct (_ && _); auto.
  - destruct (_ && _); auto.
  - destruct (_ && _); auto.
  - destruct (_ && _); auto.
Qed.
Lemma candidates_ok dkm rl xo yo : rows_bound rl ->
  candidates nxi nyi xi yi dist dkm rl xo yo = Some (flat_map (fun iy => flat_map (fun ix => cand dkm xo yo ix iy) (seq 1 nxi)) (seq 1 nyi)).
Proof.
  intros RB. unfold candidates. rewrite (mapM_seq_map _ _ (fun iy => flat_map (fun ix => cand dkm xo yo ix iy) (seq 1 nxi))).
  - cbn [bind]. rewrite <- flat_map_concat_map. rewrite (proj2 (Nat.leb_le _ _)); auto. rewrite flat_map_concat_map.
    etransitivity; [apply (length_concat_le _ _ nxi)|rewrite seq_length; auto]. intros iy I. rewrite flat_map_concat_map.
    etransitivity; [apply (length_concat_le _ _ 1)|rewrite seq_length; lia]. intros ix J. unfold cand. destruct (_ && _); cbn; lia.
  - intros iy I. rewrite (mapM_seq_map _ _ (fun ix => cand dkm xo yo ix iy)) by (intros; apply candidate_ok; auto). cbn [bind]. rewrite flat_map_concat_map. reflexivity.
Qed.
Lemma in_cands dkm xo yo c : In c (flat_map (fun iy => flat_map (fun ix => cand dkm xo yo ix iy) (seq 1 nxi)) (seq 1 nyi)) -> 1 <= fst c <= nxi /\ 1 <= fst (snd c) <= nyi.
Proof.
  intros H. apply in_flat_map in H as (iy & I & H). apply in_flat_map in H as (ix & J & H). apply in_seq in I, J. unfold cand in H. destruct (_ && _); [destruct H as [<-|[]]|destruct H]. cbn. lia.
Qed.
Lemma flat_map_map_in (A B : Type) (g : A -> B) (f : nat -> list A) h l : (forall i, map g (f i) = h i) -> map g (flat_map f l) = flat_map h l.
Proof. intros H. induction l; cbn; auto. rewrite map_app, H, IHl. auto. Qed.
Lemma cands_around dkm xo yo ng : map (fun c => (fi (fst c) (fst (snd c)) ng, snd (snd c))) (flat_map (fun iy => flat_map (fun ix => cand dkm xo yo ix iy) (seq 1 nxi)) (seq 1 nyi))
  = map (fun p => (fst p, (1 / (snd p * snd p))%Qc)) (around dist nxi nyi xi yi (fun a b => fi a b ng) dkm xo yo).
Proof.
  unfold around. etransitivity; [|symmetry; apply flat_map_map_in; intros; reflexivity]. apply flat_map_map_in. intros iy.
  etransitivity; [|symmetry; apply flat_map_map_in; intros; reflexivity]. apply flat_map_map_in. intros ix. unfold cand. cbn zeta. destruct (_ && _); reflexivity.
Qed.
Definition fallback_val (dkm xo yo : Qc) (o : cell) (ng : nat) : cell :=
  if cell_is xmsg o then
    match present xmsg (around dist nxi nyi xi yi (fun a b => fi a b ng) dkm xo yo) with
    | [] => o
    | l => Some (wmean (inverse_square l))
    end
  else o.
Lemma around_pos dkm xo yo ng p : In p (around dist nxi nyi xi yi (fun a b => fi a b ng) dkm xo yo) -> (0 < snd p)%Qc /\ (snd p <= dkm)%Qc /\
  exists ix iy, 1 <= ix <= nxi /\ 1 <= iy <= nyi /\ p = (fi ix iy ng, dist yo xo (yi ix iy) (xi ix iy)).
Proof.
  intros H. unfold around in H. apply in_flat_map in H as (iy & I & H). apply in_flat_map in H as (ix & J & H). apply in_seq in I, J. cbn zeta in H.
  destruct (Qcleb_spec (dist yo xo (yi ix iy) (xi ix iy)) dkm), (Qcltb_spec 0%Qc (dist yo xo (yi ix iy) (xi ix iy))); cbn [andb] in H; rewrite ?andb_false_r in H; try (destruct H; fail).
  destruct (_ && _) in H; [destruct H as [<-|[]]|destruct H]. cbn [fst snd]. split; [auto|]. split; [auto|]. exists ix, iy. repeat split; auto; lia.
Qed.
Lemma fallback_ok dkm rl xo yo g : rows_bound rl -> points_fallback nxi nyi ngrd xi yi fi dist xmsg dkm rl xo yo (map g (seq 1 ngrd)) = Some (map (fun ng => fallback_val dkm xo yo (g ng) ng) (seq 1 ngrd)).
Proof.
  intros RB. unfold points_fallback. destruct (has_missing _ _) eqn:HM.
  - rewrite candidates_ok by auto. cbn [bind]. apply mapM_seq_map. intros ng I. rewrite rd_map_seq by auto. cbn [bind]. unfold fallback_val. destruct (cell_is xmsg (g ng)); auto.
    rewrite (mapM_Some_map _ _ _ (fun c => (fi (fst c) (fst (snd c)) ng, snd (snd c)))).
    2:{ intros c C. apply in_cands in C. rewrite at3_in by lia. reflexivity. }
    cbn [bind]. rewrite cands_around. rewrite wsum_eq, (present_map xmsg (fun d => (1 / (d * d))%Qc)). cbn [fst snd]. cbn zeta.
    set (l := present xmsg (around dist nxi nyi xi yi (fun a b => fi a b ng) dkm xo yo)).
    assert (P : forall p, In p l -> (0 < snd p)%Qc). { intros p Ip. apply in_present in Ip as [Ip _]. apply around_pos in Ip as [Ip _]. auto. }
    assert (E : map (fun p => (fst p, (1 / (snd p * snd p))%Qc)) l = inverse_square l).
    { apply map_ext_in. intros p Ip. specialize (P p Ip). f_equal. field. intro Z. rewrite Z in P. qclra. }
    rewrite E. destruct l as [|p l'] eqn:EL. { reflexivity. }
    destruct (Qcltb_spec 0%Qc (qsum (map snd (inverse_square (p :: l'))))) as [|L]; [reflexivity|]. exfalso. apply L. apply qsum_pos. { discriminate. }
    apply inverse_square_pos. destruct (find _ _) as [q|] eqn:F; auto. apply find_some in F as [F1 F2]. apply P in F1. destruct (Qceqb_spec (snd q) 0%Qc) as [Z|]; [|discriminate]. rewrite Z in F1. exfalso. qclra.
  - f_equal. apply map_seq_ext. intros ng I. unfold fallback_val. destruct (cell_is xmsg (g ng)) eqn:C; auto. exfalso.
    assert (T : has_missing xmsg (map g (seq 1 ngrd)) = true). { unfold has_missing. apply existsb_exists. exists (g ng). split; auto. apply in_map_iff. exists ng. split; auto. apply in_seq. lia. }
    congruence.
Qed.
Definition pfinal (dkm : Qc) (opt ncrit : Z) (k : nat) (xo yo : Qc) (c : hit) (ng : nat) : cell :=
  fallback_val dkm xo yo (first_val opt ncrit k xo yo (pe0 xo yo) c ng) ng.
Definition kof (kval : Z) : nat := if (kval <=? 0)%Z then 1 else Z.to_nat kval.
Definition pfast (k : nat) : bool := (k <? nxi) && (k <? nyi) && (is_strictly_increasing (xr nxi xi) && is_strictly_increasing (yr nyi yi)).
Lemma drcm2points_ok dkm opt ncrit kval yo xo : 2 <= nxi -> 2 <= nyi -> 1 <= length xo -> length yo = length xo ->
  exists out, drcm2points nxi nyi ngrd xi yi fi dist xmsg dkm opt ncrit kval yo xo = Some (Some out) /\ length out = length xo /\
    forall n x y v, rd xo n = Some x -> rd yo n = Some y -> rd out n = Some v ->
      exists c, cell_found (pfast (kof kval)) (kof kval) x y c /\ v = map (pfinal dkm opt ncrit (kof kval) x y c) (seq 1 ngrd).
Proof.
  intros HX HY HO HL. unfold drcm2points. rewrite !(proj2 (Nat.leb_gt _ _)) by lia. cbn [orb]. rewrite x_ref_ok, y_ref_ok by lia. cbn [bind]. cbn [Z.eqb negb].
  destruct row_lats_ok as (rl & E1 & RB); [lia|]. destruct col_lons_ok as (cl & E2 & CB); [lia|]. rewrite E1, E2. cbn [bind]. cbn zeta. fold (kof kval). fold (pfast (kof kval)).
  set (k := kof kval).
  destruct (mapM_seq_total _ (fun nxy => let* x := rd xo nxy in let* y := rd yo nxy in points_first nxi nyi ngrd xi yi fi dist xmsg (pfast k) opt ncrit k (xr nxi xi) (yr nyi yi) rl cl x y) (length xo)
     (fun n v => exists x y c, rd xo n = Some x /\ rd yo n = Some y /\ cell_found (pfast k) k x y c /\ v = map (first_val opt ncrit k x y (pe0 x y) c) (seq 1 ngrd))) as (fo & EF & LF & RF).
  { intros n I. destruct (rd_Some xo (i := n)) as [x Ex]; [lia|]. destruct (rd_Some yo (i := n)) as [y Ey]; [lia|]. rewrite Ex, Ey. cbn [bind].
    destruct (points_first_ok (pfast k) opt ncrit k rl cl x y HX HY RB CB) as (c & C & P). rewrite P. eexists. split; [reflexivity|]. exists x, y, c. auto. }
  rewrite EF. cbn [bind]. destruct (existsb (has_missing xmsg) fo) eqn:HM; cbn [negb].
  - destruct (mapM_seq_total _ (fun nxy => let* x := rd xo nxy in let* y := rd yo nxy in let* v := rd fo nxy in points_fallback nxi nyi ngrd xi yi fi dist xmsg dkm rl x y v) (length xo)
     (fun n v => exists x y c, rd xo n = Some x /\ rd yo n = Some y /\ cell_found (pfast k) k x y c /\ v = map (pfinal dkm opt ncrit k x y c) (seq 1 ngrd))) as (fo2 & EF2 & LF2 & RF2).
    { intros n I. destruct (rd_Some xo (i := n)) as [x Ex]; [lia|]. destruct (rd_Some yo (i := n)) as [y Ey]; [lia|]. destruct (rd_Some fo (i := n)) as [v Ev]; [lia|]. rewrite Ex, Ey, Ev. cbn [bind].
      destruct (RF _ _ Ev) as (x' & y' & c & X' & Y' & C & ->). rewrite Ex in X'. rewrite Ey in Y'. inversion X'; inversion Y'; subst x' y'.
      rewrite fallback_ok by auto. eexists. split; [reflexivity|]. exists x, y, c. auto. }
    rewrite EF2. exists fo2. split; auto. split; auto. intros n x y v X Y V. destruct (RF2 _ _ V) as (x' & y' & c & X' & Y' & C & ->). rewrite X in X'. rewrite Y in Y'. inversion X'; inversion Y'; subst. eauto.
  - exists fo. split; auto. split; auto. intros n x y v X Y V. destruct (RF _ _ V) as (x' & y' & c & X' & Y' & C & ->). rewrite X in X'. rewrite Y in Y'. inversion X'; inversion Y'; subst. exists c. split; auto.
    apply map_seq_ext. intros ng I. unfold pfinal, fallback_val. destruct (cell_is xmsg _) eqn:M; auto. exfalso.
    assert (T : existsb (has_missing xmsg) fo = true).
    { apply existsb_exists. eexists. split. { unfold rd in V. destruct n; [discriminate|]. eapply nth_error_In. exact V. } unfold has_missing. apply existsb_exists. eexists. split; [|exact M]. apply in_map_iff. exists ng. split; auto. apply in_seq. lia. }
    congruence.
Qed.
End Points.
