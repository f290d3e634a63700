(** The drivers: loop over the points, error flag, missing levels. *)
From Coq Require Import Reals List Arith Lia ZArith Bool Permutation Lra.
From Verif Require Import Base Buffer VH_Model VH_Proofs PI_Model PI_Model2 PI_Spec PI_Proofs1 PI_Proofs2 PI_Proofs3.
Import ListNotations.
Local Open Scope nat_scope.

(** ** The loop *)
Lemma grid_loop_some pol cell : forall order out flag out' f, NoDup order ->
  grid_loop pol cell order out flag = Some (out', f) ->
  length out' = length out /\
  exists val : nat -> list R * option Z,
    (forall c, In c order -> cell c = Some (val c) /\ rd out' (c + 1) = Some (fst (val c))) /\
    (forall i, ~ In (i - 1) order \/ i = 0 -> rd out' i = rd out i) /\
    f = fold_left pol (map (fun c => snd (val c)) order) flag.
Proof.
  induction order as [|c order IH]; intros out flag out' f ND H; cbn [grid_loop foldM] in H.
  - injection H as <- <-. split; [auto|]. exists (fun _ => ([], None)). split; [intros c []|]. split; [auto|]. auto.
  - unfold grid_loop in H. cbn [foldM] in H. bnd H st Est. bnd Est v Ev. bnd Est o1 Eo. injection Est as <-. inversion ND as [|? ? Nc ND']; subst.
    assert (B : 1 <= c + 1 <= length out /\ o1 = wr out (c + 1) (fst v)).
    { unfold wrx in Eo. cbn [fst] in Eo.
      destruct ((1 <=? c + 1) && (c + 1 <=? length out))%bool eqn:B; [|discriminate]. injection Eo as <-.
      apply andb_true_iff in B. destruct B as [B1 B2]. apply Nat.leb_le in B1, B2. auto. }
    destruct B as [B ->]. apply IH in H; auto. destruct H as (L & val & V1 & V2 & ->). split; [rewrite L; apply wr_length|].
    exists (fun x => if x =? c then v else val x). split; [|split].
    + intros x [<-|X].
      * rewrite Nat.eqb_refl. split; [auto|]. rewrite V2 by (left; rewrite Nat.add_sub; auto). apply rd_wr_eq. lia.
      * destruct (Nat.eqb_spec x c) as [->|N]; [contradiction|]. apply V1. auto.
    + intros i I. rewrite V2.
      * apply rd_wr_neq. intros Q. subst i. destruct I as [I|I]; [|lia]. apply I. left. lia.
      * destruct I as [I|I]; [left; intros X; apply I; right; auto|auto].
    + cbn [map fold_left snd]. rewrite Nat.eqb_refl. f_equal. apply map_ext_in. intros x X.
      destruct (Nat.eqb_spec x c) as [->|N]; [contradiction|auto].
Qed.

Lemma grid_loop_ok pol cell N : forall order out flag, (forall c, In c order -> c < N) -> length out = N ->
  (forall c, c < N -> exists v, cell c = Some v) -> exists r, grid_loop pol cell order out flag = Some r.
Proof.
  unfold grid_loop. induction order as [|c order IH]; intros out flag B L D; cbn [foldM]; [eauto|].
  destruct (D c) as [v Ev]; [apply B; left; auto|]. rewrite Ev. cbn [bind fst snd].
  rewrite wrx_ok by (specialize (B c (or_introl eq_refl)); lia). cbn [bind].
  apply IH; auto. { intros x X. apply B. right. auto. } rewrite wr_length. auto.
Qed.

Lemma grid_loop_ext pol cell cell' order out flag : (forall c, In c order -> cell c = cell' c) ->
  grid_loop pol cell order out flag = grid_loop pol cell' order out flag.
Proof.
  unfold grid_loop. revert out flag. induction order as [|c order IH]; intros out flag H; cbn [foldM]; [auto|].
  rewrite (H c (or_introl eq_refl)). destruct (cell' c) as [v|]; cbn [bind]; [|auto].
  destruct (wrx _ _ _) as [o|]; cbn [bind]; [|auto]. apply IH. intros x X. apply H. right. auto.
Qed.

(** ** The flag *)
Lemma flag_fail_fold : forall l z, fold_left flag_fail l z = 1%Z <-> (forall f, In (Some f) l -> f = 1%Z) /\ z = 1%Z.
Proof.
  induction l as [|[f|] l IH]; intros z; cbn [fold_left flag_fail].
  - split; [intros ->; split; [intros f []|auto]|intros [_ ->]; auto].
  - rewrite IH. destruct (Z.eqb_spec f 1) as [->|N].
    + split; intros [A B]; split; auto.
      * intros g [[= <-]|G]; auto.
      * intros g G. apply A. right. auto.
    + split; intros [A B]; [contradiction|]. exfalso. apply N. apply A. left. auto.
  - rewrite IH. split; intros [A B]; split; auto.
    + intros g [G|G]; [discriminate|auto].
    + intros g G. apply A. right. auto.
Qed.

Lemma order3_seq nlat nlon : order3 nlat nlon = seq 0 (nlat * nlon).
Proof.
  unfold order3. assert (S0 : forall m s, flat_map (fun j => map (fun i => i + nlat * j) (seq 0 nlat)) (seq s m) = seq (nlat * s) (nlat * m)).
  { induction m as [|m IH]; intros s; cbn [seq flat_map]; [rewrite Nat.mul_0_r; auto|].
    rewrite IH. replace (nlat * S m) with (nlat + nlat * m) by lia. rewrite seq_app. f_equal.
    - rewrite (map_ext _ (fun i => nlat * s + i)) by (intros; lia).
      clear. generalize (nlat * s) as a. intros a. assert (G : forall n b, map (fun i => a + i) (seq b n) = seq (a + b) n).
      { induction n as [|n IH]; intros b; cbn; [auto|]. rewrite IH. f_equal. f_equal. lia. }
      rewrite G. f_equal. lia.
    - f_equal. lia. }
  rewrite S0. f_equal. lia.
Qed.

Lemma order4_seq nt nlat nlon : order4 nt nlat nlon = seq 0 (nt * nlat * nlon).
Proof.
  unfold order4. rewrite <- Nat.mul_assoc, <- (order3_seq nt (nlat * nlon)). unfold order3.
  rewrite <- (order3_seq nlat nlon). unfold order3.
  induction (seq 0 nlon) as [|j l IH]; cbn [flat_map]; [auto|]. rewrite flat_map_app, <- IH. f_equal.
  clear. induction (seq 0 nlat) as [|i l IH]; cbn [flat_map map]; [auto|]. rewrite IH. auto.
Qed.

(** ** One point *)
Lemma undef_fields_eq diag l : undef_fields diag = fields diag (mkpi UNDEF UNDEF UNDEF UNDEF UNDEF UNDEF UNDEF l 0).
Proof. destruct diag; auto. Qed.

Lemma plain_cell_profile diag ofl ckcd nl P sst psl T r v fl : 1 <= nl ->
  plain_cell diag ofl ckcd nl P sst psl T r = Some (v, fl) ->
  exists o, calculate_pi_profile_diagnostics sst psl nl P T r nl ofl ckcd = Some o /\ v = fields diag o /\
    fl = (if rle (to_C sst) 5 then None else Some (o_flag o)).
Proof.
  intros N H. unfold plain_cell in H. unfold calculate_pi_profile_diagnostics.
  replace (Nat.min (Nat.max nl 1) nl) with nl by lia. destruct (rle (to_C sst) 5).
  - injection H as <- <-. eexists. split; [reflexivity|]. split; [apply undef_fields_eq|auto].
  - bnd H o Eo. injection H as <- <-. exists o. auto.
Qed.

(** the first valid level *)
Lemma valid_start_spec : forall trs k s0, k + length trs <= s0 ->
  (valid_start k trs s0 = s0 /\ forallb (fun tr => negb (valid_level tr)) trs = true) \/
  (exists a tr b, trs = a ++ tr :: b /\ forallb (fun tr => negb (valid_level tr)) a = true /\ valid_level tr = true /\
     valid_start k trs s0 = k + length a).
Proof.
  assert (M : forall trs k s0, s0 <= k -> valid_start k trs s0 = s0).
  { induction trs as [|tr trs IH]; intros k s0 H; cbn [valid_start]; [auto|].
    destruct (valid_level tr); rewrite IH; lia. }
  induction trs as [|tr trs IH]; intros k s0 H; cbn [valid_start length forallb] in *; [left; auto|].
  destruct (valid_level tr) eqn:V.
  - right. exists [], tr, trs. split; [auto|]. split; [auto|]. split; [auto|]. rewrite M by lia. cbn. lia.
  - destruct (IH (S k) s0 ltac:(lia)) as [[A B]|(a & t & b & -> & B & C & D)].
    + left. rewrite A, B. auto.
    + right. exists (tr :: a), t, b. split; [auto|]. cbn [forallb length]. rewrite V, B. split; [auto|]. split; [auto|]. lia.
Qed.

(** the temperatures and mixing ratios passed on: as given where both are
    present, otherwise what the conversion turns into the missing value *)
Definition filled_T (tr : R * R) : R := if valid_level tr then fst tr else (UNDEF + 27315 / 100)%R.
Definition filled_r (tr : R * R) : R := if valid_level tr then snd tr else (UNDEF / 1000)%R.

Lemma masked_T trs : map (masked (fun tr => to_C (fst tr))) trs = map to_C (map filled_T trs).
Proof. rewrite map_map. apply map_ext. intros tr. unfold masked, filled_T, to_C. destruct (valid_level tr); [auto|ring]. Qed.
Lemma masked_r trs : map (masked (fun tr => to_gkg (snd tr))) trs = map to_gkg (map filled_r trs).
Proof. rewrite map_map. apply map_ext. intros tr. unfold masked, filled_r, to_gkg. destruct (valid_level tr); [auto|field]. Qed.

Lemma skipn_map' (A B : Type) (f : A -> B) : forall n l, skipn n (map f l) = map f (skipn n l).
Proof. induction n as [|n IH]; intros [|x l]; cbn; auto. Qed.

Lemma filled_valid trs : forallb valid_level trs = true -> map filled_T trs = map fst trs /\ map filled_r trs = map snd trs.
Proof.
  intros H. rewrite forallb_forall in H. split; apply map_ext_in; intros tr I; unfold filled_T, filled_r; rewrite (H tr I); auto.
Qed.

Lemma missing_cell_cases diag ofl ckcd nl P sst psl T r v fl : length T = nl -> length r = nl ->
  missing_cell diag ofl ckcd nl P sst psl T r = Some (v, fl) ->
  ((sst = UNDEF \/ forallb (fun tr => negb (valid_level tr)) (combine T r) = true) /\ v = undef_fields diag /\ fl = None) \/
  (sst <> UNDEF /\ exists a tr b o, combine T r = a ++ tr :: b /\
     forallb (fun tr => negb (valid_level tr)) a = true /\ valid_level tr = true /\
     calculate_pi_profile_diagnostics sst psl (nl - length a) (skipn (length a) P) (map filled_T (tr :: b)) (map filled_r (tr :: b))
       (nl - length a) ofl ckcd = Some o /\ v = fields diag o /\
     fl = (if rle (to_C sst) 5 then None else Some (o_flag o))).
Proof.
  intros LT Lr H. unfold missing_cell in H. destruct (req_spec sst UNDEF) as [->|Ns]; [injection H as <- <-; auto|].
  assert (Lc : length (combine T r) = nl) by (rewrite combine_length; lia).
  destruct (valid_start_spec (combine T r) 1 (nl + 1) ltac:(lia)) as [[A B]|(a & tr & b & Ec & B & C & D)].
  - left. split; [auto|]. destruct (rle (to_C sst) 5); [injection H as <- <-; auto|]. rewrite A in H.
    destruct (Nat.ltb_spec nl (nl + 1)); [|lia]. injection H as <- <-. auto.
  - right. split; [auto|]. assert (La : length a < nl) by (rewrite Ec, app_length in Lc; cbn in Lc; lia).
    exists a, tr, b. unfold calculate_pi_profile_diagnostics.
    replace (Nat.min (Nat.max (nl - length a) 1) (nl - length a)) with (nl - length a) by lia.
    destruct (rle (to_C sst) 5).
    + injection H as <- <-. eexists. split; [auto|]. split; [auto|]. split; [auto|]. split; [reflexivity|]. split; [apply undef_fields_eq|auto].
    + rewrite D in H. destruct (Nat.ltb_spec nl (1 + length a)); [lia|].
      replace (1 + length a - 1) with (length a) in H by lia.
      replace (nl - (1 + length a) + 1) with (nl - length a) in H by lia.
      rewrite masked_T, masked_r, !skipn_map', Ec in H.
      rewrite skipn_app, skipn_all, Nat.sub_diag in H. cbn [skipn app] in H.
      bnd H o Eo. injection H as <- <-. exists o. repeat (split; [auto; fail|]). auto.
Qed.

(** complete data *)
Lemma missing_plain diag ofl ckcd nl P sst psl T r : length T = nl -> length r = nl -> 1 <= nl ->
  sst <> UNDEF -> ~ In UNDEF T -> ~ In UNDEF r ->
  missing_cell diag ofl ckcd nl P sst psl T r = plain_cell diag ofl ckcd nl P sst psl T r.
Proof.
  intros LT Lr N Hs HT Hr. unfold missing_cell, plain_cell. destruct (req_spec sst UNDEF); [contradiction|].
  destruct (rle (to_C sst) 5); [auto|].
  assert (V : forallb valid_level (combine T r) = true).
  { apply forallb_forall. intros [t q] I. unfold valid_level. cbn [fst snd].
    destruct (req_spec t UNDEF) as [->|]; [exfalso; apply HT; eapply in_combine_l; eauto|].
    destruct (req_spec q UNDEF) as [->|]; [exfalso; apply Hr; eapply in_combine_r; eauto|]. auto. }
  rewrite masked_T, masked_r. destruct (filled_valid _ V) as [-> ->].
  assert (C1 : map fst (combine T r) = T /\ map snd (combine T r) = r).
  { clear - LT Lr. revert r nl LT Lr. induction T as [|t T IH]; intros [|q r] nl L1 L2; cbn in *; auto; try lia.
    destruct (IH r (nl - 1)) as [-> ->]; try lia. auto. }
  destruct C1 as [-> ->].
  assert (Vs : valid_start 1 (combine T r) (nl + 1) = 1).
  { destruct T as [|t T], r as [|q r]; cbn in *; try lia. apply andb_true_iff in V. destruct V as [-> _].
    replace (Nat.min (nl + 1) 1) with 1 by lia. clear. generalize (combine T r) as l. 
    assert (G : forall l k, 1 <= k -> valid_start k l 1 = 1).
    { induction l as [|x l IH]; intros k K; cbn [valid_start]; [auto|]. destruct (valid_level x); [replace (Nat.min 1 k) with 1 by lia|]; apply IH; lia. }
    intros l. apply G. lia. }
  rewrite Vs. destruct (Nat.ltb_spec nl 1); [lia|]. cbn [Nat.sub skipn]. replace (nl - 1 + 1) with nl by lia. auto.
Qed.

(** ** Columns *)
Lemma column3_some nl X c T : column3 nl X c = Some T -> length T = nl /\ (forall k, k < nl -> rd X (k + 1 + nl * c) = rd T (k + 1)).
Proof.
  intros H. unfold column3 in H. destruct (mapM_seq_rd _ _ _ _ H) as [L Q]. split; [auto|]. intros k K.
  rewrite Q by lia. auto.
Qed.

Lemma column4_some nt nl X c T : column4 nt nl X c = Some T ->
  length T = nl /\ (forall k, k < nl -> rd X (c mod nt + 1 + nt * (k + nl * (c / nt))) = rd T (k + 1)).
Proof.
  intros H. unfold column4 in H. destruct (mapM_seq_rd _ _ _ _ H) as [L Q]. split; [auto|]. intros k K.
  rewrite Q by lia. replace (k + 1 - 1) with k by lia. auto.
Qed.
