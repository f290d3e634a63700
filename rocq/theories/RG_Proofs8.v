From Verif Require Import Base Buffer Loops VH_Model VH_Proofs VH_Proofs3 LI_Proofs TG_Model TG_Proofs2 RG_Model RG_Spec RG_Proofs RG_Proofs2 RG_Proofs3 RG_Proofs4 RG_Proofs5 RG_Proofs6 RG_Proofs7.
Local Open Scope nat_scope.

(** * The window of positive weights *)
Lemma foldM_inv (A S : Type) (F : S -> A -> option S) (I : nat -> S -> Prop) l : forall s k,
  I k s -> (forall j a s, nth_error l j = Some a -> I (k + j) s -> exists s', F s a = Some s' /\ I (k + j + 1) s') ->
  exists s', foldM F l s = Some s' /\ I (k + length l) s'.
Proof.
  induction l as [|a l IH]; intros s k H Hs; cbn [foldM].
  - exists s. simpl. rewrite Nat.add_0_r. auto.
  - destruct (Hs 0 a s eq_refl) as [s1 [E1 I1]]; [rewrite Nat.add_0_r; auto|]. rewrite E1. rewrite Nat.add_0_r in I1.
    destruct (IH s1 (k + 1) I1) as [s2 [E2 I2]].
    + intros j b t Hj It. destruct (Hs (Datatypes.S j) b t Hj) as [t' [Et It']]; [replace (k + Datatypes.S j) with (k + 1 + j) by lia; auto|]. exists t'. split; auto. replace (k + 1 + j + 1) with (k + Datatypes.S j + 1) by lia. auto.
    + exists s2. split; auto. simpl. replace (k + Datatypes.S (length l)) with (k + 1 + length l) by lia. auto.
Qed.
Lemma window_ok row : exists s e, window row = Some (s, e) /\ e <= length row /\ forall i w, nth_error row i = Some w -> (i < s \/ e <= i) -> (w <= 0)%Qc.
Proof.
  unfold window. set (n := length row).
  match goal with |- context [foldM ?f _ _] => set (F := f) end.
  destruct (foldM_inv _ _ F (fun k st => snd st <= k /\ (fst st <= n) /\ ((fst st = n -> snd st = 0) /\ (fst st <> n -> fst st < k)) /\ forall i w, i < k -> nth_error row i = Some w -> (i < fst st \/ snd st <= i) -> (w <= 0)%Qc) (seq 0 n) (n, 0) 0) as [[s e] [E [H1 [H2 [[H3 H3'] H4]]]]].
  - cbn [fst snd]. split; auto. split; auto. split; [split; auto; lia|]. intros; lia.
  - intros j a st Hj [I1 [I2 [[I3 I3'] I4]]]. pose proof (nth_bound _ _ _ _ Hj) as B. rewrite seq_length in B. rewrite nth_seq0 in Hj by auto. injection Hj as <-. rewrite Nat.add_0_l in *. unfold F.
    destruct (nth_some _ row j) as [w W]; [auto|]. rewrite W. cbn [bind]. eexists. split; [reflexivity|].
    destruct (Qcltb_spec 0%Qc w) as [L|L].
    + destruct (Nat.eqb_spec (fst st) n) as [Q|Q]; cbn [fst snd].
      * split; [lia|]. split; [lia|]. split; [split; lia|]. intros i w' Hi Wi C. apply (I4 i w'); auto; [|rewrite (I3 Q); lia]. destruct (Nat.eq_dec i j); lia.
      * split; [lia|]. split; [lia|]. specialize (I3' Q). split; [split; [intros; contradiction|lia]|]. intros i w' Hi Wi C. assert (i < j \/ i = j) as [X| ->] by lia; [|lia]. apply (I4 i w'); auto. left. lia.
    + split; [lia|]. split; auto. split; [split; auto; intros Q; specialize (I3' Q); lia|]. intros i w' Hi Wi C. assert (i < j \/ i = j) as [X| ->] by lia; [apply (I4 i w'); auto|]. replace w' with w by congruence. apply Qcnot_lt_le. auto.
  - rewrite E. cbn [bind fst snd]. rewrite seq_length in *. simpl in *. destruct (Nat.eqb_spec s n) as [Q|Q].
    + exists 0, n. split; auto. split; [unfold n; lia|]. intros i w Wi C. pose proof (nth_bound _ _ _ _ Wi). unfold n in C. lia.
    + exists s, e. split; auto. split; auto. intros i w Wi C. apply (H4 i w); auto. apply (nth_bound _ _ _ _ Wi).
Qed.
Lemma sum_window n s e g : e <= n -> (forall i, i < n -> (i < s \/ e <= i) -> g i = 0%Qc) -> qsum (map g (seq s (e - s))) = sum n g.
Proof.
  intros E Z. destruct (Nat.le_gt_cases e s) as [L|L].
  - replace (e - s) with 0 by lia. simpl. symmetry. apply sum_zero. intros i I. apply Z; auto. lia.
  - unfold sum. replace n with (s + ((e - s) + (n - e))) by lia. rewrite !seq_app, !map_app, !qsum_app. rewrite Nat.add_0_l.
    rewrite (qsum_ext g (fun _ => 0%Qc) (seq 0 s)), (qsum_ext g (fun _ => 0%Qc) (seq (s + (e - s)) (n - e))); rewrite ?qsum_const.
    + ring.
    + intros i I. apply in_seq in I. apply Z; lia.
    + intros i I. apply in_seq in I. apply Z; lia.
Qed.
Lemma foldM_pair (F : Qc * Qc -> nat -> option (Qc * Qc)) p q l : forall acc, (forall acc k, In k l -> F acc k = Some ((fst acc + p k)%Qc, (snd acc + q k)%Qc)) ->
  foldM F l acc = Some ((fst acc + qsum (map p l))%Qc, (snd acc + qsum (map q l))%Qc).
Proof.
  induction l as [|a l IH]; intros acc H; cbn [foldM].
  - simpl. destruct acc. cbn [fst snd]. rewrite !Qcplus_0_r. auto.
  - rewrite H by (left; auto). cbn [bind]. rewrite IH by (intros; apply H; right; auto). cbn [fst snd map]. simpl. f_equal. f_equal; ring.
Qed.

Definition value_or0 (field : list cell) (k : nat) : Qc := match nth_error field k with Some (Some v) => v | _ => 0%Qc end.
Definition valid01 (field : list cell) (k : nat) : Qc := match nth_error field k with Some (Some _) => 1%Qc | _ => 0%Qc end.
Lemma nonneg_zero (w : Qc) : (0 <= w)%Qc -> (w <= 0)%Qc -> w = 0%Qc.
Proof. intros A B. apply Qcle_antisym; auto. Qed.
Lemma lat_step_ok nlon nlat field i row : length field = nlon * nlat -> i < nlon -> length row = nlat -> (forall w, In w row -> (0 <= w)%Qc) ->
  exists w, window row = Some w /\ lat_step field nlat i row w = Some (sum nlat (fun d => (nth d row 0 * value_or0 field (i * nlat + d)%nat)%Qc), sum nlat (fun d => (nth d row 0 * valid01 field (i * nlat + d)%nat)%Qc)).
Proof.
  intros L I Lr NN. destruct (window_ok row) as [s [e [W [E Z]]]]. exists (s, e). split; auto. unfold lat_step. cbn [fst snd].
  rewrite (foldM_pair _ (fun d => (nth d row 0 * value_or0 field (i * nlat + d)%nat)%Qc) (fun d => (nth d row 0 * valid01 field (i * nlat + d)%nat)%Qc)).
  - cbn [fst snd]. rewrite !Qcplus_0_l. rewrite !(sum_window nlat) by first [lia | intros k K C; replace (nth k row 0%Qc) with 0%Qc by (symmetry; apply nonneg_zero; [apply NN, nth_In; lia|apply (Z k); auto; apply nth_error_nth'; lia]); ring]. auto.
  - intros acc k Hk. apply in_seq in Hk. assert (k < nlat) by lia. unfold value_or0, valid01. destruct (nth_some _ field (i * nlat + k)) as [c C]; [unfold cell in *; rewrite L; apply flat_bound; auto|]. rewrite C. cbn [bind].
    rewrite (nth_error_nth' row 0%Qc) by lia. cbn [bind]. destruct c as [v|]; f_equal; [f_equal; ring|]. destruct acc. cbn [fst snd]. f_equal; ring.
Qed.
Lemma lon_step_ok (tmp : list (list (Qc * Qc))) nlon j row (p q : nat -> Qc) : length tmp = nlon -> (forall c, c < nlon -> entry tmp c j = Some (p c, q c)) -> length row = nlon -> (forall w, In w row -> (0 <= w)%Qc) ->
  exists w, window row = Some w /\ lon_step tmp j row w = Some (if Qcltb 0%Qc (sum nlon (fun c => (nth c row 0 * q c)%Qc)) then Some (sum nlon (fun c => (nth c row 0 * p c)%Qc) / sum nlon (fun c => (nth c row 0 * q c)%Qc))%Qc else None).
Proof.
  intros L T Lr NN. destruct (window_ok row) as [s [e [W [E Z]]]]. exists (s, e). split; auto. unfold lon_step. cbn [fst snd].
  rewrite (foldM_pair _ (fun c => (nth c row 0 * p c)%Qc) (fun c => (nth c row 0 * q c)%Qc)).
  - cbn [fst snd bind]. rewrite !Qcplus_0_l. rewrite !(sum_window nlon) by first [lia | intros k K C; replace (nth k row 0%Qc) with 0%Qc by (symmetry; apply nonneg_zero; [apply NN, nth_In; lia|apply (Z k); auto; apply nth_error_nth'; lia]); ring]. auto.
  - intros acc k Hk. apply in_seq in Hk. assert (K : k < nlon) by lia. rewrite (nth_error_nth' row 0%Qc) by lia. cbn [bind]. specialize (T k K). unfold entry in T. destruct (nth_error tmp k) as [line|]; [|discriminate]. cbn [bind]. rewrite T. cbn [bind fst snd]. auto.
Qed.
Lemma nth_combine (A B : Type) (la : list A) (lb : list B) i a b : nth_error la i = Some a -> nth_error lb i = Some b -> nth_error (combine la lb) i = Some (a, b).
Proof. revert lb i. induction la as [|x la IH]; intros [|y lb] [|i] Ha Hb; simpl in *; try discriminate; [congruence|]. apply IH; auto. Qed.
Lemma combine_nth_inv (A B : Type) (la : list A) (lb : list B) i a b : nth_error (combine la lb) i = Some (a, b) -> nth_error la i = Some a /\ nth_error lb i = Some b.
Proof. revert lb i. induction la as [|x la IH]; intros [|y lb] [|i] H; simpl in *; try discriminate; [injection H as <- <-; auto|]. apply IH; auto. Qed.
Lemma windows_ok W : exists wins, mapM window W = Some wins /\ length wins = length W /\ forall i r, nth_error W i = Some r -> exists w, nth_error wins i = Some w /\ window r = Some w.
Proof. apply mapM_okR. intros r _. destruct (window_ok r) as [s [e [E _]]]. exists (s, e). auto. Qed.
Lemma plane_ok nlon nlat field lonw latw : length field = nlon * nlat -> nonneg_rows lonw nlon -> nonneg_rows latw nlat ->
  exists rows, regrid_plane nlon nlat field lonw latw = Some rows /\ shaped rows (length lonw) (length latw) /\
    forall i j a b, nth_error lonw i = Some a -> nth_error latw j = Some b ->
      entry rows i j = Some (let cnt := sum nlon (fun c => (nth c a 0 * sum nlat (fun d => nth d b 0 * valid01 field (c * nlat + d)%nat))%Qc) in
                             if Qcltb 0%Qc cnt then Some (sum nlon (fun c => (nth c a 0 * sum nlat (fun d => nth d b 0 * value_or0 field (c * nlat + d)%nat))%Qc) / cnt)%Qc else None).
Proof.
  intros L Na Nb. unfold regrid_plane. destruct (windows_ok lonw) as [wa [Ea [La Ka]]]. destruct (windows_ok latw) as [wb [Eb [Lb Kb]]]. rewrite Ea, Eb. cbn [bind].
  destruct (mapM_okR _ _ (fun i => mapM (fun rw => lat_step field nlat i (fst rw) (snd rw)) (combine latw wb))
    (fun i line => forall j b, nth_error latw j = Some b -> nth_error line j = Some (sum nlat (fun d => (nth d b 0 * value_or0 field (i * nlat + d)%nat)%Qc), sum nlat (fun d => (nth d b 0 * valid01 field (i * nlat + d)%nat)%Qc))) (seq 0 nlon)) as [tmp [Et [Lt Kt]]].
  { intros i I. apply in_seq in I.
    destruct (mapM_okR _ _ (fun rw : list Qc * (nat * nat) => lat_step field nlat i (fst rw) (snd rw)) (fun rw c => c = (sum nlat (fun d => (nth d (fst rw) 0 * value_or0 field (i * nlat + d)%nat)%Qc), sum nlat (fun d => (nth d (fst rw) 0 * valid01 field (i * nlat + d)%nat)%Qc))) (combine latw wb)) as [line [El [Ll Kl]]].
    - intros [b w] Ib. apply In_nth_error in Ib. destruct Ib as [j Ij]. apply combine_nth_inv in Ij. destruct Ij as [Ij1 Ij2]. destruct (Nb b (nth_error_In _ _ Ij1)) as [Lb' NNb]. destruct (Kb j b Ij1) as [w' [Ew Ww]]. replace w' with w in * by congruence.
      destruct (lat_step_ok nlon nlat field i b L) as [w2 [W2 S2]]; auto; [lia|]. replace w2 with w in * by congruence. cbn [fst snd]. eauto.
    - exists line. split; auto. intros j b Hb. destruct (Kb j b Hb) as [w [Ew _]]. destruct (Kl j (b, w)) as [c [Ec ->]]; [apply nth_combine; auto|]. auto. }
  rewrite Et. cbn [bind]. rewrite seq_length in Lt.
  match goal with |- context [mapM ?f (combine lonw wa)] => set (G := f) end.
  destruct (mapM_okR _ _ G (fun rw r => length r = length latw /\ forall j b, nth_error latw j = Some b -> nth_error r j =
      Some (let cnt := sum nlon (fun c => (nth c (fst rw) 0 * sum nlat (fun d => nth d b 0 * valid01 field (c * nlat + d)%nat))%Qc) in
            if Qcltb 0%Qc cnt then Some (sum nlon (fun c => (nth c (fst rw) 0 * sum nlat (fun d => nth d b 0 * value_or0 field (c * nlat + d)%nat))%Qc) / cnt)%Qc else None)) (combine lonw wa)) as [rows [Er [Lr Kr]]].
  { intros [a w] Ia. apply In_nth_error in Ia. destruct Ia as [i Ii]. apply combine_nth_inv in Ii. destruct Ii as [Ii1 Ii2]. destruct (Na a (nth_error_In _ _ Ii1)) as [La' NNa]. destruct (Ka i a Ii1) as [w' [Ew Ww]]. replace w' with w in * by congruence.
    unfold G. cbn [fst snd].
    match goal with |- context [mapM ?f (seq 0 (length latw))] => set (G2 := f) end.
    destruct (mapM_okR _ _ G2 (fun j c => forall b, nth_error latw j = Some b -> c = (let cnt := sum nlon (fun c => (nth c a 0 * sum nlat (fun d => nth d b 0 * valid01 field (c * nlat + d)%nat))%Qc) in
            if Qcltb 0%Qc cnt then Some (sum nlon (fun c => (nth c a 0 * sum nlat (fun d => nth d b 0 * value_or0 field (c * nlat + d)%nat))%Qc) / cnt)%Qc else None)) (seq 0 (length latw))) as [r [E2 [L2 K2]]].
    - intros j J. apply in_seq in J. destruct (nth_some _ latw j) as [b B]; [lia|]. unfold G2.
      destruct (lon_step_ok tmp nlon j a (fun c => sum nlat (fun d => (nth d b 0 * value_or0 field (c * nlat + d)%nat)%Qc)) (fun c => sum nlat (fun d => (nth d b 0 * valid01 field (c * nlat + d)%nat)%Qc)) Lt) as [w2 [W2 S2]]; auto.
      + intros c C. unfold entry. destruct (Kt c c) as [line [El Kl]]; [apply nth_seq0; auto|]. rewrite El. apply Kl. auto.
      + replace w2 with w in * by congruence. rewrite S2. eexists. split; [reflexivity|]. intros b' B'. replace b' with b by congruence. auto.
    - exists r. rewrite seq_length in L2. split; auto. split; auto. intros j b B. destruct (K2 j j) as [c [Ec Rc]]; [apply nth_seq0; apply (nth_bound _ _ _ _ B)|]. rewrite Ec, (Rc b B). auto. }
  exists rows. split; auto. rewrite combine_length, La, Nat.min_id in Lr. split.
  - apply shaped_of; auto. intros i a Ha. destruct (Ka i a Ha) as [w [Ew _]]. destruct (Kr i (a, w)) as [r [E1 [E2 _]]]; [apply nth_combine; auto|]. eauto.
  - intros i j a b Ha Hb. destruct (Ka i a Ha) as [w [Ew _]]. destruct (Kr i (a, w)) as [r [E1 [_ E2]]]; [apply nth_combine; auto|]. unfold entry. rewrite E1. apply E2. auto.
Qed.
Lemma weight_sum nlon nlat field a b : sum nlon (fun c => (nth c a 0 * sum nlat (fun d => nth d b 0 * valid01 field (c * nlat + d)%nat))%Qc) = total_weight nlon nlat field (fun c => nth c a 0%Qc) (fun d => nth d b 0%Qc).
Proof.
  unfold total_weight. apply sum_ext. intros c C. rewrite <- sum_scale. apply sum_ext. intros d D. unfold valid01. unfold cell in *. destruct (nth_error field (c * nlat + d)) as [[v|]|]; ring.
Qed.
Lemma value_sum nlon nlat field a b : sum nlon (fun c => (nth c a 0 * sum nlat (fun d => nth d b 0 * value_or0 field (c * nlat + d)%nat))%Qc) = total_value nlon nlat field (fun c => nth c a 0%Qc) (fun d => nth d b 0%Qc).
Proof.
  unfold total_value. apply sum_ext. intros c C. rewrite <- sum_scale. apply sum_ext. intros d D. unfold value_or0. unfold cell in *. destruct (nth_error field (c * nlat + d)) as [[v|]|]; ring.
Qed.
Lemma plane_mean nlon nlat field lonw latw : length field = nlon * nlat -> nonneg_rows lonw nlon -> nonneg_rows latw nlat ->
  exists rows, regrid_plane nlon nlat field lonw latw = Some rows /\ shaped rows (length lonw) (length latw) /\
    forall i j a b, nth_error lonw i = Some a -> nth_error latw j = Some b -> exists r, entry rows i j = Some r /\ mean_at nlon nlat field (fun c => nth c a 0%Qc) (fun d => nth d b 0%Qc) r.
Proof.
  intros L Na Nb. destruct (plane_ok nlon nlat field lonw latw L Na Nb) as [rows [E [S K]]]. exists rows. split; auto. split; auto. intros i j a b Ha Hb. specialize (K i j a b Ha Hb). eexists. split; [exact K|].
  cbn zeta. rewrite weight_sum, value_sum. unfold mean_at. destruct (Qcltb_spec 0%Qc (total_weight nlon nlat field (fun c => nth c a 0%Qc) (fun d => nth d b 0%Qc))); [left; auto|right; split; auto; apply Qcnot_lt_le; auto].
Qed.
