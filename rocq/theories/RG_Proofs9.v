From Coq Require Import Sorted.
From Verif Require Import Base Buffer Loops VH_Model VH_Proofs VH_Proofs3 LI_Proofs TG_Model TG_Proofs2 RG_Model RG_Spec RG_Proofs RG_Proofs2 RG_Proofs3 RG_Proofs4 RG_Proofs5 RG_Proofs6 RG_Proofs7 RG_Proofs8.
Local Open Scope nat_scope.

(** * The mean *)
Lemma weight_nonneg nlon nlat field a b : (forall c, (0 <= a c)%Qc) -> (forall d, (0 <= b d)%Qc) -> (0 <= total_weight nlon nlat field a b)%Qc.
Proof.
  intros A B. apply sum_nonneg. intros c _. apply sum_nonneg. intros d _. destruct (nth_error field (c * nlat + d)) as [[v|]|]; try discriminate. apply Qcmul_nonneg; auto.
Qed.
Lemma sum_zero_inv n f : (forall i, i < n -> (0 <= f i)%Qc) -> (sum n f <= 0)%Qc -> forall i, i < n -> f i = 0%Qc.
Proof.
  intros NN Z i I. apply Qcle_antisym; auto. apply Qcle_trans with (sum n f); auto. assert (E : sum n (fun k => if k =? i then f i else 0%Qc) = f i) by (rewrite (sum_pick _ i); auto; [rewrite Nat.eqb_refl; auto|intros k _ N; destruct (Nat.eqb_spec k i); auto; contradiction]).
  rewrite <- E at 1. apply sum_le. intros k K. destruct (Nat.eqb_spec k i) as [->|]; [apply Qcle_refl|auto].
Qed.
Lemma mean_missing nlon nlat field a b r : (forall c, (0 <= a c)%Qc) -> (forall d, (0 <= b d)%Qc) -> mean_at nlon nlat field a b r ->
  (r = None <-> forall c d v, c < nlon -> d < nlat -> present field (c * nlat + d) v -> (a c * b d)%Qc = 0%Qc).
Proof.
  intros A B M. assert (I : forall c, c < nlon -> (0 <= sum nlat (fun d => match nth_error field (c * nlat + d) with Some (Some _) => (a c * b d)%Qc | _ => 0%Qc end))%Qc).
  { intros c _. apply sum_nonneg. intros d _. destruct (nth_error field (c * nlat + d)) as [[v|]|]; try discriminate. apply Qcmul_nonneg; auto. }
  destruct M as [[W ->]|[W ->]]; split; intros H; try discriminate; auto.
  - exfalso. revert W. apply Qcle_not_lt. unfold total_weight. rewrite sum_zero; [apply Qcle_refl|]. intros c C. apply sum_zero. intros d D. destruct (nth_error field (c * nlat + d)) as [[v|]|] eqn:E; auto. apply (H c d v); auto.
  - intros c d v C D P. unfold total_weight in W. pose proof (sum_zero_inv _ _ I W c C) as Z. cbn beta in Z.
    assert (Z' := sum_zero_inv nlat (fun d => match nth_error field (c * nlat + d) with Some (Some _) => (a c * b d)%Qc | _ => 0%Qc end)). cbn beta in Z'. rewrite Z in Z'.
    specialize (Z' ltac:(intros k _; destruct (nth_error field (c * nlat + k)) as [[u|]|]; try discriminate; apply Qcmul_nonneg; auto) (Qcle_refl _) d D). unfold present in P. rewrite P in Z'. auto.
Qed.
Lemma mean_range nlon nlat field a b r lo hi : (forall c, (0 <= a c)%Qc) -> (forall d, (0 <= b d)%Qc) -> (forall c d v, c < nlon -> d < nlat -> present field (c * nlat + d) v -> (lo <= v <= hi)%Qc) ->
  mean_at nlon nlat field a b (Some r) -> (lo <= r <= hi)%Qc.
Proof.
  intros A B H [[W E]|[_ E]]; [|discriminate]. injection E as ->.
  assert (T1 : (lo * total_weight nlon nlat field a b <= total_value nlon nlat field a b)%Qc).
  { unfold total_weight, total_value. rewrite <- sum_scale. apply sum_le. intros c C. rewrite <- sum_scale. apply sum_le. intros d D. destruct (nth_error field (c * nlat + d)) as [[v|]|] eqn:E; try (rewrite Qcmult_0_r; apply Qcle_refl).
    destruct (H c d v C D E) as [H1 _]. rewrite (Qcmult_comm lo), <- (Qcmult_comm v). rewrite (Qcmult_comm (a c * b d)%Qc). apply Qcmult_le_compat_r; auto. apply Qcmul_nonneg; auto. }
  assert (T2 : (total_value nlon nlat field a b <= hi * total_weight nlon nlat field a b)%Qc).
  { unfold total_weight, total_value. rewrite <- sum_scale. apply sum_le. intros c C. rewrite <- sum_scale. apply sum_le. intros d D. destruct (nth_error field (c * nlat + d)) as [[v|]|] eqn:E; try (rewrite Qcmult_0_r; apply Qcle_refl).
    destruct (H c d v C D E) as [_ H2]. rewrite <- (Qcmult_comm v). apply Qcmult_le_compat_r; auto. apply Qcmul_nonneg; auto. }
  set (w := total_weight nlon nlat field a b) in *. set (t := total_value nlon nlat field a b) in *. clearbody w t.
  assert (E : (t / w * w = t)%Qc) by (field; apply Qcpos_neq; auto).
  split; apply Qcmult_lt_0_le_reg_r with w; auto; rewrite E; auto.
Qed.
Lemma mean_full nlon nlat field F a b r : holds nlon nlat field F -> sum nlon a = 1%Qc -> sum nlat b = 1%Qc -> mean_at nlon nlat field a b r ->
  r = Some (sum nlon (fun c => (a c * sum nlat (fun d => b d * F c d))%Qc)).
Proof.
  intros [L H] A B M. assert (W : total_weight nlon nlat field a b = 1%Qc).
  { unfold total_weight. rewrite (sum_ext _ _ (fun c => (sum nlat b * a c)%Qc)).
    - rewrite sum_scale, A, B. ring.
    - intros c C. rewrite B. rewrite (sum_ext _ _ (fun d => (a c * b d)%Qc)); [rewrite sum_scale, B; ring|]. intros d D. rewrite H; auto. }
  assert (V : total_value nlon nlat field a b = sum nlon (fun c => (a c * sum nlat (fun d => b d * F c d))%Qc)).
  { unfold total_value. apply sum_ext. intros c C. rewrite <- sum_scale. apply sum_ext. intros d D. rewrite H by auto. ring. }
  unfold mean_at in M. rewrite W, V in M. destruct M as [[_ ->]|[X _]]; [|exfalso; revert X; apply Qclt_not_le; reflexivity]. f_equal. field. discriminate.
Qed.

(** * The fallback *)
Lemma nth_get (f : list cell) k : nth k f None = match nth_error f k with Some c => c | None => None end.
Proof. revert k. induction f as [|a f IH]; intros [|k]; simpl; auto. Qed.
Lemma einsum_value nlon nlat field a b : einsum nlon nlat (fun k => match nth k field None with Some v => v | None => 0%Qc end) a b = total_value nlon nlat field (fun c => nth c a 0%Qc) (fun d => nth d b 0%Qc).
Proof.
  unfold einsum, total_value, sum. apply qsum_ext. intros c _. apply qsum_ext. intros d _. rewrite nth_get. unfold cell in *. destruct (nth_error field (c * nlat + d)) as [[v|]|]; ring.
Qed.
Lemma einsum_weight nlon nlat field a b : einsum nlon nlat (fun k => match nth k field None with Some _ => 1%Qc | None => 0%Qc end) a b = total_weight nlon nlat field (fun c => nth c a 0%Qc) (fun d => nth d b 0%Qc).
Proof.
  unfold einsum, total_weight, sum. apply qsum_ext. intros c _. apply qsum_ext. intros d _. rewrite nth_get. unfold cell in *. destruct (nth_error field (c * nlat + d)) as [[v|]|]; ring.
Qed.
Lemma nth_nonneg (r : list Qc) : (forall w, In w r -> (0 <= w)%Qc) -> forall i, (0 <= nth i r 0)%Qc.
Proof. intros H i. destruct (nth_in_or_default i r 0%Qc) as [I| ->]; [auto|discriminate]. Qed.
Lemma mean_unique nlon nlat field a b r r' : mean_at nlon nlat field a b r -> mean_at nlon nlat field a b r' -> r = r'.
Proof. intros [[A ->]|[A ->]] [[B ->]|[B ->]]; auto; exfalso; revert A; [apply Qcle_not_lt|apply Qclt_not_le]; auto. Qed.
Lemma python_mean nlon nlat field lonw latw i j a b : nonneg_rows lonw nlon -> nonneg_rows latw nlat -> nth_error lonw i = Some a -> nth_error latw j = Some b ->
  exists r, entry (python_nanmean nlon nlat field lonw latw) i j = Some r /\ mean_at nlon nlat field (fun c => nth c a 0%Qc) (fun d => nth d b 0%Qc) r.
Proof.
  intros Na Nb Ha Hb. unfold python_nanmean. eexists. split; [apply (entry_map _ _ _ (fun a b => let total := einsum nlon nlat (fun k => match nth k field None with Some v => v | None => 0%Qc end) a b in
         let count := einsum nlon nlat (fun k => match nth k field None with Some _ => 1%Qc | None => 0%Qc end) a b in
         if Qceqb count 0%Qc then None else Some (total / count)%Qc)); eauto|]. cbn zeta. rewrite einsum_value, einsum_weight.
  destruct (Na a (nth_error_In _ _ Ha)) as [_ Pa]. destruct (Nb b (nth_error_In _ _ Hb)) as [_ Pb].
  pose proof (weight_nonneg nlon nlat field _ _ (nth_nonneg a Pa) (nth_nonneg b Pb)) as W. unfold mean_at.
  destruct (Qceqb_spec (total_weight nlon nlat field (fun c => nth c a 0%Qc) (fun d => nth d b 0%Qc)) 0%Qc) as [Z|Z].
  - right. rewrite Z. split; [apply Qcle_refl|auto].
  - left. split; auto. apply Qcle_lt_or_eq in W. destruct W as [W|W]; auto. symmetry in W. contradiction.
Qed.

(** * Nearest *)
Definition code (nlat : nat) (p : nat * nat) : nat := fst p * nlat + snd p.
Lemma pairs_codes nlat n : forall a, map (code nlat) (flat_map (fun i => map (fun j => (i, j)) (seq 0 nlat)) (seq a n)) = seq (a * nlat) (n * nlat).
Proof.
  induction n as [|n IH]; intros a; cbn [seq flat_map]; auto. rewrite map_app, IH, map_map. replace (Datatypes.S n * nlat) with (nlat + n * nlat) by lia. rewrite seq_app. f_equal; [|f_equal; lia].
  unfold code. cbn [fst snd]. clear. assert (G : forall m z s, map (fun x => z + x) (seq s m) = seq (z + s) m).
  { induction m as [|m IH]; intros z s; cbn [seq map]; auto. f_equal. rewrite IH. f_equal. lia. }
  rewrite (G nlat (a * nlat) 0). f_equal. lia.
Qed.
Definition sc (score : nat -> nat -> Qc) (p : nat * nat) : Qc := score (fst p) (snd p).
Definition best_in (nlat : nat) (score : nat -> nat -> Qc) (l : list (nat * nat)) (b : nat * Qc) : Prop :=
  exists p, In p l /\ b = (code nlat p, sc score p) /\ forall q, In q l -> (sc score q <= sc score p)%Qc /\ (code nlat q < code nlat p -> (sc score q < sc score p)%Qc).
Definition nearest_step (nlat : nat) (score : nat -> nat -> Qc) (best : nat * Qc) (p : nat * nat) :=
  if Qcltb (snd best) (sc score p) || (Qcleb (qcabs (sc score p - snd best)%Qc) tiny && (code nlat p <? fst best)) then (code nlat p, sc score p) else best.
Lemma nearest_fold nlat score rest : forall l b, best_in nlat score l b -> (forall p q, In p l -> In q rest -> code nlat p < code nlat q) -> StronglySorted (fun p q => code nlat p < code nlat q) rest ->
  best_in nlat score (l ++ rest) (fold_left (nearest_step nlat score) rest b).
Proof.
  induction rest as [|x rest IH]; intros l b H S1 S2; cbn [fold_left]; [rewrite app_nil_r; auto|].
  replace (l ++ x :: rest) with ((l ++ [x]) ++ rest) by (rewrite <- app_assoc; auto). apply StronglySorted_inv in S2. destruct S2 as [S2 S3]. rewrite Forall_forall in S3. apply IH; auto.
  - destruct H as [p [Ip [-> H]]]. unfold nearest_step. cbn [fst snd]. assert (C : code nlat p < code nlat x) by (apply S1; simpl; auto). destruct (Nat.ltb_spec (code nlat x) (code nlat p)); [lia|]. rewrite andb_false_r, orb_false_r.
    destruct (Qcltb_spec (sc score p) (sc score x)) as [L|L].
    + exists x. split; [apply in_or_app; right; left; auto|]. split; auto. intros q Iq. apply in_app_or in Iq. destruct Iq as [Iq|[<-|[]]].
      * destruct (H q Iq) as [H1 _]. split; [apply Qclt_le_weak; apply Qcle_lt_trans with (sc score p); auto|]. intros _. apply Qcle_lt_trans with (sc score p); auto.
      * split; [apply Qcle_refl|lia].
    + exists p. split; [apply in_or_app; auto|]. split; auto. intros q Iq. apply in_app_or in Iq. destruct Iq as [Iq|[<-|[]]]; auto. split; [apply Qcnot_lt_le; auto|lia].
  - intros p q Ip Iq. apply in_app_or in Ip. destruct Ip as [Ip|[<-|[]]]; [apply S1; simpl; auto|apply S3; auto].
Qed.
Lemma sorted_codes nlat l a n : map (code nlat) l = seq a n -> StronglySorted (fun p q => code nlat p < code nlat q) l.
Proof.
  revert a n. induction l as [|p l IH]; intros a n H; [constructor|]. destruct n as [|n]; [discriminate|]. cbn [map seq] in H. injection H as H1 H2. constructor; [apply (IH _ _ H2)|].
  apply Forall_forall. intros q Iq. rewrite H1. apply (in_map (code nlat)) in Iq. rewrite H2 in Iq. apply in_seq in Iq. lia.
Qed.
Lemma nearest_ok nlon nlat score : 0 < nlon -> 0 < nlat -> (forall i j, i < nlon -> j < nlat -> (- qz 2 < score i j)%Qc) ->
  exists i j, i < nlon /\ j < nlat /\ nearest_index_of nlon nlat score = i * nlat + j /\
    forall i' j', i' < nlon -> j' < nlat -> (score i' j' <= score i j)%Qc /\ (i' * nlat + j' < i * nlat + j -> (score i' j' < score i j)%Qc).
Proof.
  intros Hi Hj S. unfold nearest_index_of. change (fun (best : nat * Qc) (p : nat * nat) => _) with (nearest_step nlat score).
  pose proof (pairs_codes nlat nlon 0) as C. set (pairs := flat_map (fun i => map (fun j => (i, j)) (seq 0 nlat)) (seq 0 nlon)) in *.
  assert (M : forall p, In p pairs <-> fst p < nlon /\ snd p < nlat).
  { intros [i j]. unfold pairs. rewrite in_flat_map. split.
    - intros [x [Ix Iy]]. apply in_seq in Ix. apply in_map_iff in Iy. destruct Iy as [y [E Iy]]. apply in_seq in Iy. injection E as <- <-. simpl. lia.
    - intros [A B]. simpl in *. exists i. split; [apply in_seq; lia|]. apply in_map_iff. exists j. split; auto. apply in_seq. lia. }
  pose proof (sorted_codes _ _ _ _ C) as Srt. destruct pairs as [|x rest] eqn:Ep.
  { exfalso. apply (proj2 (M (0, 0))). simpl. auto. }
  assert (X0 : code nlat x = 0). { assert (L := C). cbn [map] in L. destruct (nlon * nlat) eqn:Q; [nia|]. cbn [seq] in L. injection L as L _. lia. }
  apply StronglySorted_inv in Srt. destruct Srt as [S1 S2]. rewrite Forall_forall in S2. cbn [fold_left].
  assert (B : best_in nlat score (x :: nil) (nearest_step nlat score (0, (- qz 2)%Qc) x)).
  { destruct (proj1 (M x)) as [x1 x2]; [left; auto|]. exists x. split; [left; auto|]. split.
    - unfold nearest_step, sc. cbn [fst snd]. specialize (S (fst x) (snd x) x1 x2). destruct (Qcltb_spec (- qz 2)%Qc (score (fst x) (snd x))); [auto|contradiction].
    - intros q [<-|[]]. split; [apply Qcle_refl|lia]. }
  destruct (nearest_fold nlat score rest (x :: nil) _ B) as [p [Ip [E H]]]; auto.
  { intros p q [<-|[]] Iq. apply S2. auto. }
  simpl in Ip. destruct (proj1 (M p)) as [p1 p2]; [simpl; tauto|]. exists (fst p), (snd p). split; auto. split; auto. split; [rewrite E; auto|].
  intros i' j' I J. apply (H (i', j')). apply M. auto.
Qed.
