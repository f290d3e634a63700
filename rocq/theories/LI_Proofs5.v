From Verif Require Import Base Buffer Loops VH_Model VH_Spec VH_Proofs LM_Proofs IS_Proofs LI_Model LI_Spec LI_Proofs LI_Proofs2 LI_Proofs3 LI_Proofs4.
Local Open Scope nat_scope.

(** ** Cells *)
Lemma cell_loop_ok x t : forall fuel lo hi a b, hi - lo <= fuel -> 1 <= lo < hi -> rd x lo = Some a -> rd x hi = Some b -> (a <= t)%Qc -> (t < b)%Qc ->
  exists k a' b', cell_loop fuel x t lo hi = Some k /\ 1 <= k /\ rd x k = Some a' /\ rd x (k + 1) = Some b' /\ (a' <= t)%Qc /\ (t < b')%Qc.
Proof.
  induction fuel as [|fuel IH]; intros lo hi a b Hf Hl A B HA HB; [lia|]. cbn [cell_loop]. destruct (Nat.ltb_spec 1 (hi - lo)) as [C|C].
  - pose proof (rd_Some_bounds _ _ B) as BB. pose proof (Nat.div_mod (lo + hi) 2 ltac:(lia)) as DM. pose proof (Nat.mod_upper_bound (lo + hi) 2 ltac:(lia)) as MU.
    set (mid := (lo + hi) / 2) in *. destruct (rd_Some x (i := mid)) as [y Y]; [lia|]. rewrite Y. cbn [bind]. destruct (Qcleb_spec y t) as [D|D].
    + apply (IH mid hi y b); auto; lia.
    + apply (IH lo mid a y); auto; try lia. apply Qcnot_le_lt. auto.
  - exists lo, a, b. split; auto. split; [lia|]. replace (lo + 1) with hi by lia. auto.
Qed.
Lemma cell_of_ok x t : goes_up x -> 2 <= length x ->
  (exists k a b, cell_of x t = Some (k + 1) /\ in_cell x t k a b) \/ (cell_of x t = Some 0 /\ forall k a b, ~ in_cell x t k a b).
Proof.
  intros G H2. unfold cell_of. destruct (rd_Some x (i := 1)) as [a A]; [lia|]. destruct (rd_Some x (i := length x)) as [b B]; [lia|]. rewrite A, B. cbn [bind].
  destruct (Qcleb_spec a t) as [C|C], (Qcltb_spec t b) as [D|D]; cbn [andb].
  - destruct (cell_loop_ok x t (length x + 1) 1 (length x) a b) as [k [a' [b' [E [K1 [K2 [K3 [K4 K5]]]]]]]]; auto; try lia. left. exists (k - 1), a', b'. split; [rewrite E; f_equal; lia|].
    rewrite rd_nth in K2, K3 by lia. unfold in_cell. replace (k - 1 + 1) with (k + 1 - 1) by lia. auto.
  - right. split; auto. intros k p q [P [Q [P1 Q1]]]. apply D. assert (k + 1 < length x) by (apply nth_error_Some; congruence). rewrite rd_nth in B by lia.
    destruct (Nat.eq_dec (k + 1) (length x - 1)) as [E|E]; [rewrite E in Q; congruence|]. apply Qclt_trans with q; auto. apply (G (k + 1) (length x - 1)); auto. lia.
  - right. split; auto. intros k p q [P [Q [P1 Q1]]]. apply C. assert (k < length x) by (apply nth_error_Some; congruence). rewrite rd_nth in A by lia. cbn [Nat.sub] in A.
    destruct (Nat.eq_dec k 0) as [->|]; [congruence|]. apply Qcle_trans with p; auto. apply Qclt_le_weak. apply (G 0 k); auto. lia.
  - right. split; auto. intros k p q [P [Q [P1 Q1]]]. apply C. assert (k < length x) by (apply nth_error_Some; congruence). rewrite rd_nth in A by lia. cbn [Nat.sub] in A.
    destruct (Nat.eq_dec k 0) as [->|]; [congruence|]. apply Qcle_trans with p; auto. apply Qclt_le_weak. apply (G 0 k); auto. lia.
Qed.
Lemma cell_unique x t i j a b c d : goes_up x -> in_cell x t i a b -> in_cell x t j c d -> i = j.
Proof.
  intros G [A [B [H1 H2]]] [C [D [K1 K2]]]. destruct (Nat.lt_trichotomy i j) as [H|[H|H]]; auto; exfalso.
  - assert (b <= c)%Qc. { destruct (Nat.eq_dec (i + 1) j) as [<-|]; [rewrite B in C; injection C as <-; apply Qcle_refl|]. apply Qclt_le_weak, (G (i + 1) j); auto. lia. } qclra.
  - assert (d <= a)%Qc. { destruct (Nat.eq_dec (j + 1) i) as [<-|]; [rewrite D in A; injection A as <-; apply Qcle_refl|]. apply Qclt_le_weak, (G (j + 1) i); auto. lia. } qclra.
Qed.

Section Pts.
Variable isq : Qc -> Qc.
Hypothesis isq_pos : forall d, (0 < d)%Qc -> (0 < isq d)%Qc.
Lemma sq_nonneg (a : Qc) : (0 <= a * a)%Qc.
Proof. destruct (Qcleb_spec 0 a) as [H|H]; [apply Qcmul_nonneg; auto|]. apply Qcnot_le_lt in H. replace (a * a)%Qc with ((0 - a) * (0 - a))%Qc by ring. apply Qcmul_nonneg; qclra. Qed.
Lemma sq_pos (a : Qc) : a <> 0%Qc -> (0 < a * a)%Qc.
Proof. intros N. destruct (Qc_total a 0) as [H|[H|H]]; [|contradiction|apply Qcmul_pos; auto]. replace (a * a)%Qc with ((0 - a) * (0 - a))%Qc by ring. apply Qcmul_pos; qclra. Qed.
Lemma dist_pos (a b x y : Qc) : ~ (a = x /\ b = y) -> (0 < (a - x) * (a - x) + (b - y) * (b - y))%Qc.
Proof.
  intros N. pose proof (sq_nonneg (a - x)) as H1. pose proof (sq_nonneg (b - y)) as H2. destruct (Qceqb_spec a x) as [E|E].
  - assert (E2 : (b - y)%Qc <> 0%Qc). { intros K. apply N. split; auto. replace b with (b - y + y)%Qc by ring. rewrite K. ring. } pose proof (sq_pos _ E2) as H3.
    set (p := ((a - x) * (a - x))%Qc) in *. set (q := ((b - y) * (b - y))%Qc) in *. clearbody p q. qclra.
  - assert (E2 : (a - x)%Qc <> 0%Qc). { intros K. apply E. replace a with (a - x + x)%Qc by ring. rewrite K. ring. } pose proof (sq_pos _ E2) as H3.
    set (p := ((a - x) * (a - x))%Qc) in *. set (q := ((b - y) * (b - y))%Qc) in *. clearbody p q. qclra.
Qed.
Definition acc_step m (acc : Qc * Qc) (fw : Qc * Qc) : Qc * Qc := if Qceqb (fst fw) m then acc else (fst acc + fst fw * snd fw, snd acc + snd fw)%Qc.
Lemma acc_fold m l : forall a b, fold_left (acc_step m) l (a, b) =
  (a + qsum (map (fun c => fst c * snd c)%Qc (filter (fun c => negb (fst c =? m)%Qc) l)), b + qsum (map snd (filter (fun c => negb (fst c =? m)%Qc) l)))%Qc.
Proof.
  induction l as [|[f w] l IH]; intros a b; simpl; [unfold qsum; simpl; rewrite !Qcplus_0_r; auto|]. unfold acc_step at 2. cbn [fst snd]. destruct (Qceqb f m); simpl; [apply IH|]. rewrite IH. unfold qsum. simpl. f_equal; ring.
Qed.
Lemma qsum_pos l : l <> [] -> (forall v, In v l -> (0 < v)%Qc) -> (0 < qsum l)%Qc.
Proof.
  destruct l as [|a l]; [congruence|]. intros _ H. assert (P : (0 <= qsum l)%Qc).
  { assert (H' : forall v, In v l -> (0 < v)%Qc) by (intros; apply H; simpl; auto). clear H. induction l as [|b l IH]; [apply Qcle_refl|]. change (qsum (b :: l)) with (b + qsum l)%Qc.
    pose proof (H' b ltac:(simpl; auto)). assert (0 <= qsum l)%Qc by (apply IH; intros; apply H'; simpl; auto). qclra. }
  pose proof (H a ltac:(simpl; auto)). change (qsum (a :: l)) with (a + qsum l)%Qc. qclra.
Qed.
Definition corner_list (f00 f10 f01 f11 x0 x1 y0 y1 : Qc) : list (Qc * (Qc * Qc)) := [(f00, (x0, y0)); (f10, (x1, y0)); (f01, (x0, y1)); (f11, (x1, y1))].
Definition weight x y (c : Qc * (Qc * Qc)) : Qc := isq ((fst (snd c) - x) * (fst (snd c) - x) + (snd (snd c) - y) * (snd (snd c) - y))%Qc.
Lemma filter_map_fst m x y (l : list (Qc * (Qc * Qc))) :
  filter (fun c => negb (fst c =? m)%Qc) (map (fun c => (fst c, weight x y c)) l) = map (fun c => (fst c, weight x y c)) (filter (fun c => negb (fst c =? m)%Qc) l).
Proof. induction l as [|c l IH]; simpl; auto. destruct (negb _); simpl; rewrite IH; auto. Qed.
Lemma estfow_ok f00 f10 f01 f11 x0 x1 y0 y1 x y m : ~ (x = x0 /\ y = y0) -> (x < x1)%Qc -> (y < y1)%Qc -> (f00 <> m \/ f10 <> m \/ f01 <> m \/ f11 <> m) ->
  weighted isq m x y (corner_list f00 f10 f01 f11 x0 x1 y0 y1) (estfow isq f00 f10 f01 f11 x0 x1 y0 y1 x y m).
Proof.
  intros N HX HY V. unfold weighted. change (fun c : Qc * (Qc * Qc) => isq _) with (weight x y). set (C := corner_list f00 f10 f01 f11 x0 x1 y0 y1). set (T := filter (fun c => negb (fst c =? m)%Qc) C).
  assert (SUMS : fold_left (acc_step m) (map (fun c => (fst c, weight x y c)) C) (0, 0)%Qc = (qsum (map (fun c => fst c * weight x y c)%Qc T), qsum (map (weight x y) T))).
  { rewrite acc_fold, filter_map_fst. fold T. rewrite !map_map. cbn [fst snd]. rewrite !Qcplus_0_l. reflexivity. }
  assert (NE : T <> []). { intros E. assert (A : forall c, In c C -> fst c = m). { intros c Hc. destruct (Qceqb_spec (fst c) m) as [|F]; auto. assert (In c T) as HT by (apply filter_In; split; auto; destruct (Qceqb_spec (fst c) m); auto; contradiction). rewrite E in HT. destruct HT. }
    pose proof (A (f00, (x0, y0)) ltac:(simpl; auto)). pose proof (A (f10, (x1, y0)) ltac:(simpl; auto)). pose proof (A (f01, (x0, y1)) ltac:(simpl; auto)). pose proof (A (f11, (x1, y1)) ltac:(simpl; auto 6)). simpl in *. tauto. }
  assert (POS : (0 < qsum (map (weight x y) T))%Qc).
  { apply qsum_pos. { destruct T; [congruence|discriminate]. } intros v Hv. apply in_map_iff in Hv. destruct Hv as [c [<- Hc]]. apply filter_In in Hc. destruct Hc as [Hc _]. apply isq_pos, dist_pos.
    destruct Hc as [<-|[<-|[<-|[<-|[]]]]]; simpl; intros [E1 E2]; subst; try (apply N; auto; fail); try (apply (Qclt_irrefl _ HX)); apply (Qclt_irrefl _ HY). }
  unfold estfow. destruct (Qceqb f00 m && Qceqb f10 m && Qceqb f01 m && Qceqb f11 m) eqn:ALL.
  { rewrite !andb_true_iff in ALL. destruct ALL as [[[A1 A2] A3] A4]. destruct (Qceqb_spec f00 m), (Qceqb_spec f10 m), (Qceqb_spec f01 m), (Qceqb_spec f11 m); try discriminate. tauto. }
  match goal with |- context [fold_left ?g ?l ?z] => change (fold_left g l z) with (fold_left (acc_step m) (map (fun c => (fst c, weight x y c)) C) (0, 0)%Qc) end.
  rewrite SUMS. cbn [fst snd]. destruct (Qcltb_spec 0 (qsum (map (weight x y) T))) as [P|P]; [|contradiction].
  unfold Qcdiv. rewrite <- Qcmult_assoc, (Qcmult_comm (/ _)), Qcmult_inv_r by (apply Qcpos_neq; auto). apply Qcmult_1_r.
Qed.
Lemma entry_get fi i j : entry fi i j = (let* row := rd fi (j + 1) in rd row (i + 1)).
Proof. unfold entry. rewrite nth_rd. destruct (rd fi (j + 1)); cbn [bind]; auto. apply nth_rd. Qed.
Lemma point_ok xs ys fi m x y : goes_up xs -> goes_up ys -> 2 <= length xs -> 2 <= length ys -> length fi = length ys -> (forall row, In row fi -> length row = length xs) ->
  exists v, point_value isq xs ys fi m x y = Some v /\ point_at isq xs ys fi m x y v.
Proof.
  intros GX GY HX HY LF LR. unfold point_value.
  assert (ENT : forall i j, i < length xs -> j < length ys -> exists v, entry fi i j = Some v /\ (let* row := rd fi (j + 1) in rd row (i + 1)) = Some v).
  { intros i j Hi Hj. rewrite <- entry_get. unfold entry. destruct (nth_error fi j) as [row|] eqn:E; [|apply nth_error_None in E; lia]. apply nth_error_In in E. apply LR in E. destruct (nth_error row i) as [v|] eqn:E2; [eauto|apply nth_error_None in E2; lia]. }
  destruct (cell_of_ok xs x GX HX) as [[i [x0 [x1 [EX CX]]]]|[EX CX]]; rewrite EX; cbn [bind];
  destruct (cell_of_ok ys y GY HY) as [[j [y0 [y1 [EY CY]]]]|[EY CY]]; rewrite EY; cbn [bind];
    try (eexists; split; [rewrite ?orb_true_r; reflexivity|]; apply pa_outside; auto; fail).
  destruct (Nat.eqb_spec (i + 1) 0); [lia|]. destruct (Nat.eqb_spec (j + 1) 0); [lia|]. cbn [orb].
  pose proof CX as CX'. pose proof CY as CY'. destruct CX' as [X0 [X1 [LX HX1]]], CY' as [Y0 [Y1 [LY HY1]]].
  assert (Bi : i + 1 < length xs) by (apply nth_error_Some; congruence). assert (Bj : j + 1 < length ys) by (apply nth_error_Some; congruence).
  destruct (ENT i j) as [f00 [E00 R00]]; try lia. destruct (ENT (i + 1) j) as [f10 [E10 R10]]; try lia. destruct (ENT i (j + 1)) as [f01 [E01 R01]]; try lia. destruct (ENT (i + 1) (j + 1)) as [f11 [E11 R11]]; try lia.
  rewrite nth_rd in X0, X1, Y0, Y1. rewrite X0, Y0, R00. cbn [bind].
  destruct (Qceqb_spec x x0) as [EX0|EX0]; [destruct (Qceqb_spec y y0) as [EY0|EY0]|].
  { cbn [andb]. subst. exists f00. split; auto. eapply pa_corner; eauto. }
  all: assert (MM : Qceqb m m = true) by (destruct (Qceqb_spec m m); congruence).
  all: cbn [andb]; rewrite X1, Y1, R10, R01, R11; cbn [bind]; assert (NN : ~ (x = x0 /\ y = y0)) by tauto;
    destruct (Qceqb_spec f00 m) as [A1|A1], (Qceqb_spec f10 m) as [A2|A2], (Qceqb_spec f01 m) as [A3|A3], (Qceqb_spec f11 m) as [A4|A4]; cbn [negb andb];
    (eexists; split; [reflexivity|]);
    first
    [ match goal with |- context [estfow] => idtac end;
      first [ (unfold estfow; subst; rewrite !MM; eapply pa_empty; eassumption)
            | (eapply (pa_weighted isq xs ys fi m x y i j x0 x1 y0 y1 f00 f10 f01 f11); eauto; try tauto; apply estfow_ok; auto; tauto) ]
    | replace (f00 + (x - x0) / (x1 - x0) * (f10 - f00) + (y - y0) / (y1 - y0) * (f01 + (x - x0) / (x1 - x0) * (f11 - f01) - (f00 + (x - x0) / (x1 - x0) * (f10 - f00))))%Qc
        with (along (along f00 f10 (linear_part x x0 x1)) (along f01 f11 (linear_part x x0 x1)) (linear_part y y0 y1)) by (unfold along, linear_part, Qcdiv; ring);
      eapply pa_bilinear; eauto ].
Qed.
End Pts.
