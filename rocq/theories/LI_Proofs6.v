From Verif Require Import Base Buffer Loops VH_Model VH_Spec VH_Proofs LM_Proofs IS_Proofs LI_Model LI_Spec LI_Proofs LI_Proofs2 LI_Proofs3 LI_Proofs4 LI_Proofs5.
Local Open Scope nat_scope.

(** ** Ranges *)
Lemma Qcmul_le_reg_r x y z : (0 < z)%Qc -> (x * z <= y * z)%Qc -> (x <= y)%Qc.
Proof.
  intros P H. destruct (Qcleb_spec x y) as [|C]; auto. exfalso. apply Qcnot_le_lt in C. assert (Q : (0 < (x - y) * z)%Qc) by (apply Qcmul_pos; qclra).
  replace ((x - y) * z)%Qc with (x * z - y * z)%Qc in Q by ring. set (p := (x * z)%Qc) in *. set (q := (y * z)%Qc) in *. clearbody p q. qclra.
Qed.
Lemma along_range (lo hi a b w : Qc) : (lo <= a)%Qc -> (a <= hi)%Qc -> (lo <= b)%Qc -> (b <= hi)%Qc -> (0 <= w)%Qc -> (w <= 1)%Qc -> (lo <= along a b w)%Qc /\ (along a b w <= hi)%Qc.
Proof.
  intros H1 H2 H3 H4 W0 W1. unfold along. split.
  - assert (P1 : (0 <= w * (b - lo))%Qc) by (apply Qcmul_nonneg; auto; qclra). assert (P2 : (0 <= (1 - w) * (a - lo))%Qc) by (apply Qcmul_nonneg; qclra).
    replace (a + (b - a) * w)%Qc with (lo + w * (b - lo) + (1 - w) * (a - lo))%Qc by ring. set (p := (w * _)%Qc) in *. set (q := ((1 - w) * _)%Qc) in *. clearbody p q. qclra.
  - assert (P1 : (0 <= w * (hi - b))%Qc) by (apply Qcmul_nonneg; auto; qclra). assert (P2 : (0 <= (1 - w) * (hi - a))%Qc) by (apply Qcmul_nonneg; qclra).
    replace (a + (b - a) * w)%Qc with (hi - w * (hi - b) - (1 - w) * (hi - a))%Qc by ring. set (p := (w * _)%Qc) in *. set (q := ((1 - w) * _)%Qc) in *. clearbody p q. qclra.
Qed.
Lemma part_range t a b : (a <= t)%Qc -> (t < b)%Qc -> (0 <= linear_part t a b)%Qc /\ (linear_part t a b <= 1)%Qc.
Proof.
  intros H1 H2. unfold linear_part, Qcdiv. assert (P : (0 < b - a)%Qc) by qclra. pose proof (Qcinv_pos P) as I. split; [apply Qcmul_nonneg; qclra|].
  assert (0 <= (b - t) * / (b - a))%Qc by (apply Qcmul_nonneg; qclra). replace ((t - a) * / (b - a))%Qc with (1 - (b - t) * / (b - a))%Qc by (field; apply Qcpos_neq; auto).
  set (p := ((b - t) * _)%Qc) in *. clearbody p. qclra.
Qed.
Lemma part_range' t a b : strictly_between t a b -> (0 <= linear_part t a b)%Qc /\ (linear_part t a b <= 1)%Qc.
Proof.
  intros [[H1 H2]|[H1 H2]]; [apply part_range; qclra|]. pose proof (part_range t b a ltac:(qclra) ltac:(qclra)) as [P Q].
  assert (D : (0 < a - b)%Qc) by qclra. apply Qcpos_neq in D.
  assert (D' : (b - a)%Qc <> 0%Qc). { intros E. apply D. replace (a - b)%Qc with (0 - (b - a))%Qc by ring. rewrite E. ring. }
  replace (linear_part t a b) with (1 - linear_part t b a)%Qc; [set (l := linear_part t b a) in *; clearbody l; split; qclra|].
  unfold linear_part. field. auto.
Qed.
Lemma linear_at_range xs fs m t v lo hi : (forall f, In f fs -> f <> m -> (lo <= f)%Qc /\ (f <= hi)%Qc) -> linear_at xs fs m t v -> v = m \/ ((lo <= v)%Qc /\ (v <= hi)%Qc).
Proof.
  intros H L. destruct L as [i f A B|i a b c d A B C D S N1 N2|i a b c d A B C D S N1|O]; auto.
  - destruct (Qceqb_spec f m); auto. right. apply H; auto. eapply nth_error_In; eauto.
  - right. destruct (H c) as [C1 C2]; auto; [eapply nth_error_In; eauto|]. destruct (H d) as [D1 D2]; auto; [eapply nth_error_In; eauto|].
    destruct (part_range' _ _ _ S) as [W0 W1]. apply along_range; auto.
Qed.
Lemma source_values cy drop m xs fs W f : source cy drop m xs fs W -> In f (map snd W) -> In f fs.
Proof.
  assert (P : forall p, In p (points drop m xs fs) -> In (snd p) fs).
  { intros [a b] H. unfold points in H. destruct drop; [apply filter_In in H; destruct H as [H _]|]; apply in_combine_r in H; auto. }
  unfold source. destruct cy.
  - intros [p [q [x1 [x2 [xm [xn [A [B [_ [_ [_ [_ ->]]]]]]]]]]]] H. apply nth_error_In in A, B. cbn [map snd] in H. rewrite map_app in H. destruct H as [<-|H]; [exact (P _ B)|]. apply in_app_or in H. destruct H as [H|[<-|[]]]; [|exact (P _ A)].
    apply in_map_iff in H. destruct H as [r [<- H]]. auto.
  - intros -> H. apply in_map_iff in H. destruct H as [r [<- H]]. auto.
Qed.
Lemma grid_range cy drop m xs ys fi x y v lo hi : (forall row f, In row fi -> In f row -> f <> m -> (lo <= f)%Qc /\ (f <= hi)%Qc) -> grid_value cy drop m xs ys fi x y v ->
  v = m \/ ((lo <= v)%Qc /\ (v <= hi)%Qc).
Proof.
  intros H [g [R L]]. eapply linear_at_range; [|exact L]. intros f Hf N.
  assert (Hg : In f g). { eapply (source_values false drop m ys g); [reflexivity|auto]. }
  clear L Hf. induction R as [|row u fi g [W [SR LA]] R IH]; [destruct Hg|]. destruct Hg as [<-|Hg].
  - destruct (linear_at_range (map fst W) (map snd W) m x u lo hi) as [E|E]; [|exact LA|contradiction|exact E]. intros f0 Hf0 N0. apply (H row); simpl; auto. eapply source_values; eauto.
  - apply IH; auto. intros r f0 Hr. apply H. simpl. auto.
Qed.
Section Pts.
Variable isq : Qc -> Qc.
Hypothesis isq_pos : forall d, (0 < d)%Qc -> (0 < isq d)%Qc.
Lemma qsum_scale (A : Type) (w g : A -> Qc) lo l : (forall a, In a l -> (0 <= w a)%Qc) -> (forall a, In a l -> (lo <= g a)%Qc) -> (lo * qsum (map w l) <= qsum (map (fun a => g a * w a)%Qc l))%Qc.
Proof.
  intros W G. induction l as [|a l IH]; [unfold qsum; simpl; rewrite Qcmult_0_r; apply Qcle_refl|]. change (qsum (map w (a :: l))) with (w a + qsum (map w l))%Qc. change (qsum (map (fun a => g a * w a)%Qc (a :: l))) with (g a * w a + qsum (map (fun a => g a * w a)%Qc l))%Qc.
  assert (I : (lo * qsum (map w l) <= qsum (map (fun a => g a * w a)%Qc l))%Qc) by (apply IH; intros; [apply W|apply G]; simpl; auto).
  assert (P : (0 <= w a * (g a - lo))%Qc). { apply Qcmul_nonneg; [apply W; simpl; auto|]. pose proof (G a ltac:(simpl; auto)). qclra. }
  replace (g a * w a)%Qc with (lo * w a + w a * (g a - lo))%Qc by ring. rewrite Qcmult_plus_distr_r. set (p := (w a * (g a - lo))%Qc) in *. set (q := (lo * w a)%Qc). set (r := (lo * qsum _)%Qc) in *. clearbody p q r. qclra.
Qed.
Lemma qsum_neg (A : Type) (g w : A -> Qc) l : (0 - qsum (map (fun c => g c * w c) l))%Qc = qsum (map (fun c => (0 - g c) * w c)%Qc l).
Proof.
  induction l as [|a l IH]; [reflexivity|]. cbn [map].
  unfold qsum in *. cbn [fold_right]. rewrite <- IH. ring.
Qed.
Lemma weighted_range m x y C v lo hi : weighted isq m x y C v -> (exists c, In c C /\ fst c <> m) -> (forall c, In c C -> ~ (fst (snd c) = x /\ snd (snd c) = y)) ->
  (forall c, In c C -> fst c <> m -> (lo <= fst c)%Qc /\ (fst c <= hi)%Qc) -> (lo <= v)%Qc /\ (v <= hi)%Qc.
Proof.
  intros E [c0 [I0 N0]] D B. unfold weighted in E. set (T := filter _ C) in E. set (w := fun c : Qc * (Qc * Qc) => isq _) in E.
  assert (HT : forall c, In c T -> In c C /\ fst c <> m). { intros c Hc. apply filter_In in Hc. destruct Hc as [H1 H2]. split; auto. destruct (Qceqb_spec (fst c) m); [discriminate|auto]. }
  assert (WP : forall c, In c T -> (0 < w c)%Qc). { intros c Hc. apply isq_pos, dist_pos. apply D, HT. auto. }
  assert (POS : (0 < qsum (map w T))%Qc). { apply qsum_pos. - assert (In c0 T) by (apply filter_In; split; auto; destruct (Qceqb_spec (fst c0) m); auto; contradiction). destruct T; [destruct H|discriminate]. - intros u Hu. apply in_map_iff in Hu. destruct Hu as [c [<- Hc]]. auto. }
  assert (L : (lo * qsum (map w T) <= v * qsum (map w T))%Qc). { rewrite E. apply (qsum_scale _ w fst); intros a Ha; [apply Qclt_le_weak; auto|]. destruct (HT a Ha). apply B; auto. }
  assert (U : ((0 - hi) * qsum (map w T) <= (0 - v) * qsum (map w T))%Qc).
  { assert (E' : ((0 - v) * qsum (map w T))%Qc = qsum (map (fun c => (0 - fst c) * w c)%Qc T)).
    { transitivity (0 - v * qsum (map w T))%Qc; [ring|]. rewrite E. apply qsum_neg. }
    rewrite E'. apply (qsum_scale _ w (fun c => 0 - fst c)%Qc); intros a Ha; [apply Qclt_le_weak; auto|]. destruct (HT a Ha). destruct (B a) as [_ ?]; auto. qclra. }
  split; [|assert (0 - hi <= 0 - v)%Qc; [|qclra]]; eapply Qcmul_le_reg_r; eauto.
Qed.
Lemma entry_in fi i j v : entry fi i j = Some v -> exists row, In row fi /\ In v row.
Proof. unfold entry. destruct (nth_error fi j) as [row|] eqn:E; [|discriminate]. intros H. exists row. split; eapply nth_error_In; eauto. Qed.
Lemma point_range xs ys fi m x y v lo hi : (forall row f, In row fi -> In f row -> f <> m -> (lo <= f)%Qc /\ (f <= hi)%Qc) -> point_at isq xs ys fi m x y v ->
  v = m \/ ((lo <= v)%Qc /\ (v <= hi)%Qc).
Proof.
  intros H P. assert (B : forall i j f, entry fi i j = Some f -> f <> m -> (lo <= f)%Qc /\ (f <= hi)%Qc) by (intros i j f E N; apply entry_in in E; destruct E as [row [E1 E2]]; eapply H; eauto).
  destruct P as [O|i j x1 y1 v CX CY E|i j x0 x1 y0 y1 f00 f10 f01 f11 [_ [_ [X1 X2]]] [_ [_ [Y1 Y2]]] E00 E10 E01 E11 N00 N10 N01 N11 N|i j x0 x1 y0 y1|i j x0 x1 y0 y1 f00 f10 f01 f11 v [_ [_ [X1 X2]]] [_ [_ [Y1 Y2]]] E00 E10 E01 E11 M V N W]; auto.
  - destruct (Qceqb_spec v m); auto. right. eapply B; eauto.
  - right. destruct (part_range _ _ _ X1 X2), (part_range _ _ _ Y1 Y2). destruct (B _ _ _ E00 N00), (B _ _ _ E10 N10), (B _ _ _ E01 N01), (B _ _ _ E11 N11).
    destruct (along_range lo hi f00 f10 (linear_part x x0 x1)); auto. destruct (along_range lo hi f01 f11 (linear_part x x0 x1)); auto. apply along_range; auto.
  - right. eapply weighted_range; [exact W| | |].
    + destruct V as [V|[V|[V|V]]]; [exists (f00, (x0, y0))|exists (f10, (x1, y0))|exists (f01, (x0, y1))|exists (f11, (x1, y1))]; simpl; auto 6.
    + intros c [<-|[<-|[<-|[<-|[]]]]]; simpl; intros [Q1 Q2]; subst; try (apply N; auto; fail); try (apply (Qclt_irrefl _ X2)); apply (Qclt_irrefl _ Y2).
    + intros c [<-|[<-|[<-|[<-|[]]]]]; simpl; intros Q; eapply B; eauto.
Qed.
End Pts.

(** ** Points on a cyclic grid *)
Lemma wrap_loop row suf : forall pre a b, row = pre ++ suf -> length a = length pre + 1 -> length suf <= length b ->
  foldM (fun w nx => let* v := rd row nx in wrx w (nx + 1) v) (seq (length pre + 1) (length suf)) (a ++ b) = Some (a ++ suf ++ skipn (length suf) b : list Qc).
Proof.
  induction suf as [|x suf IH]; intros pre a b E LA LB; [reflexivity|]. cbn [length seq foldM]. subst row. rewrite (rd_at _ pre suf x) by auto. cbn [bind]. simpl in LB. rewrite wrx_split by lia. cbn [bind].
  replace (Datatypes.S (length pre + 1)) with (length (pre ++ x :: nil) + 1) by (rewrite app_length; simpl; lia).
  rewrite (IH (pre ++ x :: nil)); try rewrite !app_length; cbn [length]; try lia; try (rewrite <- app_assoc; reflexivity); rewrite ?skipn_length; try lia.
  rewrite !skipn_skipn', <- !app_assoc. replace (length suf + 1) with (Datatypes.S (length suf)) by lia. reflexivity.
Qed.
Lemma wrap_row_ok row first last w : length w = length row + 2 -> wrap_row row first last w = Some (first :: row ++ last :: nil).
Proof.
  intros L. unfold wrap_row. destruct w as [|h w]; [simpl in L; lia|]. simpl in L.
  pose proof (wrap_loop row row [] (h :: nil) w eq_refl eq_refl) as H. cbn [app] in H. change (length (@nil Qc) + 1) with 1 in H. rewrite H by lia. cbn [bind].
  rewrite wrx_head. cbn [bind]. destruct (split1 (skipn (length row) w)) as [t [r E]]; [rewrite skipn_length; lia|]. assert (LR := f_equal (@length Qc) E). rewrite skipn_length in LR. simpl in LR. assert (r = []) as -> by (destruct r; simpl in LR; auto; lia).
  rewrite E. rewrite app_comm_cons. apply wrx_at. simpl. rewrite app_length. simpl. lia.
Qed.
(** the row with its wrapped neighbours *)
Definition ring_row (row : list Qc) (first last : Qc) : list Qc := first :: row ++ last :: nil.
