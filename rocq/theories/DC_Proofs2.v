From Verif Require Import Base Buffer VH_Model VH_Proofs RG_Proofs2 TP_Model DC_Model DC_Spec DC_Proofs.
Local Close Scope Qc_scope.
Local Open Scope nat_scope.

Section DCQ.
Variable A : fl.
Variables (pw : A -> A -> A) (fin : A -> bool) (nan : A) (trunc : A -> nat).
Notation level := (level A).
Notation lp := (lp A).
Notation value := (downdraft A pw fin nan trunc).

(** * Range *)
Lemma cut_range x : fin (fc A 0 1) = true -> fltb A (fc A 0 1) (fc A 0 1) = false ->
  cut A fin nan x = nan \/ fin (cut A fin nan x) = true /\ fltb A (cut A fin nan x) (fc A 0 1) = false.
Proof.
  intros H0 H1. unfold cut. destruct (fin x) eqn:Ef; cbn [negb]; auto. destruct (fltb A x (fc A 0 1)) eqn:El; auto.
Qed.
Lemma downdraft_range l : fin (fc A 0 1) = true -> fltb A (fc A 0 1) (fc A 0 1) = false ->
  value l = nan \/ fin (value l) = true /\ fltb A (value l) (fc A 0 1) = false.
Proof.
  intros H0 H1. unfold downdraft. destruct (_ <? 4); auto. destruct (origin _ _ _); auto. destruct (_ <=? 1); auto. apply cut_range; auto.
Qed.

(** * Orientation *)
Lemma usable_rev l : usable A fin (rev l) = rev (usable A fin l).
Proof.
  induction l as [|x l IH]; auto. cbn [rev]. rewrite usable_app, IH. unfold usable at 2 3. cbn [filter].
  destruct (_ && _ && _); cbn [rev]; rewrite ?app_nil_r; auto.
Qed.
Lemma usable_idem l : usable A fin (usable A fin l) = usable A fin l.
Proof.
  unfold usable. induction l as [|x l IH]; auto. cbn [filter].
  destruct (fin (fst (fst x)) && fin (snd (fst x)) && fin (snd x)) eqn:E; auto. cbn [filter]. rewrite E, IH. reflexivity.
Qed.
Lemma upward_cons x l : upward A (x :: l) = if fltb A (lp x) (lp (last (x :: l) x)) then rev (x :: l) else x :: l.
Proof. reflexivity. Qed.
Lemma last_indep (T : Type) (l : list T) a b : l <> nil -> last l a = last l b.
Proof. intros H. destruct (exists_last H) as [q [z ->]]. rewrite !last_last. auto. Qed.
Lemma upward_rev x l z : (forall a b, fltb A a b = true -> fltb A b a = false) -> last (x :: l) x = z ->
  fltb A (lp x) (lp z) = true \/ fltb A (lp z) (lp x) = true -> upward A (rev (x :: l)) = upward A (x :: l).
Proof.
  intros Has Hz H.
  assert (Hr : exists r, rev (x :: l) = z :: r).
  { destruct (rev (x :: l)) as [|z' r] eqn:E; [apply (f_equal (@length _)) in E; rewrite rev_length in E; discriminate|].
    exists r. f_equal. assert (E2 : x :: l = rev r ++ z' :: nil) by (rewrite <- (rev_involutive (x :: l)), E; reflexivity).
    rewrite <- Hz, E2, last_last. reflexivity. }
  destruct Hr as [r Er]. rewrite Er, !upward_cons, Hz, <- Er.
  assert (Hl : last (rev (x :: l)) z = x). { cbn [rev]. apply last_last. }
  rewrite Hl, rev_involutive. destruct H as [H|H]; rewrite H, (Has _ _ H); reflexivity.
Qed.
Lemma downdraft_rev x l z : (forall a b, fltb A a b = true -> fltb A b a = false) -> last (x :: l) x = z ->
  fltb A (lp x) (lp z) = true \/ fltb A (lp z) (lp x) = true -> value (rev (x :: l)) = value (x :: l).
Proof. intros Ha Hz H. unfold downdraft. rewrite rev_length, (upward_rev x l z); auto. Qed.

(** * The start *)
Hypothesis O : order_laws A.
Lemma lt_asym a b : fltb A a b = true -> fltb A b a = false.
Proof. intros H. destruct (fltb A b a) eqn:E; auto. pose proof (o_trans A O _ _ _ H E). rewrite (o_irrefl A O) in H0. discriminate. Qed.

(** the chosen one is a member with no smaller value in the list *)
Definition holds_best (l : list level) (best : A) (found : option level) (r : option level) : Prop :=
  match r with
  | None => found = None /\ forall y, In y l -> fltb A (theta A pw y) best = false
  | Some x => (found = Some x /\ forall y, In y l -> fltb A (theta A pw y) best = false) \/
              (In x l /\ fltb A (theta A pw x) best = true /\ forall y, In y l -> fltb A (theta A pw y) (theta A pw x) = false)
  end.
Lemma coldest_ok : forall l best found, holds_best l best found (coldest A pw l best found).
Proof.
  induction l as [|x l IH]; intros best found; cbn [coldest].
  - destruct found; cbn; [left|]; split; auto; intros y [].
  - destruct (fltb A (theta A pw x) best) eqn:E.
    + specialize (IH (theta A pw x) (Some x)). destruct (coldest A pw l (theta A pw x) (Some x)) as [r|]; cbn in *.
      * right. destruct IH as [[Hr Hy]|[Hi [Hl Hy]]].
        -- injection Hr as <-. split; [auto|]. split; auto. intros y [<-|Hyl]; [apply (o_irrefl A O)|auto].
        -- split; [auto|]. split; [eapply (o_trans A O); eauto|]. intros y [<-|Hyl]; [apply lt_asym; auto|auto].
      * destruct IH. discriminate.
    + specialize (IH best found). destruct (coldest A pw l best found) as [r|]; cbn in *.
      * destruct IH as [[Hr Hy]|[Hi [Hl Hy]]].
        -- left. split; auto. intros y [<-|Hyl]; auto.
        -- right. split; [auto|]. split; auto. intros y [<-|Hyl]; auto.
           destruct (fltb A (theta A pw x) (theta A pw r)) eqn:E2; auto.
           rewrite (o_trans A O _ _ _ E2 Hl) in E. discriminate.
      * destruct IH as [Hr Hy]. split; auto. intros y [<-|Hyl]; auto.
Qed.
Lemma origin_ok l : match origin A pw l with
  | None => forall y, In y (candidates A l) -> fltb A (theta A pw y) (fc A (10 ^ 99) 1) = false
  | Some x => In x (candidates A l) /\ fltb A (theta A pw x) (fc A (10 ^ 99) 1) = true /\
              forall y, In y (candidates A l) -> fltb A (theta A pw y) (theta A pw x) = false
  end.
Proof.
  unfold origin. pose proof (coldest_ok (candidates A l) (fc A (10 ^ 99) 1) None) as H.
  destruct (coldest A pw (candidates A l) (fc A (10 ^ 99) 1) None) as [x|]; unfold holds_best in H.
  - destruct H as [[? ?]|H]; [discriminate|exact H].
  - apply H.
Qed.
Lemma crossing_p l b x : In x (crossing A l b) -> lp x = b.
Proof.
  induction l as [|u l IH]; cbn [crossing]; [intros []|]. destruct l as [|v l]; [intros []|].
  destruct (between A (lp v) (lp u) b || between A (lp u) (lp v) b); auto. intros [<-|[]]. reflexivity.
Qed.
Lemma lt_le a b : fltb A a b = true -> dle A a b = true.
Proof. intros H. unfold dle. rewrite H. reflexivity. Qed.
Lemma candidate_p l x : In x (candidates A l) -> dle A (fc A 500 1) (lp x) = true /\ dle A (lp x) (fc A 700 1) = true.
Proof.
  unfold candidates. rewrite !in_app_iff. intros [H|[H|H]].
  - apply filter_In in H as [_ H]. unfold between in H. apply andb_prop in H. auto.
  - apply crossing_p in H. rewrite H. split; [apply lt_le, (o_500_700 A O)|apply (o_700 A O)].
  - apply crossing_p in H. rewrite H. split; [apply (o_500 A O)|apply lt_le, (o_500_700 A O)].
Qed.

(** * The levels used *)
Lemma up_to_filter p : forall l, falling A l -> up_to A p l = filter (fun x => dle A p (lp x)) l.
Proof.
  induction l as [|x l IH]; intros H; auto. cbn [up_to filter].
  destruct (dle A p (lp x)) eqn:E.
  - f_equal. apply IH. destruct l; [exact I|apply H].
  - clear IH. revert x E H. induction l as [|y l IH]; intros x E H; auto. cbn [filter]. destruct H as [H1 H2].
    destruct (dle A p (lp y)) eqn:E2.
    + rewrite (o_le_trans A O _ _ _ E2 (lt_le _ _ H1)) in E. discriminate.
    + apply (IH y); auto.
Qed.
Lemma nan_one_below l x y r : upward A l = x :: y :: r -> fltb A (lp y) (fc A 500 1) = true -> value l = nan.
Proof.
  intros Hu Hy. unfold downdraft. destruct (_ <? 4); auto. rewrite Hu. pose proof (origin_ok (x :: y :: r)) as Ho.
  destruct (origin A pw (x :: y :: r)) as [s|]; auto. destruct Ho as [Hc _]. apply candidate_p in Hc as [H5 _].
  cbn [up_to]. destruct (dle A (lp s) (lp x)); auto.
  destruct (dle A (lp s) (lp y)) eqn:E; auto.
  pose proof (o_le_trans A O _ _ _ H5 E) as H. rewrite (o_lt_le A O _ _ Hy) in H. discriminate.
Qed.
End DCQ.
