(** Proofs about the interpolation to the solver grid. *)
From Verif Require Import Base Buffer Loops VH_Model I2P_Model I2P_Spec I2P_Proofs I2P_Proofs2 GB_Model GB_Spec2.
Local Open Scope nat_scope.

Lemma rises_SS l : rises l <-> upl l.
Proof. unfold rises, upl. split; [apply nth_SS|apply SS_nth]. Qed.
Lemma falls_SS l : falls l <-> dnl l.
Proof. unfold falls, dnl. split; [apply nth_SS|]. intros H i j a b. apply (SS_nth _ _ _ H). Qed.
Lemma diffs_rises l : diffs_all Qcltb l = true <-> rises l.
Proof. rewrite rises_SS. unfold upl. apply diffs_all_SS; [apply ltb_iff|intros; qclra]. Qed.
Lemma falls_rev l : falls l <-> rises (rev l).
Proof. rewrite falls_SS, rises_SS. unfold upl, dnl. rewrite SS_rev_iff. reflexivity. Qed.
Lemma sample_combine s v p x : length v = length s -> sample s v p x <-> In (p, x) (combine s v).
Proof.
  revert v. induction s as [|a s IH]; intros [|b v] H; try discriminate; cbn [combine In].
  - split; [intros [i [A _]]; destruct i; discriminate|tauto].
  - injection H as H. rewrite <- (IH v H). split.
    + intros [[|i] [A B]]; cbn in A, B; [left; congruence|right; exists i; auto].
    + intros [E|[i [A B]]]; [exists 0; injection E as -> ->; auto|exists (S i); auto].
Qed.
Lemma sample_rev s v p x : length v = length s -> sample (rev s) (rev v) p x <-> sample s v p x.
Proof.
  intros H. rewrite !sample_combine by (rewrite ?rev_length; auto). rewrite combine_rev by auto. symmetry. apply in_rev.
Qed.
Lemma sample_source s v p : length v = length s -> In p s -> exists x, sample s v p x.
Proof.
  intros H I. apply In_nth_error in I. destruct I as [i Hi]. assert (i < length v) by (rewrite H; apply nth_error_Some; congruence).
  destruct (nth_error v i) as [x|] eqn:E; [|apply nth_error_None in E; lia]. exists x, i. auto.
Qed.
Lemma rd_rises p i j a b : rises p -> 1 <= i -> i < j -> rd p i = Some a -> rd p j = Some b -> (a < b)%Qc.
Proof. intros H Hi Hj A B. rewrite rd_nth in A, B by lia. apply (H (i - 1) (j - 1) a b); auto. lia. Qed.
Lemma rd_in (A : Type) (l : list A) i : 1 <= i <= length l -> exists a, rd l i = Some a.
Proof. intros H. destruct (rd l i) as [a|] eqn:E; [eauto|]. rewrite rd_nth in E by lia. apply nth_error_None in E. lia. Qed.

Section Asc.
Variables (lg : Qc -> Qc) (kind : Z) (p v : list Qc).
Hypothesis U : rises p.
Hypothesis Hn : 2 <= length p.
Hypothesis Hl : length v = length p.
Definition coordinate : Qc -> Qc := if (kind =? 1)%Z then (fun x => x) else lg.
Definition under (j : nat) (t : Qc) : Prop := j = 1 \/ forall a, rd p j = Some a -> (a < t)%Qc.

Lemma walk_ok t : forall fuel j, length p <= fuel + j -> 1 <= j <= length p - 1 -> under j t ->
  exists j', level_walk fuel p t j = Some j' /\ 1 <= j' <= length p - 1 /\ under j' t /\
    (j' = length p - 1 \/ exists b, rd p (j' + 1) = Some b /\ (t <= b)%Qc).
Proof.
  induction fuel as [|fuel IH]; intros j Hf Hj Hu; [lia|]. cbn [level_walk].
  destruct (rd_in _ p (j + 1) ltac:(lia)) as [q Hq]. rewrite Hq. cbn [bind].
  destruct (Nat.ltb_spec j (length p - 1)) as [L|L]; cbn [andb].
  - destruct (Qcltb_spec q t) as [Q|Q].
    + apply IH; [lia|lia|]. right. intros a Ha. congruence.
    + exists j. split; [reflexivity|]. split; [lia|]. split; [exact Hu|]. right. exists q. split; auto. qclra.
  - exists j. split; [reflexivity|]. split; [lia|]. split; [exact Hu|]. left. lia.
Qed.
Lemma value_ok t j lo hi : 1 <= j <= length p - 1 -> rd p j = Some lo -> rd p (j + 1) = Some hi -> (lo <= t)%Qc -> (t <= hi)%Qc ->
  exists x, level_value lg kind p v t j = Some x /\ broken_line (sample p v) coordinate t x.
Proof.
  intros Hj Hlo Hhi L1 L2. unfold level_value. rewrite Hlo, Hhi. cbn [bind].
  destruct (rd_in _ v j ltac:(lia)) as [vlo Vlo]. destruct (rd_in _ v (j + 1) ltac:(lia)) as [vhi Vhi]. rewrite Vlo, Vhi. cbn [bind].
  assert (S0 : sample p v lo vlo) by (exists (j - 1); rewrite <- !rd_nth by lia; auto).
  assert (S1 : sample p v hi vhi) by (exists j; rewrite rd_nth in Hhi, Vhi by lia; replace (j + 1 - 1) with j in * by lia; auto).
  destruct (Qceqb_spec t lo) as [->|N0]; [exists vlo; split; [reflexivity|left; auto]|].
  destruct (Qceqb_spec t hi) as [->|N1]; [exists vhi; split; [reflexivity|left; auto]|].
  assert (M0 : (lo < t)%Qc) by (destruct (Qcle_lt_or_eq _ _ L1); auto; congruence).
  assert (M1 : (t < hi)%Qc) by (destruct (Qcle_lt_or_eq _ _ L2); auto; congruence).
  assert (NB : neighbours (sample p v) hi vhi lo vlo).
  { split; auto. split; auto. split; [qclra|]. intros a x [i [Ha _]].
    assert (Ra : rd p (S i) = Some a) by (rewrite rd_nth by lia; replace (S i - 1) with i by lia; auto).
    destruct (Nat.lt_trichotomy (S i) j) as [C|[C|C]].
    - left. assert (X := rd_rises p (S i) j a lo U ltac:(lia) C Ra Hlo). qclra.
    - left. rewrite <- C in Hlo. assert (a = lo) as -> by congruence. qclra.
    - destruct (Nat.eq_dec (S i) (j + 1)) as [D|D]; right.
      + rewrite <- D in Hhi. assert (a = hi) as -> by congruence. qclra.
      + assert (X := rd_rises p (j + 1) (S i) hi a U ltac:(lia) ltac:(lia) Hhi Ra). qclra. }
  unfold coordinate. destruct (kind =? 1)%Z; (eexists; split; [reflexivity|]; right; exists hi, vhi, lo, vlo; split; [exact NB|]; split; [auto|]; split; [auto|]; unfold on_line, Qcdiv; ring).
Qed.
Lemma first_last : exists a b, rd p 1 = Some a /\ rd p (length p) = Some b /\ (a < b)%Qc /\ forall q, In q p -> (a <= q)%Qc /\ (q <= b)%Qc.
Proof.
  destruct (rd_in _ p 1 ltac:(lia)) as [a Ha]. destruct (rd_in _ p (length p) ltac:(lia)) as [b Hb]. exists a, b.
  split; auto. split; auto. split; [apply (rd_rises p 1 (length p)); auto; lia|]. intros q Hq. apply In_nth_error in Hq. destruct Hq as [i Hi].
  assert (Li : i < length p) by (apply nth_error_Some; congruence).
  assert (Ri : rd p (S i) = Some q) by (rewrite rd_nth by lia; replace (S i - 1) with i by lia; auto). split.
  - destruct (Nat.eq_dec i 0) as [->|]; [assert (a = q) by congruence; subst; qclra|]. assert (X := rd_rises p 1 (S i) a q U ltac:(lia) ltac:(lia) Ha Ri). qclra.
  - destruct (Nat.eq_dec (S i) (length p)) as [E|]; [rewrite E in Ri; assert (b = q) by congruence; subst; qclra|]. assert (X := rd_rises p (S i) (length p) q b U ltac:(lia) ltac:(lia) Ri Hb). qclra.
Qed.
Lemma loop_ok : forall ts j, rises ts -> 1 <= j <= length p - 1 -> (match ts with [] => True | t :: _ => under j t end) ->
  exists r, target_loop lg kind p v ts j = Some r /\
    match r with
    | inl out => Forall2 (broken_line (sample p v) coordinate) ts out /\ forall t, In t ts -> ~ outside p t
    | inr e => e = 4%Z /\ exists t, In t ts /\ outside p t
    end.
Proof.
  destruct first_last as [a [b [Ha [Hb [Hab Hr]]]]].
  assert (Ia : In a p) by (rewrite rd_nth in Ha by lia; eapply nth_error_In; eauto).
  assert (Ib : In b p) by (rewrite rd_nth in Hb by lia; eapply nth_error_In; eauto).
  induction ts as [|t ts IH]; intros j Ht Hj Hu; cbn [target_loop].
  - exists (inl []). split; [reflexivity|]. split; [constructor|intros t []].
  - rewrite Ha, Hb. cbn [bind]. destruct (Qcltb_spec t a) as [L1|L1]; cbn [orb].
    { exists (inr 4%Z). split; [reflexivity|]. split; [reflexivity|]. exists t. split; [left; auto|]. left. intros q Hq. destruct (Hr q Hq). qclra. }
    destruct (Qcltb_spec b t) as [L2|L2].
    { exists (inr 4%Z). split; [reflexivity|]. split; [reflexivity|]. exists t. split; [left; auto|]. right. intros q Hq. destruct (Hr q Hq). qclra. }
    destruct (walk_ok t (length p) j ltac:(lia) Hj Hu) as [j' [-> [Hj' [Hu' Hup]]]]. cbn [bind].
    destruct (rd_in _ p j' ltac:(lia)) as [lo Hlo]. destruct (rd_in _ p (j' + 1) ltac:(lia)) as [hi Hhi].
    assert (B1 : (lo <= t)%Qc). { destruct Hu' as [->|X]; [assert (lo = a) as -> by congruence; qclra|]. assert (Y := X lo Hlo). qclra. }
    assert (B2 : (t <= hi)%Qc).
    { destruct Hup as [->|[b' [E X]]]; [|assert (hi = b') as -> by congruence; auto]. replace (length p - 1 + 1) with (length p) in Hhi by lia. assert (hi = b) as -> by congruence. qclra. }
    destruct (value_ok t j' lo hi Hj' Hlo Hhi B1 B2) as [x [-> Hx]]. cbn [bind].
    assert (No : ~ outside p t). { intros [O|O]; [assert (X := O a Ia)|assert (X := O b Ib)]; qclra. }
    destruct (IH j') as [r [Er Hrr]]; auto.
    { intros m n y z Hmn Hy Hz. apply (Ht (S m) (S n) y z); auto. lia. }
    { destruct ts as [|t' ts]; auto. destruct Hu' as [->|X]; [left; auto|]. right. intros q Hq. assert (Y := X q Hq). assert (Z := Ht 0 1 t t' ltac:(lia) eq_refl eq_refl). qclra. }
    rewrite Er. cbn [bind]. destruct r as [out|e].
    + exists (inl (x :: out)). split; [reflexivity|]. destruct Hrr as [F N]. split; [constructor; auto|]. intros t' [<-|H]; auto.
    + exists (inr e). split; [reflexivity|]. destruct Hrr as [-> [t' [H O]]]. split; auto. exists t'. split; [right; auto|auto].
Qed.
End Asc.

Lemma neighbours_ext L L' p0 x0 p1 x1 : (forall p x, L p x <-> L' p x) -> neighbours L p0 x0 p1 x1 -> neighbours L' p0 x0 p1 x1.
Proof. intros H [A [B [C D]]]. split; [apply H; auto|]. split; [apply H; auto|]. split; auto. intros p x Hp. apply (D p x). apply H. auto. Qed.
Lemma broken_line_ext L L' c t x : (forall p x, L p x <-> L' p x) -> broken_line L c t x -> broken_line L' c t x.
Proof.
  intros H [A|[p0 [x0 [p1 [x1 [N X]]]]]]; [left; apply H; auto|right]. exists p0, x0, p1, x1. split; auto. eapply neighbours_ext; eauto.
Qed.
Lemma outside_rev s t : outside (rev s) t <-> outside s t.
Proof.
  unfold outside. split; (intros [H|H]; [left|right]; intros p Hp; apply H; apply in_rev; auto). rewrite rev_involutive. auto. rewrite rev_involutive. auto.
Qed.

(** the whole routine by cases *)
Lemma interp_cases lg source values target kind : length values = length source ->
  (~ usable_source source /\ interp_no_extrap lg source values target kind = Some (inr 1%Z)) \/
  (usable_source source /\ ~ rises target /\ interp_no_extrap lg source values target kind = Some (inr 2%Z)) \/
  (usable_source source /\ rises target /\ kind = 2%Z /\ ~ (positive source /\ positive target) /\ interp_no_extrap lg source values target kind = Some (inr 3%Z)) \/
  (usable_source source /\ rises target /\ (kind = 2%Z -> positive source /\ positive target) /\
   exists r, interp_no_extrap lg source values target kind = Some r /\
    match r with
    | inl out => Forall2 (broken_line (sample source values) (coordinate lg kind)) target out /\ forall t, In t target -> ~ outside source t
    | inr e => e = 4%Z /\ exists t, In t target /\ outside source t
    end).
Proof.
  intros Hl. unfold interp_no_extrap. destruct (Nat.ltb_spec (length source) 2) as [L|L].
  { left. split; [intros [X _]; lia|reflexivity]. }
  destruct (rd_in _ source 1 ltac:(lia)) as [a Ha]. destruct (rd_in _ source (length source) ltac:(lia)) as [b Hb]. rewrite Ha, Hb. cbn [bind].
  set (p := if Qcltb b a then rev source else source). set (v := if Qcltb b a then rev values else values).
  assert (Lp : length p = length source) by (unfold p; destruct (Qcltb b a); rewrite ?rev_length; auto).
  assert (Lv : length v = length p) by (rewrite Lp; unfold v; destruct (Qcltb b a); rewrite ?rev_length; auto).
  assert (Up : rises p <-> usable_source source).
  { unfold usable_source, p. destruct (Qcltb_spec b a) as [D|D].
    - rewrite <- falls_rev. split; [auto|]. intros [_ [R|F]]; auto. exfalso. assert (X := rd_rises source 1 (length source) a b R ltac:(lia) ltac:(lia) Ha Hb). qclra.
    - split; [auto|]. intros [_ [R|F]]; auto. exfalso. apply D. rewrite rd_nth in Ha, Hb by lia. apply (F 0 (length source - 1) a b); auto. lia. }
  assert (Ss : forall q x, sample p v q x <-> sample source values q x). { intros q x. unfold p, v. destruct (Qcltb b a); [apply sample_rev; auto|reflexivity]. }
  assert (Os : forall t, outside p t <-> outside source t). { intros t. unfold p. destruct (Qcltb b a); [apply outside_rev|reflexivity]. }
  assert (Is : forall q, In q p <-> In q source). { intros q. unfold p. destruct (Qcltb b a); [symmetry; apply in_rev|reflexivity]. }
  clearbody p v. destruct (diffs_all Qcltb p) eqn:D; cbn [negb].
  2:{ left. split; [|reflexivity]. rewrite <- Up, <- diffs_rises. congruence. }
  apply diffs_rises in D. assert (Us := proj1 Up D). right. destruct (diffs_all Qcltb target) eqn:T; cbn [negb].
  2:{ left. split; [exact Us|]. split; [rewrite <- diffs_rises; congruence|reflexivity]. }
  apply diffs_rises in T. right.
  assert (Pos : existsb (fun x => Qcleb x 0%Qc) p || existsb (fun x => Qcleb x 0%Qc) target = false <-> positive source /\ positive target).
  { assert (G : forall l, existsb (fun x => Qcleb x 0%Qc) l = false <-> positive l).
    { intros l. split.
      - intros E q Hq. destruct (Qcleb_spec q 0%Qc) as [X|X]; [|qclra]. exfalso. assert (Y : existsb (fun x => Qcleb x 0%Qc) l = true) by (apply existsb_exists; exists q; split; auto; destruct (Qcleb_spec q 0%Qc); auto). congruence.
      - intros H. destruct (existsb _ l) eqn:E; auto. apply existsb_exists in E. destruct E as [q [Hq E]]. exfalso. assert (X := H q Hq). destruct (Qcleb_spec q 0%Qc); [qclra|discriminate]. }
    rewrite orb_false_iff, !G. unfold positive. split; (intros [A B]; split; auto; intros q Hq; apply A; apply Is; auto). }
  destruct (Z.eqb_spec kind 2) as [K|K]; cbn [andb].
  - destruct (existsb _ p || existsb _ target) eqn:E.
    + left. split; [exact Us|]. split; [exact T|]. split; [exact K|]. split; [|reflexivity]. intros X. apply Pos in X. congruence.
    + right. split; [exact Us|]. split; [exact T|]. split; [intros _; apply Pos; auto|].
      destruct (loop_ok lg kind p v D ltac:(lia) Lv target 1 T ltac:(lia)) as [r [Er Hr]]; [destruct target; auto; left; auto|].
      exists r. split; [exact Er|]. destruct r as [out|e].
      * destruct Hr as [F N]. split; [|intros t Ht; rewrite <- Os; auto]. clear - F Ss. induction F; constructor; auto. eapply broken_line_ext; eauto.
      * destruct Hr as [-> [t [Ht O]]]. split; auto. exists t. rewrite <- Os. auto.
  - right. split; [exact Us|]. split; [exact T|]. split; [intros X; contradiction|].
    destruct (loop_ok lg kind p v D ltac:(lia) Lv target 1 T ltac:(lia)) as [r [Er Hr]]; [destruct target; auto; left; auto|].
    exists r. split; [exact Er|]. destruct r as [out|e].
    * destruct Hr as [F N]. split; [|intros t Ht; rewrite <- Os; auto]. clear - F Ss. induction F; constructor; auto. eapply broken_line_ext; eauto.
    * destruct Hr as [-> [t [Ht O]]]. split; auto. exists t. rewrite <- Os. auto.
Qed.
