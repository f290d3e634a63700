(** Proofs about the pressure-interpolation kernel. *)
From Verif Require Import Base Buffer Loops I2P_Model I2P_Spec.
Local Open Scope nat_scope.

(** ** Descending levels *)
Definition dsc (F : list (Qc * Qc)) : Prop := StronglySorted (fun a b => (fst b < fst a)%Qc) F.
Definition asc (F : list (Qc * Qc)) : Prop := StronglySorted (fun a b => (fst a < fst b)%Qc) F.
Definition Lof (F : list (Qc * Qc)) (p x : Qc) : Prop := In (p, x) F.

Lemma SS_nth (A : Type) (R : A -> A -> Prop) l : StronglySorted R l ->
  forall i j a b, i < j -> nth_error l i = Some a -> nth_error l j = Some b -> R a b.
Proof.
  induction 1 as [|x l Hs IH Hf]; intros i j a b Hij Ha Hb.
  - destruct i; discriminate.
  - destruct j; [lia|]. simpl in Hb. destruct i; simpl in Ha.
    + injection Ha as <-. rewrite Forall_forall in Hf. apply Hf. eapply nth_error_In; eauto.
    + eapply IH; [|eauto|eauto]. lia.
Qed.
Lemma nth_SS (A : Type) (R : A -> A -> Prop) l :
  (forall i j a b, i < j -> nth_error l i = Some a -> nth_error l j = Some b -> R a b) -> StronglySorted R l.
Proof.
  induction l as [|x l IH]; intros H; constructor.
  - apply IH. intros i j a b Hij Ha Hb. apply (H (S i) (S j)); auto. lia.
  - apply Forall_forall. intros y Hy. apply In_nth_error in Hy. destruct Hy as [k Hk].
    apply (H 0 (S k)); auto. lia.
Qed.
Lemma SS_rev (A : Type) (R : A -> A -> Prop) l :
  StronglySorted R l -> StronglySorted (fun a b => R b a) (rev l).
Proof.
  intros H. apply nth_SS. intros i j a b Hij Ha Hb.
  assert (Hj : j < length (rev l)) by (apply nth_error_Some; congruence).
  assert (Hi : i < length (rev l)) by lia.
  rewrite rev_length in *.
  assert (E : forall k, k < length l -> nth_error (rev l) k = nth_error l (length l - 1 - k)).
  { intros k Hk. destruct l as [|d l']; [simpl in Hk; lia|]. set (l0 := d :: l') in *.
    rewrite (nth_error_nth' (rev l0) d) by (rewrite rev_length; lia).
    rewrite (nth_error_nth' l0 d) by lia. rewrite rev_nth by lia. f_equal. f_equal. lia. }
  rewrite E in Ha, Hb by lia. eapply SS_nth; [exact H| |exact Hb|exact Ha]. lia.
Qed.

Lemma rd_nth (A : Type) (l : list A) i : 1 <= i -> rd l i = nth_error l (i - 1).
Proof. destruct i; [lia|]. intros _. simpl. rewrite Nat.sub_0_r. reflexivity. Qed.

Definition pk (F : list (Qc * Qc)) i := get (map fst F) i.
Definition xk (F : list (Qc * Qc)) i := get (map snd F) i.
Lemma rd_pk F i : 1 <= i <= length F -> rd (map fst F) i = Some (pk F i).
Proof. intros. apply rd_get. rewrite map_length. auto. Qed.
Lemma rd_xk F i : 1 <= i <= length F -> rd (map snd F) i = Some (xk F i).
Proof. intros. apply rd_get. rewrite map_length. auto. Qed.
Lemma pkxk_nth F i : 1 <= i <= length F -> nth_error F (i - 1) = Some (pk F i, xk F i).
Proof.
  intros H. destruct (nth_error F (i - 1)) as [[p x]|] eqn:E.
  - assert (Hp := rd_pk F i H). assert (Hx := rd_xk F i H).
    rewrite rd_nth in Hp, Hx by lia. rewrite nth_error_map, E in Hp. rewrite nth_error_map, E in Hx.
    simpl in *. congruence.
  - apply nth_error_None in E. lia.
Qed.
Lemma pk_in F i : 1 <= i <= length F -> In (pk F i, xk F i) F.
Proof. intros H. eapply nth_error_In. apply pkxk_nth; auto. Qed.
Lemma pk_of_in F p x : In (p, x) F -> exists i, 1 <= i <= length F /\ pk F i = p /\ xk F i = x.
Proof.
  intros H. apply In_nth_error in H. destruct H as [k Hk].
  assert (k < length F) by (apply nth_error_Some; congruence).
  exists (S k). assert (H1 : 1 <= S k <= length F) by lia.
  assert (E := pkxk_nth F (S k) H1). simpl in E. rewrite Nat.sub_0_r in E.
  split; [lia|]. split; congruence.
Qed.
Lemma dsc_lt F i j : dsc F -> 1 <= i -> i < j -> j <= length F -> (pk F j < pk F i)%Qc.
Proof.
  intros H Hi Hij Hj.
  assert (Ei := pkxk_nth F i ltac:(lia)). assert (Ej := pkxk_nth F j ltac:(lia)).
  assert (Hl : i - 1 < j - 1) by lia.
  apply (SS_nth _ _ _ H _ _ _ _ Hl Ei Ej).
Qed.
Lemma dsc_le F i j : dsc F -> 1 <= i -> i <= j -> j <= length F -> (pk F j <= pk F i)%Qc.
Proof.
  intros H Hi Hij Hj. destruct (Nat.eq_dec i j) as [->|]; [apply Qcle_refl|].
  apply Qclt_le_weak. apply dsc_lt; auto. lia.
Qed.
Lemma dsc_inj F i j : dsc F -> 1 <= i <= length F -> 1 <= j <= length F -> pk F i = pk F j -> i = j.
Proof.
  intros H Hi Hj E. destruct (lt_eq_lt_dec i j) as [[Hl|]|Hl]; auto; exfalso.
  - assert (X := dsc_lt F i j H ltac:(lia) Hl ltac:(lia)). rewrite E in X. qclra.
  - assert (X := dsc_lt F j i H ltac:(lia) Hl ltac:(lia)). rewrite E in X. qclra.
Qed.

(** ** The two binary searches *)
Lemma mid_bounds low high : low <= high -> low <= low + (high - low) / 2 <= high.
Proof.
  intros H. assert ((high - low) / 2 <= high - low) by (apply Nat.div_le_upper_bound; lia). lia.
Qed.
Lemma mid_below low high : low < high -> low + (high - low) / 2 < high.
Proof.
  intros H. assert ((high - low) / 2 < high - low) by (apply Nat.div_lt; lia). lia.
Qed.

Lemma exact_loop_ok F t : dsc F -> forall fuel low high,
  high + 1 - low < fuel -> 1 <= low -> high <= length F ->
  (forall i, 1 <= i <= length F -> pk F i = t -> low <= i <= high) ->
  exists r, exact_loop fuel t (map fst F) low high = Some r /\
    ((r = 0 /\ forall i, 1 <= i <= length F -> pk F i <> t) \/ (1 <= r <= length F /\ pk F r = t)).
Proof.
  intros HF. induction fuel as [|f IH]; intros low high Hf Hl Hh Hin; [lia|].
  cbn [exact_loop]. destruct (Nat.leb_spec low high) as [Hle|Hgt].
  - assert (Hm := mid_bounds low high Hle). set (mid := low + (high - low) / 2) in *. clearbody mid.
    rewrite rd_pk by lia.
    destruct (Qceqb_spec t (pk F mid)) as [E|E].
    { exists mid. split; [reflexivity|]. right. split; [lia|congruence]. }
    destruct (Qcltb_spec (pk F mid) t) as [L|L].
    + apply IH; try lia. intros i Hi Hp. assert (Hb := Hin i Hi Hp).
      destruct (le_lt_dec mid i); [|lia]. exfalso.
      assert (X := dsc_le F mid i HF ltac:(lia) ltac:(lia) ltac:(lia)). rewrite Hp in X. qclra.
    + apply IH; try lia. intros i Hi Hp. assert (Hb := Hin i Hi Hp).
      destruct (le_lt_dec i mid); [|lia]. exfalso.
      assert (X := dsc_le F i mid HF ltac:(lia) ltac:(lia) ltac:(lia)). rewrite Hp in X.
      apply E. qclra.
  - exists 0. split; [reflexivity|]. left. split; [reflexivity|]. intros i Hi Hp.
    assert (Hb := Hin i Hi Hp). lia.
Qed.

Lemma exact_ok F t : dsc F ->
  exists r, locate_exact_match_desc t (map fst F) = Some r /\
    ((r = 0 /\ forall i, 1 <= i <= length F -> pk F i <> t) \/ (1 <= r <= length F /\ pk F r = t)).
Proof.
  intros HF. unfold locate_exact_match_desc. rewrite map_length. apply exact_loop_ok; auto; lia.
Qed.

Lemma interval_loop_ok F t : dsc F -> forall fuel low high,
  high + 1 - low < fuel -> 1 <= low -> high + 1 <= length F ->
  (t < pk F low)%Qc -> (pk F (high + 1) < t)%Qc -> low <= high ->
  (forall i, 1 <= i <= length F -> pk F i <> t) ->
  exists r, interval_loop fuel t (map fst F) low high = Some r /\
    1 <= r /\ r + 1 <= length F /\ (pk F (r + 1) < t)%Qc /\ (t < pk F r)%Qc.
Proof.
  intros HF. induction fuel as [|f IH]; intros low high Hf Hl Hh Ha Hb Hle Hne; [lia|].
  cbn [interval_loop]. destruct (Nat.leb_spec low high) as [_|]; [|lia].
  assert (Hm := mid_bounds low high Hle). set (mid := low + (high - low) / 2) in *. clearbody mid.
  rewrite !rd_pk by lia.
  destruct (Qcltb_spec t (pk F mid)) as [L1|L1]; simpl.
  - destruct (Qcltb_spec (pk F (mid + 1)) t) as [L2|L2].
    + exists mid. repeat split; auto; lia.
    + destruct (Qcltb_spec (pk F mid) t) as [L3|L3]; [exfalso; qclra|].
      assert (t < pk F (mid + 1))%Qc.
      { assert (pk F (mid + 1) <> t) by (apply Hne; lia). 
        destruct (Qclt_le_dec t (pk F (mid + 1))) as [|X]; [assumption|].
        exfalso. apply H. qclra. }
      assert (mid <> high). { intros ->. qclra. }
      apply IH; auto; lia.
  - assert (pk F mid < t)%Qc.
    { assert (pk F mid <> t) by (apply Hne; lia).
      destruct (Qclt_le_dec (pk F mid) t) as [|X]; [assumption|]. exfalso. apply H. qclra. }
    destruct (Qcltb_spec (pk F mid) t) as [L3|L3]; [|contradiction].
    assert (mid <> low). { intros ->. qclra. }
    apply IH; auto; try lia. replace (mid - 1 + 1) with mid by lia. assumption.
Qed.

Lemma interval_ok F t : dsc F -> 2 <= length F ->
  (t < pk F 1)%Qc -> (pk F (length F) < t)%Qc ->
  (forall i, 1 <= i <= length F -> pk F i <> t) ->
  exists r, locate_interval_desc t (map fst F) = Some r /\
    1 <= r /\ r + 1 <= length F /\ (pk F (r + 1) < t)%Qc /\ (t < pk F r)%Qc.
Proof.
  intros HF Hn Ha Hb Hne. unfold locate_interval_desc. rewrite map_length.
  destruct (Nat.ltb_spec (length F) 2); [lia|]. rewrite !rd_pk by lia.
  destruct (Qcleb_spec (pk F 1) t); [exfalso; qclra|].
  destruct (Qcleb_spec t (pk F (length F))); [exfalso; qclra|]. simpl.
  apply interval_loop_ok; auto; try lia.
  replace (length F - 1 + 1) with (length F) by lia. assumption.
Qed.

(** ** One target *)
Section OneTarget.
Variable lg : Qc -> Qc.
Definition coord (linlog : Z) : Qc -> Qc := if (Z.abs linlog =? 1)%Z then (fun p => p) else lg.
Definition lowrule (linlog : Z) : Qc -> Qc -> Qc -> Qc -> Qc -> Qc :=
  if (Z.abs linlog =? 1)%Z then on_line (fun p => p) else low_log lg.

Lemma interpolate_value_line xh xl t ph pl linlog :
  interpolate_value lg xh xl t ph pl (Z.abs linlog) = on_line (coord linlog) ph xh pl xl t.
Proof.
  unfold interpolate_value, coord, on_line. destruct (Z.abs linlog =? 1)%Z;
    unfold interpolate_linear, interpolate_log, Qcdiv; ring.
Qed.
Lemma low_compat_line xh xl t ph pl : lg pl <> lg ph ->
  extrapolate_log_low_compat lg xh xl t ph pl = low_log lg ph xh pl xl t.
Proof.
  intros H. unfold extrapolate_log_low_compat, low_log, on_line. field.
  split; intros E; apply H.
  - assert (X : (lg ph - lg pl + lg pl = 0 + lg pl)%Qc) by (rewrite E; reflexivity). 
    ring_simplify in X. congruence.
  - assert (X : (lg pl - lg ph + lg ph = 0 + lg ph)%Qc) by (rewrite E; reflexivity).
    ring_simplify in X. congruence.
Qed.

Lemma at_pair_ok F i k : 1 <= i -> i + 1 <= length F ->
  at_pair (map fst F) (map snd F) i k = Some (k (xk F i) (xk F (i + 1)) (pk F i) (pk F (i + 1))).
Proof. intros. unfold at_pair. rewrite !rd_xk, !rd_pk by lia. reflexivity. Qed.

Lemma neighbours_k F i : dsc F -> 1 <= i -> i + 1 <= length F ->
  neighbours (Lof F) (pk F i) (xk F i) (pk F (i + 1)) (xk F (i + 1)).
Proof.
  intros HF H1 H2. split; [apply pk_in; lia|]. split; [apply pk_in; lia|].
  split; [apply dsc_lt; auto; lia|]. intros p x Hp.
  destruct (pk_of_in F p x Hp) as [j [Hj [<- _]]].
  destruct (le_lt_dec j i); [right|left]; apply dsc_le; auto; lia.
Qed.
Lemma top_k F p x : dsc F -> In (p, x) F -> (p <= pk F 1)%Qc.
Proof. intros HF Hp. destruct (pk_of_in F p x Hp) as [j [Hj [<- _]]]. apply dsc_le; auto; lia. Qed.
Lemma bot_k F p x : dsc F -> In (p, x) F -> (pk F (length F) <= p)%Qc.
Proof. intros HF Hp. destruct (pk_of_in F p x Hp) as [j [Hj [<- _]]]. apply dsc_le; auto; lia. Qed.

Lemma one_target_ok F linlog xmsg t :
  dsc F -> 2 <= length F -> t <> xmsg ->
  (Z.abs linlog <> 1%Z -> forall a b, In a (map fst F) -> In b (map fst F) -> (a < b)%Qc -> lg a <> lg b) ->
  exists r, pvalue (Lof F) (coord linlog) (linlog <? 0)%Z (lowrule linlog) t r /\
    one_target lg (map fst F) (map snd F) linlog xmsg t = Some (match r with Some v => v | None => xmsg end).
Proof.
  intros HF Hn Ht Hlg. unfold one_target. destruct (Qceqb_spec t xmsg); [contradiction|].
  destruct (exact_ok F t HF) as [r [-> [[-> Hno]|[Hr E]]]].
  2: { exists (Some (xk F r)). split. 
       - apply pv_level. rewrite <- E. apply pk_in; auto.
       - destruct r; [lia|]. rewrite rd_xk by lia. reflexivity. }
  rewrite map_length, !rd_pk by lia.
  destruct (Qcltb_spec (pk F 1) t) as [L1|L1].
  { assert (Hall : forall p x, Lof F p x -> (p < t)%Qc).
    { intros p x Hp. assert (X := top_k F p x HF Hp). qclra. }
    destruct (linlog <? 0)%Z eqn:El.
    - rewrite at_pair_ok by lia. rewrite interpolate_value_line.
      exists (Some (on_line (coord linlog) (pk F 1) (xk F 1) (pk F (1 + 1)) (xk F (1 + 1)) t)).
      split; [|reflexivity]. apply pv_above; auto.
      + apply neighbours_k; auto.
      + intros p x Hp. apply (top_k F p x); auto.
    - exists None. split; [|reflexivity]. apply pv_outside; auto. }
  destruct (Qcltb_spec t (pk F (length F))) as [L2|L2].
  { assert (Hall : forall p x, Lof F p x -> (t < p)%Qc).
    { intros p x Hp. assert (X := bot_k F p x HF Hp). qclra. }
    destruct (linlog <? 0)%Z eqn:El.
    - rewrite at_pair_ok by lia.
      assert (N := neighbours_k F (length F - 1) HF ltac:(lia) ltac:(lia)).
      replace (length F - 1 + 1) with (length F) in * by lia.
      exists (Some (lowrule linlog (pk F (length F - 1)) (xk F (length F - 1)) (pk F (length F)) (xk F (length F)) t)).
      split.
      + apply pv_below; auto. intros p x Hp. apply (bot_k F p x); auto.
      + f_equal. unfold lowrule. destruct (Z.abs linlog =? 1)%Z eqn:E1.
        * rewrite interpolate_value_line. unfold coord. rewrite E1. reflexivity.
        * apply low_compat_line. apply Hlg.
          -- apply Z.eqb_neq in E1. auto.
          -- apply in_map_iff. exists (pk F (length F), xk F (length F)). split; auto. apply pk_in; lia.
          -- apply in_map_iff. exists (pk F (length F - 1), xk F (length F - 1)). split; auto. apply pk_in; lia.
          -- apply dsc_lt; auto; lia.
    - exists None. split; [|reflexivity]. apply pv_outside; auto. }
  destruct (interval_ok F t HF Hn) as [r [-> [H1 [H2 [H3 H4]]]]]; auto.
  - assert (pk F 1 <> t) by (apply Hno; lia). destruct (Qclt_le_dec t (pk F 1)); auto. exfalso; apply H; qclra.
  - assert (pk F (length F) <> t) by (apply Hno; lia). destruct (Qclt_le_dec (pk F (length F)) t); auto. exfalso; apply H; qclra.
  - exists (Some (on_line (coord linlog) (pk F r) (xk F r) (pk F (r + 1)) (xk F (r + 1)) t)). split.
    + apply pv_between; auto. apply neighbours_k; auto.
    + destruct r; [lia|]. rewrite at_pair_ok by lia. rewrite interpolate_value_line. reflexivity.
Qed.

(** ** The value is unique once pressures are distinct *)
Definition one_value (L : Qc -> Qc -> Prop) : Prop := forall p x x', L p x -> L p x' -> x = x'.
Lemma neighbours_top_unique L p0 x0 p1 x1 q0 y0 q1 y1 : one_value L ->
  neighbours L p0 x0 p1 x1 -> neighbours L q0 y0 q1 y1 ->
  (forall p x, L p x -> (p <= p0)%Qc) -> (forall p x, L p x -> (p <= q0)%Qc) ->
  p0 = q0 /\ x0 = y0 /\ p1 = q1 /\ x1 = y1.
Proof.
  intros HV [A0 [A1 [Al An]]] [B0 [B1 [Bl Bn]]] Ta Tb.
  assert (E0 : p0 = q0). { assert (X := Ta _ _ B0). assert (Y := Tb _ _ A0). qclra. }
  subst q0. assert (E1 : p1 = q1).
  { destruct (An _ _ B1) as [X|X]; [|exfalso; qclra]. destruct (Bn _ _ A1) as [Y|Y]; [|exfalso; qclra]. qclra. }
  subst q1. repeat split; eauto.
Qed.
Lemma neighbours_bot_unique L p0 x0 p1 x1 q0 y0 q1 y1 : one_value L ->
  neighbours L p0 x0 p1 x1 -> neighbours L q0 y0 q1 y1 ->
  (forall p x, L p x -> (p1 <= p)%Qc) -> (forall p x, L p x -> (q1 <= p)%Qc) ->
  p0 = q0 /\ x0 = y0 /\ p1 = q1 /\ x1 = y1.
Proof.
  intros HV [A0 [A1 [Al An]]] [B0 [B1 [Bl Bn]]] Ta Tb.
  assert (E0 : p1 = q1). { assert (X := Ta _ _ B1). assert (Y := Tb _ _ A1). qclra. }
  subst q1. assert (E1 : p0 = q0).
  { destruct (An _ _ B0) as [X|X]; [exfalso; qclra|]. destruct (Bn _ _ A0) as [Y|Y]; [exfalso; qclra|]. qclra. }
  subst q0. repeat split; eauto.
Qed.
Lemma neighbours_mid_unique L p0 x0 p1 x1 q0 y0 q1 y1 t : one_value L ->
  neighbours L p0 x0 p1 x1 -> neighbours L q0 y0 q1 y1 ->
  (p1 < t)%Qc -> (t < p0)%Qc -> (q1 < t)%Qc -> (t < q0)%Qc ->
  p0 = q0 /\ x0 = y0 /\ p1 = q1 /\ x1 = y1.
Proof.
  intros HV [A0 [A1 [Al An]]] [B0 [B1 [Bl Bn]]] T1 T2 T3 T4.
  assert (E0 : p1 = q1). { destruct (An _ _ B1); [|exfalso; qclra]. destruct (Bn _ _ A1); [|exfalso; qclra]. qclra. }
  assert (E1 : p0 = q0). { destruct (An _ _ B0); [exfalso; qclra|]. destruct (Bn _ _ A0); [exfalso; qclra|]. qclra. }
  subst. repeat split; eauto.
Qed.
Lemma pvalue_unique L c e low t r r' : one_value L -> (exists p x, L p x) ->
  pvalue L c e low t r -> pvalue L c e low t r' -> r = r'.
Proof.
  intros HV [p [x Hex]] H1 H2.
  assert (Ngt : forall u v, L u v -> (forall p x, L p x -> (p < t)%Qc) -> (u < t)%Qc) by eauto.
  assert (Nlt : forall u v, L u v -> (forall p x, L p x -> (t < p)%Qc) -> (t < u)%Qc) by eauto.
  destruct H1 as [a Ha|p0 x0 p1 x1 Na Ta Tb|He [Ho|Ho]|p0 x0 p1 x1 He Ho Na Tt|p0 x0 p1 x1 He Ho Na Tt];
  destruct H2 as [b Hb|q0 y0 q1 y1 Nb Sa Sb|Hf [Hp|Hp]|q0 y0 q1 y1 Hf Hp Nb St|q0 y0 q1 y1 Hf Hp Nb St];
  try congruence;
  try (exfalso; assert (X := Ho _ _ Hb); qclra);
  try (exfalso; assert (X := Hp _ _ Ha); qclra);
  try (exfalso; assert (X := Ho _ _ Hex); assert (Y := Hp _ _ Hex); qclra);
  try (exfalso; destruct Nb as [Nb0 [Nb1 _]]; assert (X := Ho _ _ Nb0); assert (Y := Ho _ _ Nb1); qclra);
  try (exfalso; destruct Na as [Na0 [Na1 _]]; assert (X := Hp _ _ Na0); assert (Y := Hp _ _ Na1); qclra).
  - f_equal. eapply HV; eauto.
  - exfalso. destruct Nb as [_ [_ [_ Nb]]]. destruct (Nb _ _ Ha); qclra.
  - exfalso. destruct Na as [_ [_ [_ Na]]]. destruct (Na _ _ Hb); qclra.
  - destruct (neighbours_mid_unique L p0 x0 p1 x1 q0 y0 q1 y1 t HV Na Nb Ta Tb Sa Sb) as [-> [-> [-> ->]]]. reflexivity.
  - destruct (neighbours_top_unique L p0 x0 p1 x1 q0 y0 q1 y1 HV Na Nb Tt St) as [-> [-> [-> ->]]]. reflexivity.
  - destruct (neighbours_bot_unique L p0 x0 p1 x1 q0 y0 q1 y1 HV Na Nb Tt St) as [-> [-> [-> ->]]]. reflexivity.
Qed.
Lemma pvalue_ext L L' c e low t r : (forall p x, L p x <-> L' p x) -> pvalue L c e low t r -> pvalue L' c e low t r.
Proof.
  intros H.
  assert (HN : forall p0 x0 p1 x1, neighbours L p0 x0 p1 x1 -> neighbours L' p0 x0 p1 x1).
  { intros p0 x0 p1 x1 [A [B [D E]]]. repeat split; try apply H; auto. intros p x Hp. apply (E p x). apply H. auto. }
  intros [a Ha|p0 x0 p1 x1 Na Ta Tb|He [Ho|Ho]|p0 x0 p1 x1 He Ho Na Tt|p0 x0 p1 x1 He Ho Na Tt].
  - apply pv_level. apply H. auto.
  - apply pv_between; auto.
  - apply pv_outside; auto. left. intros p x Hp. apply (Ho p x). apply H; auto.
  - apply pv_outside; auto. right. intros p x Hp. apply (Ho p x). apply H; auto.
  - apply pv_above; auto; intros p x Hp; apply H in Hp; eauto.
  - apply pv_below; auto; intros p x Hp; apply H in Hp; eauto.
Qed.

(** all targets *)
Lemma all_targets_ok F linlog xmsg : dsc F -> 2 <= length F ->
  (Z.abs linlog <> 1%Z -> forall a b, In a (map fst F) -> In b (map fst F) -> (a < b)%Qc -> lg a <> lg b) ->
  forall ts, ~ In xmsg ts ->
  exists vs, all_targets lg (map fst F) (map snd F) linlog xmsg ts = Some vs /\
    Forall2 (fun t v => exists r, pvalue (Lof F) (coord linlog) (linlog <? 0)%Z (lowrule linlog) t r /\
                         v = match r with Some v => v | None => xmsg end) ts vs.
Proof.
  intros HF Hn Hlg. induction ts as [|t ts IH]; intros Hin.
  - exists []. split; [reflexivity|constructor].
  - destruct (one_target_ok F linlog xmsg t HF Hn) as [r [Hr E]]; auto.
    { intros ->. apply Hin. left; auto. }
    destruct IH as [vs [Evs Hvs]]. { intros X; apply Hin; right; auto. }
    cbn [all_targets]. rewrite E, Evs. eexists. split; [reflexivity|]. constructor; auto.
    exists r. auto.
Qed.

Lemma compact_filter p x m : length p = length x ->
  compact_valid_levels p x m =
  (map fst (filter (fun '(a, b) => negb (Qceqb a m) && negb (Qceqb b m)) (combine p x)),
   map snd (filter (fun '(a, b) => negb (Qceqb a m) && negb (Qceqb b m)) (combine p x))).
Proof.
  revert x; induction p as [|a p IH]; intros [|b x] H; try discriminate; [reflexivity|].
  cbn [compact_valid_levels combine filter]. rewrite IH by (simpl in H; lia).
  destruct (negb (Qceqb a m) && negb (Qceqb b m)); reflexivity.
Qed.
Lemma combine_app' (A B : Type) (a a' : list A) (b b' : list B) : length a = length b ->
  combine (a ++ a') (b ++ b') = combine a b ++ combine a' b'.
Proof. revert b; induction a; intros [|y b] H; try discriminate; simpl; auto. f_equal. apply IHa. simpl in H; lia. Qed.
Lemma combine_rev (A B : Type) (a : list A) (b : list B) : length a = length b ->
  combine (rev a) (rev b) = rev (combine a b).
Proof.
  revert b; induction a as [|x a IH]; intros [|y b] H; try discriminate; [reflexivity|].
  simpl. rewrite combine_app' by (rewrite !rev_length; simpl in H; lia). rewrite IH by (simpl in H; lia). reflexivity.
Qed.
Lemma filter_app' (A : Type) (f : A -> bool) l l' : filter f (l ++ l') = filter f l ++ filter f l'.
Proof. apply filter_app. Qed.
Lemma filter_rev' (A : Type) (f : A -> bool) l : filter f (rev l) = rev (filter f l).
Proof. induction l; simpl; auto. rewrite filter_app, IHl. simpl. destruct (f a); simpl; auto. apply app_nil_r. Qed.

(** ** The kernel *)
Definition valid_pairs (pp xx : list Qc) (m : Qc) : list (Qc * Qc) :=
  filter (fun '(a, b) => negb (Qceqb a m) && negb (Qceqb b m)) (combine pp xx).

Lemma Forall2_rev (A B : Type) (R : A -> B -> Prop) l l' : Forall2 R l l' -> Forall2 R (rev l) (rev l').
Proof. induction 1; simpl; [constructor|]. apply Forall2_app; auto. Qed.
Lemma is_increasing_total v : exists b, is_increasing v = Some b.
Proof.
  unfold is_increasing. destruct (Nat.ltb_spec (length v) 2); [eauto|].
  rewrite !rd_get by lia. eauto.
Qed.

Lemma kernel_ok pp xx ts linlog xmsg rin :
  length pp = length xx -> 1 <= length ts -> ~ In xmsg ts ->
  2 <= length (valid_pairs pp xx xmsg) ->
  is_increasing pp = Some rin ->
  (if rin then asc else dsc) (valid_pairs pp xx xmsg) ->
  (Z.abs linlog <> 1%Z -> forall a b, In a (map fst (valid_pairs pp xx xmsg)) -> In b (map fst (valid_pairs pp xx xmsg)) ->
     (a < b)%Qc -> lg a <> lg b) ->
  exists vs, dinterp_pressure_1d_impl lg pp xx ts linlog xmsg = Some (vs, 0%Z) /\
    Forall2 (fun t v => exists r, pvalue (Lof (valid_pairs pp xx xmsg)) (coord linlog) (linlog <? 0)%Z (lowrule linlog) t r /\
                         v = match r with Some v => v | None => xmsg end) ts vs.
Proof.
  intros Hlen Hts Hms Hn Hinc Hs Hlg. set (F0 := valid_pairs pp xx xmsg) in *.
  assert (Hnp : 2 <= length pp).
  { assert (length F0 <= length (combine pp xx)).
    { unfold F0, valid_pairs. generalize (combine pp xx). induction l as [|c l IHl]; simpl; auto. destruct c as [c1 c2]. destruct (_ && _); simpl; lia. }
    rewrite combine_length in H. lia. }
  unfold dinterp_pressure_1d_impl.
  destruct (Nat.ltb_spec (length pp) 2); [lia|]. destruct (Nat.ltb_spec (length ts) 1); [lia|]. cbn [orb].
  rewrite Hinc.
  assert (Hout : exists rout, (if 1 <? length ts then is_increasing ts else Some false) = Some rout).
  { destruct (1 <? length ts); [apply is_increasing_total|eauto]. }
  destruct Hout as [rout ->].
  set (F := if rin then rev F0 else F0).
  assert (HF : dsc F). { unfold F. destruct rin; auto. apply SS_rev in Hs. exact Hs. }
  assert (HFl : length F = length F0). { unfold F; destruct rin; auto. apply rev_length. }
  assert (HFin : forall p x, Lof F p x <-> Lof F0 p x).
  { intros p x. unfold F, Lof. destruct rin; [|reflexivity]. symmetry. apply in_rev. }
  assert (EF : compact_valid_levels (copy_descending pp rin) (copy_descending xx rin) xmsg = (map fst F, map snd F)).
  { rewrite compact_filter by (unfold copy_descending; destruct rin; rewrite ?rev_length; auto).
    unfold F, F0, valid_pairs, copy_descending. destruct rin; [|reflexivity].
    rewrite combine_rev by auto. rewrite filter_rev'. reflexivity. }
  rewrite EF. rewrite map_length. destruct (Nat.ltb_spec (length F) 2); [lia|].
  destruct (all_targets_ok F linlog xmsg HF ltac:(lia)) with (ts := copy_descending ts rout) as [vs [-> Hvs]].
  { intros He a b Ha Hb. apply Hlg; auto; apply in_map_iff; [apply in_map_iff in Ha; destruct Ha as [[p x] [E1 E2]]|apply in_map_iff in Hb; destruct Hb as [[p x] [E1 E2]]];
      exists (p, x); split; auto; apply HFin; auto. }
  { unfold copy_descending. destruct rout; auto. intros X. apply in_rev in X. auto. }
  assert (Hvs' : Forall2 (fun t v => exists r, pvalue (Lof F0) (coord linlog) (linlog <? 0)%Z (lowrule linlog) t r /\
                         v = match r with Some v => v | None => xmsg end) (copy_descending ts rout) vs).
  { clear - Hvs HFin. induction Hvs as [|t v ts' vs' [r [Hr E]] _ IH]; constructor; auto.
    exists r. split; auto. eapply pvalue_ext; [exact HFin|exact Hr]. }
  eexists. split; [reflexivity|].
  unfold copy_descending in *. destruct rout; auto.
  apply Forall2_rev in Hvs'. rewrite rev_involutive in Hvs'. exact Hvs'.
Qed.
End OneTarget.
