(** The factorisation of the length. *)
From Coq Require Import Reals List Arith Lia Bool.
From Verif Require Import Base Buffer VH_Model FF_Model.
Import ListNotations.
Local Open Scope nat_scope.

Definition prod (l : list nat) : nat := fold_right Nat.mul 1 l.
Lemma prod_app a b : prod (a ++ b) = prod a * prod b.
Proof. unfold prod. induction a as [|x a IH]; cbn [fold_right app]; [lia|]. rewrite IH. lia. Qed.
Lemma prod_cons a l : prod (a :: l) = a * prod l.
Proof. reflexivity. Qed.
Lemma prod_nil : prod [] = 1.
Proof. reflexivity. Qed.
Lemma prod_pos l : (forall f, In f l -> 1 <= f) -> 1 <= prod l.
Proof.
  induction l; intros H; [cbn; lia|]. rewrite prod_cons. specialize (H a (or_introl eq_refl)) as Ha.
  assert (1 <= prod l) by (apply IHl; intros; apply H; right; auto). nia.
Qed.
Lemma prod_odd l : (forall f, In f l -> f mod 2 = 1) -> prod l mod 2 = 1.
Proof.
  induction l; intros H; [reflexivity|]. rewrite prod_cons. rewrite Nat.mul_mod by lia.
  rewrite (H a) by (left; auto). rewrite IHl by (intros; apply H; right; auto). reflexivity.
Qed.

(** The j-th trial divisor *)
Definition tryv (j : nat) : nat := match j with 0 | 1 => 4 | 2 => 2 | 3 => 3 | 4 => 5 | _ => 2 * j - 3 end.
Lemma tryv_next j : 1 <= j -> next_try (j + 1) (tryv j) = tryv (j + 1).
Proof.
  intros. destruct j as [|[|[|[|[|j]]]]]; try lia; try reflexivity.
  unfold tryv, next_try. cbn [Nat.add]. replace (j + 1) with (S j) by lia. cbn. lia.
Qed.
Lemma tryv_big j : 5 <= j -> tryv j = 2 * j - 3.
Proof. intros. destruct j as [|[|[|[|[|j]]]]]; try lia; reflexivity. Qed.
Lemma tryv_ge2 j : 2 <= tryv j.
Proof. destruct (le_lt_dec 5 j); [rewrite tryv_big; lia|]. destruct j as [|[|[|[|[|j]]]]]; cbn; lia. Qed.
Lemma tryv_odd j : 3 <= j -> 3 <= tryv j /\ tryv j mod 2 = 1.
Proof.
  intros. destruct (le_lt_dec 5 j).
  - rewrite tryv_big by lia. split; [lia|]. replace (2 * j - 3) with (1 + (j - 2) * 2) by lia. rewrite Nat.mod_add by lia. reflexivity.
  - destruct j as [|[|[|[|[|j]]]]]; try lia; cbn; lia.
Qed.

Lemma mod_trans q a m : q <> 0 -> a <> 0 -> m mod a = 0 -> a mod q = 0 -> m mod q = 0.
Proof.
  intros Hq Ha H1 H2. apply Nat.mod_divide in H1, H2; auto. apply Nat.mod_divide; auto. eapply Nat.divide_trans; eauto.
Qed.

(** No trial divisor before the j-th divides m *)
Definition sieved (j m : nat) : Prop := forall i, 1 <= i < j -> m mod tryv i <> 0.
Lemma sieved_div j m t : t <> 0 -> m mod t = 0 -> sieved j m -> sieved j (m / t).
Proof.
  intros Ht Hm H i Hi E. apply (H i Hi). pose proof (tryv_ge2 i).
  apply (mod_trans (tryv i) (m / t) m); auto; try lia.
  - intros Z. pose proof (Nat.div_mod_eq m t). assert (m = 0) by nia. subst m. apply (H i Hi). apply Nat.mod_0_l. lia.
  - pose proof (Nat.div_mod_eq m t). rewrite Nat.mod_divide; [exists t; lia|]. intros Z. assert (m = 0) by nia. subst m. apply (H i Hi). apply Nat.mod_0_l. lia.
Qed.
Lemma sieved_least j m q : 5 <= j -> sieved j m -> 2 <= q -> q < tryv j -> m mod q <> 0.
Proof.
  intros Hj H Hq Hlt E. rewrite tryv_big in Hlt by auto.
  pose proof (Nat.div_mod_eq q 2). pose proof (Nat.mod_upper_bound q 2 ltac:(lia)).
  destruct (Nat.eq_dec (q mod 2) 0) as [E2|E2].
  - apply (H 2 ltac:(lia)). apply (mod_trans 2 q m); auto; lia.
  - destruct (Nat.eq_dec q 3) as [->|]; [apply (H 3 ltac:(lia)); auto|].
    destruct (Nat.eq_dec q 5) as [->|]; [apply (H 4 ltac:(lia)); auto|].
    apply (H (q / 2 + 2)); [lia|]. rewrite tryv_big by lia. replace (2 * (q / 2 + 2) - 3) with q by lia. auto.
Qed.
Lemma sieved_le j m : 5 <= j -> sieved j m -> 2 <= m -> tryv j <= m.
Proof.
  intros. destruct (le_lt_dec (tryv j) m); auto. exfalso. eapply (sieved_least j m m); eauto. apply Nat.mod_same. lia.
Qed.

(** The factors found so far *)
Definition twos (l : list nat) : nat := count_occ Nat.eq_dec l 2.
Record found (n j nl : nat) (ev od : list nat) : Prop := {
  f_prod : prod (ev ++ od) * nl = n;
  f_j : 1 <= j;
  f_nl : 2 <= nl;
  f_siev : sieved j nl;
  f_ev : forall f, In f ev -> f = 2 \/ f = 4;
  f_od : forall f, In f od -> f mod 2 = 1 /\ 3 <= f;
  f_lo : j <= 2 -> od = [];
  f_two : twos ev <= 1;
  f_two1 : twos ev = 1 -> nl mod 2 = 1 }.

Record factors (n : nat) (ev od : list nat) : Prop := {
  p_prod : prod (ev ++ od) = n;
  p_ev : forall f, In f ev -> f = 2 \/ f = 4;
  p_od : forall f, In f od -> f mod 2 = 1 /\ 3 <= f;
  p_two : twos ev <= 1 }.

Lemma twos_app a b : twos (a ++ b) = twos a + twos b.
Proof. unfold twos. apply count_occ_app. Qed.
Lemma removelast_snoc {A} (l : list A) x : removelast (l ++ (x :: nil)) = l.
Proof. rewrite removelast_app by discriminate. cbn. apply app_nil_r. Qed.

Lemma factorize_ok fuel : forall n j nl ev od, found n j nl ev od -> nl + (n + 5 - j) < fuel -> 2 <= n ->
  exists ev' od', factorize fuel j (tryv j) nl (ev ++ od) = Some (ev' ++ od') /\ factors n ev' od' /\ ev' ++ od' <> [].
Proof.
  induction fuel; intros n j nl ev od F Hf Hn; [lia|].
  destruct F as [P J NL SV EV OD LO T1 T2].
  assert (nln : nl <= n) by (assert (prod (ev ++ od) <> 0) by (intros Z; rewrite Z in P; lia); nia).
  cbn [factorize]. destruct (Nat.eqb_spec (nl mod tryv j) 0) as [E|E].
  - pose proof (tryv_ge2 j) as G. pose proof (Nat.div_mod_eq nl (tryv j)) as DM. rewrite E, Nat.add_0_r in DM.
    assert (Q1 : 1 <= nl / tryv j) by (destruct (nl / tryv j); [lia|lia]).
    assert (Q2 : nl / tryv j < nl) by nia.
    set (v := tryv j) in *. set (nl' := nl / v) in *.
    assert (C : v = 2 /\ j = 2 \/ v = 4 /\ j = 1 \/ 3 <= j /\ 3 <= v /\ v mod 2 = 1).
    { destruct (le_lt_dec 3 j); [right; right; split; auto; apply tryv_odd; auto|].
      destruct j as [|[|[|j]]]; try lia; [right; left|left]; auto. }
    (* the new lists *)
    assert (NX : exists ev1 od1, (ev ++ od) ++ (v :: nil) = ev1 ++ od1 /\
        (forall f, In f ev1 -> f = 2 \/ f = 4) /\ (forall f, In f od1 -> f mod 2 = 1 /\ 3 <= f) /\
        (j <= 2 -> od1 = []) /\ twos ev1 <= 1 /\ (twos ev1 = 1 -> nl' mod 2 = 1)).
    { destruct C as [[Ev Ej]|[[Ev Ej]|[Ej [Ev Eo]]]].
      - exists (ev ++ (v :: nil)), []. rewrite LO by lia. rewrite !app_nil_r. split; auto. split.
        { intros f Hf'. apply in_app_iff in Hf'. destruct Hf' as [Hf'|[<-|[]]]; auto. }
        split; [intros f []|]. split; auto. rewrite twos_app. rewrite Ev. 
        assert (twos ev = 0).
        { destruct (Nat.eq_dec (twos ev) 0); auto. assert (twos ev = 1) as T by lia. apply T2 in T. rewrite Ev in DM. rewrite DM in T.
          rewrite Nat.mul_comm, Nat.mod_mul in T by lia. discriminate. }
        assert (twos (2 :: nil) = 1) by reflexivity. split; [lia|]. intros _.
        pose proof (SV 1 ltac:(lia)) as S4. cbn [tryv] in S4.
        pose proof (Nat.div_mod_eq nl' 2) as D2. pose proof (Nat.mod_upper_bound nl' 2 ltac:(lia)).
        destruct (Nat.eq_dec (nl' mod 2) 0) as [Z|]; [|lia]. exfalso. apply S4. rewrite DM, Ev, D2, Z.
        replace (2 * (2 * (nl' / 2) + 0)) with (nl' / 2 * 4) by lia. apply Nat.mod_mul. lia.
      - exists (ev ++ (v :: nil)), []. rewrite LO by lia. rewrite !app_nil_r. split; auto. split.
        { intros f Hf'. apply in_app_iff in Hf'. destruct Hf' as [Hf'|[<-|[]]]; auto. }
        split; [intros f []|]. split; auto. rewrite twos_app. rewrite Ev. assert (twos (4 :: nil) = 0) by reflexivity.
        split; [lia|]. intros T. assert (T' : twos ev = 1) by lia. apply T2 in T'. rewrite DM, Ev in T'.
        replace (4 * nl') with (2 * nl' * 2) in T' by lia. rewrite Nat.mod_mul in T' by lia. discriminate.
      - exists ev, (od ++ (v :: nil)). rewrite app_assoc. split; auto. split; auto. split.
        { intros f Hf'. apply in_app_iff in Hf'. destruct Hf' as [Hf'|[<-|[]]]; auto. }
        split; [lia|]. split; auto. intros T. apply T2 in T.
        pose proof (Nat.div_mod_eq nl' 2) as D2. pose proof (Nat.mod_upper_bound nl' 2 ltac:(lia)).
        destruct (Nat.eq_dec (nl' mod 2) 0) as [Z|]; [|lia]. exfalso. rewrite DM in T. rewrite Nat.mul_mod, Z, Nat.mul_0_r in T by lia. discriminate. }
    destruct NX as (ev1 & od1 & E1 & EV1 & OD1 & LO1 & T1' & T2').
    assert (P1 : prod (ev1 ++ od1) * nl' = n).
    { rewrite <- E1, prod_app, prod_cons, prod_nil. nia. }
    rewrite E1. destruct (Nat.eqb_spec nl' 1) as [En|En].
    + unfold finish. destruct (andb _ _) eqn:B.
      * apply andb_true_iff in B. destruct B as [B1 B2]. apply Nat.eqb_eq in B1.
        destruct C as [[Ev Ej]|[[Ev Ej]|[Ej [Ev Eo]]]]; [|lia|rewrite B1 in Eo; discriminate].
        rewrite LO1 in * by lia. rewrite LO in * by lia. rewrite !app_nil_r in *. rewrite <- E1.
        rewrite removelast_snoc. exists (2 :: ev), []. rewrite app_nil_r. split; auto. split; [|discriminate].
        constructor.
        -- rewrite app_nil_r. rewrite <- E1 in P1. rewrite prod_app, prod_cons, prod_nil in P1. rewrite prod_cons. nia.
        -- intros f [<-|Hf']; auto.
        -- intros f [].
        -- rewrite <- E1, twos_app in T1'. rewrite Ev in T1'. change (twos (2 :: ev)) with (S (twos ev)). change (twos (2 :: nil)) with 1 in T1'. lia.
      * exists ev1, od1. split; auto. split; [constructor; auto; nia|].
        rewrite <- E1. intros Z. apply app_eq_nil in Z. destruct Z; discriminate.
    + destruct (IHfuel n j nl' ev1 od1) as (ev' & od' & R & FA & NE); [ |lia|auto| ].
      * constructor; auto; [lia|]. apply sieved_div; auto. lia.
      * exists ev', od'. auto.
  - rewrite tryv_next by auto. apply IHfuel; auto.
    + constructor; auto; try lia; [|intros; apply LO; lia]. intros i Hi. destruct (Nat.eq_dec i j) as [->|]; auto. apply SV; lia.
    + assert (j <= n + 4); [|lia]. destruct (le_lt_dec 5 j); [|lia].
      pose proof (sieved_le j nl ltac:(auto) SV NL) as L. rewrite tryv_big in L by auto. lia.
Qed.

Lemma factorize_total fuel n : 2 <= n -> 2 * n + 5 <= fuel ->
  exists ev od, factorize fuel 1 4 n [] = Some (ev ++ od) /\ factors n ev od /\ ev ++ od <> [].
Proof.
  intros Hn Hf. apply (factorize_ok fuel n 1 n [] []); auto; [|lia].
  constructor; cbn [app In twos count_occ]; try lia; try (intros; contradiction).
  - rewrite prod_nil. lia.
  - intros i Hi. lia.
  - auto.
Qed.

(** With less fuel the search may fail, but gives no other result *)
Lemma factorize_mono fuel fuel' j ntry nl fac l : fuel <= fuel' -> factorize fuel j ntry nl fac = Some l -> factorize fuel' j ntry nl fac = Some l.
Proof.
  revert fuel' j ntry nl fac. induction fuel; intros fuel' j ntry nl fac Hf H; [discriminate|].
  destruct fuel' as [|fuel']; [lia|]. cbn [factorize] in *. destruct (_ =? 0).
  - destruct (_ =? 1); auto. apply IHfuel; auto. lia.
  - apply IHfuel; auto. lia.
Qed.
Lemma factorize_sound fuel n l : 2 <= n -> factorize fuel 1 4 n [] = Some l -> exists ev od, l = ev ++ od /\ factors n ev od /\ ev ++ od <> [].
Proof.
  intros Hn H. destruct (factorize_total (2 * n + 5 + fuel) n Hn ltac:(lia)) as (ev & od & R & F & NE).
  exists ev, od. split; auto. apply (factorize_mono _ (2 * n + 5 + fuel)) in H; [|lia]. rewrite H in R. injection R; auto.
Qed.

(** The number of factors *)
Lemma factors_count n ev od : factors n ev od -> ev ++ od <> [] -> 2 * 3 ^ (length (ev ++ od) - 1) <= n.
Proof.
  intros [P EV OD T] NE.
  assert (G : forall l, (forall f, In f l -> 2 <= f) -> twos l <= 1 -> 3 ^ length l <= 3 ^ twos l * prod l /\ (twos l = 1 -> 2 * 3 ^ (length l - 1) <= prod l)).
  { induction l as [|a l IH]; intros H2 HT; [cbn; lia|].
    assert (A2 : 2 <= a) by (apply H2; left; auto).
    assert (H2' : forall f, In f l -> 2 <= f) by (intros; apply H2; right; auto).
    unfold twos in *. cbn [count_occ length] in *. rewrite prod_cons. destruct (Nat.eq_dec a 2) as [->|Ha].
    - assert (Z : count_occ Nat.eq_dec l 2 = 0) by lia. rewrite Z in *. destruct (IH H2' ltac:(lia)) as [I1 _]. cbn [Nat.pow] in *.
      replace (S (length l) - 1) with (length l) by lia. lia.
    - destruct (IH H2' HT) as [I1 I2]. split.
      + cbn [Nat.pow]. nia.
      + intros T1. specialize (I2 T1). replace (S (length l) - 1) with (length l) by lia.
        destruct l as [|b l]; [cbn in T1; lia|]. cbn [length] in *. replace (S (length l) - 1) with (length l) in I2 by lia.
        rewrite Nat.pow_succ_r'. nia. }
  assert (H2 : forall f, In f (ev ++ od) -> 2 <= f).
  { intros f Hf. apply in_app_iff in Hf. destruct Hf as [Hf|Hf]; [destruct (EV f Hf); lia|destruct (OD f Hf); lia]. }
  assert (TO : twos od = 0).
  { unfold twos. apply count_occ_not_In. intros H. destruct (OD 2 H) as [H1 _]. discriminate. }
  assert (TT : twos (ev ++ od) <= 1) by (rewrite twos_app; lia).
  destruct (G (ev ++ od) H2 TT) as [G1 G2]. rewrite P in *.
  destruct (Nat.eq_dec (twos (ev ++ od)) 1) as [E|E]; [auto|].
  assert (Z : twos (ev ++ od) = 0) by lia. rewrite Z in G1. cbn [Nat.pow] in G1.
  destruct (length (ev ++ od)) as [|m] eqn:L; [apply length_zero_iff_nil in L; contradiction|].
  replace (S m - 1) with m by lia. rewrite Nat.pow_succ_r' in G1. lia.
Qed.
