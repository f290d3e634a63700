(** The forward passes of radix 2, 3, 4 and 5. *)
From Coq Require Import Reals List Arith Lia Lra Bool.
From Verif Require Import Base Buffer VH_Model RS_Spec RS_Dft FF_Model FF_Proofs FF_Proofs2 FF_Proofs3.
Import ListNotations.
Local Open Scope R_scope.

(** ** Angles *)
Lemma th_as r m (u : R) : u = 2 * PI * INR m / INR r -> th r m = u.
Proof. intros ->. reflexivity. Qed.
Lemma cos_th_0 r : cos (th r 0) = 1. Proof. rewrite th_0. apply cos_0. Qed.
Lemma sin_th_0 r : sin (th r 0) = 0. Proof. rewrite th_0. apply sin_0. Qed.

Lemma cos_2_1 : cos (th 2 1) = -1.
Proof. rewrite (th_as 2 1 PI); [apply cos_PI|]. simpl INR. field. Qed.
Lemma sin_2_1 : sin (th 2 1) = 0.
Proof. rewrite (th_as 2 1 PI); [apply sin_PI|]. simpl INR. field. Qed.

Lemma cos_4_1 : cos (th 4 1) = 0.
Proof. rewrite (th_as 4 1 (PI / 2)); [apply cos_PI2|]. simpl INR. field. Qed.
Lemma sin_4_1 : sin (th 4 1) = 1.
Proof. rewrite (th_as 4 1 (PI / 2)); [apply sin_PI2|]. simpl INR. field. Qed.
Lemma cos_4_2 : cos (th 4 2) = -1.
Proof. rewrite (th_as 4 2 PI); [apply cos_PI|]. simpl INR. field. Qed.
Lemma sin_4_2 : sin (th 4 2) = 0.
Proof. rewrite (th_as 4 2 PI); [apply sin_PI|]. simpl INR. field. Qed.
Lemma cos_4_3 : cos (th 4 3) = 0.
Proof. change 3%nat with (4 * 1 - 1)%nat. rewrite cos_th_back by lia. apply cos_4_1. Qed.
Lemma sin_4_3 : sin (th 4 3) = -1.
Proof. change 3%nat with (4 * 1 - 1)%nat. rewrite sin_th_back by lia. rewrite sin_4_1. ring. Qed.
Lemma cos_4_4 : cos (th 4 4) = 1.
Proof. change 4%nat with (4 * 1 + 0)%nat at 2. rewrite cos_th_turn by lia. apply cos_th_0. Qed.
Lemma sin_4_4 : sin (th 4 4) = 0.
Proof. change 4%nat with (4 * 1 + 0)%nat at 2. rewrite sin_th_turn by lia. apply sin_th_0. Qed.
Lemma cos_4_6 : cos (th 4 6) = -1.
Proof. change 6%nat with (4 * 1 + 2)%nat. rewrite cos_th_turn by lia. apply cos_4_2. Qed.
Lemma sin_4_6 : sin (th 4 6) = 0.
Proof. change 6%nat with (4 * 1 + 2)%nat. rewrite sin_th_turn by lia. apply sin_4_2. Qed.

Lemma HSQT2_alt : 1 / sqrt 2 = HSQT2.
Proof.
  unfold HSQT2. assert (0 < sqrt 2) by (apply sqrt_lt_R0; lra). assert (sqrt 2 * sqrt 2 = 2) by (apply sqrt_sqrt; lra).
  apply (Rmult_eq_reg_l (sqrt 2)); [|lra]. field_simplify; [|lra]. nra.
Qed.
Lemma cos_8_1 : cos (th 8 1) = HSQT2.
Proof. rewrite (th_as 8 1 (PI / 4)); [rewrite cos_PI4; apply HSQT2_alt|]. simpl INR. field. Qed.
Lemma sin_8_1 : sin (th 8 1) = HSQT2.
Proof. rewrite (th_as 8 1 (PI / 4)); [rewrite sin_PI4; apply HSQT2_alt|]. simpl INR. field. Qed.
Lemma cos_8_2 : cos (th 8 2) = 0.
Proof. change (th 8 2) with (th (2 * 4) (2 * 1)). rewrite th_scale by lia. apply cos_4_1. Qed.
Lemma sin_8_2 : sin (th 8 2) = 1.
Proof. change (th 8 2) with (th (2 * 4) (2 * 1)). rewrite th_scale by lia. apply sin_4_1. Qed.
Lemma cos_8_3 : cos (th 8 3) = - HSQT2.
Proof. rewrite (th_as 8 3 (3 * (PI / 4))); [rewrite cos_3PI4, <- HSQT2_alt; field; apply Rgt_not_eq, sqrt_lt_R0; lra|]. simpl INR. field. Qed.
Lemma sin_8_3 : sin (th 8 3) = HSQT2.
Proof. rewrite (th_as 8 3 (3 * (PI / 4))); [rewrite sin_3PI4; apply HSQT2_alt|]. simpl INR. field. Qed.

Lemma cos_3_1 : cos (th 3 1) = taur.
Proof. rewrite (th_as 3 1 (2 * (PI / 3))); [rewrite cos_2PI3; unfold taur; lra|]. simpl INR. field. Qed.
Lemma sin_3_1 : sin (th 3 1) = taui.
Proof. rewrite (th_as 3 1 (2 * (PI / 3))); [apply sin_2PI3|]. simpl INR. field. Qed.
Lemma cos_3_2 : cos (th 3 2) = taur.
Proof. change 2%nat with (3 * 1 - 1)%nat. rewrite cos_th_back by lia. apply cos_3_1. Qed.
Lemma sin_3_2 : sin (th 3 2) = - taui.
Proof. change 2%nat with (3 * 1 - 1)%nat. rewrite sin_th_back by lia. rewrite sin_3_1. ring. Qed.

Lemma cos_5_1 : cos (th 5 1) = TR11.
Proof. unfold TR11. f_equal. apply th_as. simpl INR. field. Qed.
Lemma sin_5_1 : sin (th 5 1) = TI11.
Proof. unfold TI11. f_equal. apply th_as. simpl INR. field. Qed.
Lemma cos_5_2 : cos (th 5 2) = TR12.
Proof. unfold TR12. f_equal. apply th_as. simpl INR. field. Qed.
Lemma sin_5_2 : sin (th 5 2) = TI12.
Proof. unfold TI12. f_equal. apply th_as. simpl INR. field. Qed.
Lemma cos_5_3 : cos (th 5 3) = TR12.
Proof. change 3%nat with (5 * 1 - 2)%nat. rewrite cos_th_back by lia. apply cos_5_2. Qed.
Lemma sin_5_3 : sin (th 5 3) = - TI12.
Proof. change 3%nat with (5 * 1 - 2)%nat. rewrite sin_th_back by lia. now rewrite sin_5_2. Qed.
Lemma cos_5_4 : cos (th 5 4) = TR11.
Proof. change 4%nat with (5 * 1 - 1)%nat. rewrite cos_th_back by lia. apply cos_5_1. Qed.
Lemma sin_5_4 : sin (th 5 4) = - TI11.
Proof. change 4%nat with (5 * 1 - 1)%nat. rewrite sin_th_back by lia. now rewrite sin_5_1. Qed.
Lemma cos_5_6 : cos (th 5 6) = TR11.
Proof. change 6%nat with (5 * 1 + 1)%nat. rewrite cos_th_turn by lia. apply cos_5_1. Qed.
Lemma sin_5_6 : sin (th 5 6) = TI11.
Proof. change 6%nat with (5 * 1 + 1)%nat. rewrite sin_th_turn by lia. apply sin_5_1. Qed.
Lemma cos_5_8 : cos (th 5 8) = TR12.
Proof. change 8%nat with (5 * 1 + 3)%nat. rewrite cos_th_turn by lia. apply cos_5_3. Qed.
Lemma sin_5_8 : sin (th 5 8) = - TI12.
Proof. change 8%nat with (5 * 1 + 3)%nat. rewrite sin_th_turn by lia. apply sin_5_3. Qed.

(** ** Tactics *)
Ltac angles :=
  repeat match goal with |- context [th ?r (?s * ?a)] =>
    let v := eval compute in (s * a)%nat in change (th r (s * a)) with (th r v) end;
  rewrite ?cos_th_0, ?sin_th_0, ?cos_2_1, ?sin_2_1, ?cos_4_1, ?sin_4_1, ?cos_4_2, ?sin_4_2, ?cos_4_3, ?sin_4_3,
    ?cos_4_4, ?sin_4_4, ?cos_4_6, ?sin_4_6, ?cos_3_1, ?sin_3_1, ?cos_3_2, ?sin_3_2,
    ?cos_5_1, ?sin_5_1, ?cos_5_2, ?sin_5_2, ?cos_5_3, ?sin_5_3, ?cos_5_4, ?sin_5_4, ?cos_5_6, ?sin_5_6, ?cos_5_8, ?sin_5_8.
Ltac angles_h :=
  repeat match goal with |- context [th (2 * ?r) ?s] =>
    let v := eval compute in (2 * r)%nat in change (th (2 * r) s) with (th v s) end;
  rewrite ?cos_th_0, ?sin_th_0, ?cos_4_1, ?sin_4_1, ?cos_8_1, ?sin_8_1, ?cos_8_2, ?sin_8_2, ?cos_8_3, ?sin_8_3.
(** all positions of a program *)
Ltac hit := repeat first [apply Exists_cons_hd; reflexivity | apply Exists_cons_tl].
Ltac hit_loop k := apply (exists_loop _ _ _ _ k); [lia|]; hit; fail.
Ltac hit_loop2 k q := apply (exists_loop _ _ _ _ k); [lia|]; apply (exists_loop2 _ _ _ q); [lia|lia|]; hit; fail.

Section Passes.
Variable d : R.
Variables ido l1 : nat.
Variable x : nat -> R.
Variables A B : list R.
Hypothesis Hido : (0 < ido)%nat.
Hypothesis Hl1 : (0 < l1)%nat.
Variable w : nat -> nat -> R.

Lemma even_half : (ido mod 2 =? 1)%nat = false -> ido = (2 * (ido / 2))%nat.
Proof. intros H. apply Nat.eqb_neq in H. pose proof (Nat.div_mod_eq ido 2). pose proof (Nat.mod_upper_bound ido 2 ltac:(lia)). lia. Qed.

(** the value written equals the sum given by [L] *)
Ltac val L := etransitivity; [|symmetry; eapply L; auto; lia]; cbn [sumR]; angles.
Ltac vala L m := etransitivity; [|symmetry; eapply L with (a := m); auto; lia]; cbn [sumR]; angles.
Ltac valh L m h := etransitivity; [|symmetry; eapply L with (a := m) (q := h); auto; lia]; cbn [sumR]; angles.
Ltac q0 r := rewrite !(TR_0 d r ido l1 x A) by (auto; lia); rewrite !TI_0; try ring.
Ltac qq r := rewrite !(TR_q0 d r ido l1 x A) by (auto; lia); rewrite !(TI_q0 d r ido l1 x A) by (auto; lia);
  rewrite !(TR_q d r ido l1 x A) with (w := w) by (auto; lia); rewrite !(TI_q d r ido l1 x A) with (w := w) by (auto; lia);
  change (1 - 1)%nat with 0%nat; change (2 - 1)%nat with 1%nat; change (3 - 1)%nat with 2%nat; change (4 - 1)%nat with 3%nat; try ring.
Ltac qh r := rewrite !(TR_h d r ido l1 x A) by (auto; lia); rewrite !(TI_h d r ido l1 x A) by (auto; lia); angles_h; try ring.

Lemma hradf2_ok : stage_in d 2 ido l1 x A -> twisted 2 ido w -> length B = (ido * 2 * l1)%nat ->
  exists B', run (hradf2 d ido l1 (w 0%nat)) (A, B) = Some (A, B') /\ length B' = length B /\ stage_out d 2 ido l1 x B'.
Proof.
  intros Hin Hw HB.
  assert (Tail : (ido mod 2 =? 1)%nat = false -> forall z, In z (hradf2_tail d ido l1) ->
     a_ch z = true /\ (a_ix z < ido * 2 * l1)%nat /\ (forall b, a_val z A b = target 2 ido l1 x (a_ix z))).
  { intros E z Hz. pose proof (even_half E) as E2. set (h := (ido / 2)%nat) in *.
    apply in_loop in Hz. destruct Hz as (k & Hk & Hz). cbn [In] in Hz.
    destruct Hz as [<-|[<-|[]]]; apply outf_ok; auto; try lia.
    - replace (1 - 1)%nat with (ido + 2 - (2 * h + 1) - 1)%nat at 1 by lia. valh out_im_minus 1%nat h. qh 2%nat.
    - replace (ido - 1)%nat with (2 * h + 1 - 1 - 1)%nat by lia. valh out_re_plus 0%nat h. qh 2%nat. }
  apply pass_ok; auto.
  - intros z Hz. unfold hradf2 in Hz.
    apply in_app_iff in Hz. destruct Hz as [Hz|Hz].
    + apply in_loop in Hz. destruct Hz as (k & Hk & Hz). cbn [In] in Hz.
      destruct Hz as [<-|[<-|[]]]; apply outf_ok; auto; try lia.
      * val out_first. q0 2%nat.
      * vala out_head_even 1%nat. q0 2%nat.
    + destruct (ido <? 2)%nat eqn:E1; [destruct Hz|]. apply Nat.ltb_ge in E1.
      destruct (ido =? 2)%nat eqn:E2; [apply Nat.eqb_eq in E2; apply Tail; auto; rewrite E2; reflexivity|].
      apply in_app_iff in Hz. destruct Hz as [Hz|Hz].
      * apply in_loop in Hz. destruct Hz as (k & Hk & Hz). apply in_loop2 in Hz. destruct Hz as (q & Q1 & Q2 & Hz).
        cbn [In] in Hz.
        destruct Hz as [<-|[<-|[<-|[<-|[]]]]]; apply outf_ok; auto; try lia.
        -- vala out_im_plus 0%nat. qq 2%nat.
        -- vala out_im_minus 1%nat. qq 2%nat.
        -- vala out_re_plus 0%nat. qq 2%nat.
        -- vala out_re_minus 1%nat. qq 2%nat.
      * destruct (ido mod 2 =? 1)%nat eqn:E3; [destruct Hz|auto].
  - intros i j k Hi Hj Hk. unfold hradf2.
    assert (J : (j = 1 \/ j = 2)%nat) by lia.
    destruct J as [->| ->].
    + destruct (col_odd ido i Hi) as [->|[(q & Q1 & Q2 & Q3)|[-> E]]].
      * apply exists_app_l. hit_loop k.
      * apply exists_app_r. destruct (ido <? 2)%nat eqn:E1; [apply Nat.ltb_lt in E1; lia|].
        destruct (ido =? 2)%nat eqn:E2; [apply Nat.eqb_eq in E2; lia|]. apply exists_app_l.
        destruct Q3 as [->| ->]; hit_loop2 k q.
      * destruct (Nat.eq_dec ido 1) as [->|]; [apply exists_app_l; hit_loop k|].
        apply exists_app_r. destruct (ido <? 2)%nat eqn:E1; [apply Nat.ltb_lt in E1; lia|].
        destruct (ido =? 2)%nat eqn:E2; [hit_loop k|]. apply exists_app_r. rewrite E. hit_loop k.
    + destruct (col_even ido i Hi) as [->|[(q & Q1 & Q2 & Q3)|(-> & E & E')]].
      * apply exists_app_l. hit_loop k.
      * apply exists_app_r. destruct (ido <? 2)%nat eqn:E1; [apply Nat.ltb_lt in E1; lia|].
        destruct (ido =? 2)%nat eqn:E2; [apply Nat.eqb_eq in E2; lia|]. apply exists_app_l.
        destruct Q3 as [->| ->]; hit_loop2 k q.
      * apply exists_app_r. destruct (ido <? 2)%nat eqn:E1; [apply Nat.ltb_lt in E1; lia|].
        destruct (ido =? 2)%nat eqn:E2; [hit_loop k|]. apply exists_app_r. rewrite E. hit_loop k.
Qed.

Lemma hradf4_ok : stage_in d 4 ido l1 x A -> twisted 4 ido w -> length B = (ido * 4 * l1)%nat ->
  exists B', run (hradf4 d ido l1 (w 0%nat) (w 1%nat) (w 2%nat)) (A, B) = Some (A, B') /\ length B' = length B /\ stage_out d 4 ido l1 x B'.
Proof.
  intros Hin Hw HB.
  assert (Tail : (ido mod 2 =? 1)%nat = false -> forall z, In z (hradf4_tail d ido l1) ->
     a_ch z = true /\ (a_ix z < ido * 4 * l1)%nat /\ (forall b, a_val z A b = target 4 ido l1 x (a_ix z))).
  { intros E z Hz. pose proof (even_half E) as E2. set (h := (ido / 2)%nat) in *.
    apply in_loop in Hz. destruct Hz as (k & Hk & Hz). cbn [In] in Hz.
    destruct Hz as [<-|[<-|[<-|[<-|[]]]]]; apply outf_ok; auto; try lia.
    - replace (ido - 1)%nat with (2 * h + 1 - 1 - 1)%nat by lia. valh out_re_plus 0%nat h. qh 4%nat.
    - replace (ido - 1)%nat with (2 * h + 1 - 1 - 1)%nat by lia. valh out_re_plus 1%nat h. qh 4%nat.
    - replace (1 - 1)%nat with (ido + 2 - (2 * h + 1) - 1)%nat at 1 by lia. valh out_im_minus 1%nat h. qh 4%nat.
    - replace (1 - 1)%nat with (ido + 2 - (2 * h + 1) - 1)%nat at 1 by lia. valh out_im_minus 2%nat h. qh 4%nat. }
  apply pass_ok; auto; try lia.
  - intros z Hz. unfold hradf4 in Hz. apply in_app_iff in Hz. destruct Hz as [Hz|Hz].
    + apply in_loop in Hz. destruct Hz as (k & Hk & Hz). cbn [In] in Hz.
      destruct Hz as [<-|[<-|[<-|[<-|[]]]]]; apply outf_ok; auto; try lia.
      * val out_first. q0 4%nat.
      * vala out_head_even 2%nat. q0 4%nat.
      * vala out_head_even 1%nat. q0 4%nat.
      * vala out_head_odd 1%nat. q0 4%nat.
    + destruct (ido <? 2)%nat eqn:E1; [destruct Hz|]. apply Nat.ltb_ge in E1.
      destruct (ido =? 2)%nat eqn:E2; [apply Nat.eqb_eq in E2; apply Tail; auto; rewrite E2; reflexivity|].
      apply in_app_iff in Hz. destruct Hz as [Hz|Hz].
      * apply in_loop in Hz. destruct Hz as (k & Hk & Hz). apply in_loop2 in Hz. destruct Hz as (q & Q1 & Q2 & Hz).
        cbn [In] in Hz.
        destruct Hz as [<-|[<-|[<-|[<-|[<-|[<-|[<-|[<-|[]]]]]]]]]; apply outf_ok; auto; try lia.
        -- vala out_re_plus 0%nat. qq 4%nat.
        -- vala out_re_minus 2%nat. qq 4%nat.
        -- vala out_im_plus 0%nat. qq 4%nat.
        -- vala out_im_minus 2%nat. qq 4%nat.
        -- vala out_re_plus 1%nat. qq 4%nat.
        -- vala out_re_minus 1%nat. qq 4%nat.
        -- vala out_im_plus 1%nat. qq 4%nat.
        -- vala out_im_minus 1%nat. qq 4%nat.
      * destruct (ido mod 2 =? 1)%nat eqn:E3; [destruct Hz|auto].
  - intros i j k Hi Hj Hk. unfold hradf4.
    assert (J : (j = 1 \/ j = 2 \/ j = 3 \/ j = 4)%nat) by lia.
    assert (Jp : (exists a, j = 2 * a + 1)%nat \/ (exists a, j = 2 * a + 2)%nat).
    { repeat destruct J as [J|J]; subst j; first [left; exists 0%nat; reflexivity | left; exists 1%nat; reflexivity | left; exists 2%nat; reflexivity
        | right; exists 0%nat; reflexivity | right; exists 1%nat; reflexivity]. }
    destruct Jp as [(a & Ja)|(a & Ja)].
    + destruct (col_odd ido i Hi) as [->|[(q & Q1 & Q2 & Q3)|[-> E]]].
      * apply exists_app_l. repeat destruct J as [J|J]; subst j; try lia; hit_loop k.
      * apply exists_app_r. destruct (ido <? 2)%nat eqn:E1; [apply Nat.ltb_lt in E1; lia|].
        destruct (ido =? 2)%nat eqn:E2; [apply Nat.eqb_eq in E2; lia|]. apply exists_app_l.
        destruct Q3 as [->| ->]; repeat destruct J as [J|J]; subst j; try lia; hit_loop2 k q.
      * destruct (Nat.eq_dec ido 1) as [E1|E1]; [rewrite E1 in E; discriminate|].
        apply exists_app_r. destruct (ido <? 2)%nat eqn:E1'; [apply Nat.ltb_lt in E1'; lia|].
        destruct (ido =? 2)%nat eqn:E2; [|apply exists_app_r; rewrite E];
          repeat destruct J as [J|J]; subst j; try lia; hit_loop k.
    + destruct (col_even ido i Hi) as [->|[(q & Q1 & Q2 & Q3)|(-> & E & E')]].
      * apply exists_app_l. repeat destruct J as [J|J]; subst j; try lia; hit_loop k.
      * apply exists_app_r. destruct (ido <? 2)%nat eqn:E1; [apply Nat.ltb_lt in E1; lia|].
        destruct (ido =? 2)%nat eqn:E2; [apply Nat.eqb_eq in E2; lia|]. apply exists_app_l.
        destruct Q3 as [->| ->]; repeat destruct J as [J|J]; subst j; try lia; hit_loop2 k q.
      * apply exists_app_r. destruct (ido <? 2)%nat eqn:E1; [apply Nat.ltb_lt in E1; lia|].
        destruct (ido =? 2)%nat eqn:E2; [|apply exists_app_r; rewrite E];
          repeat destruct J as [J|J]; subst j; try lia; hit_loop k.
Qed.

Lemma hradf3_ok : (ido mod 2 = 1)%nat -> stage_in d 3 ido l1 x A -> twisted 3 ido w -> length B = (ido * 3 * l1)%nat ->
  exists B', run (hradf3 d ido l1 (w 0%nat) (w 1%nat)) (A, B) = Some (A, B') /\ length B' = length B /\ stage_out d 3 ido l1 x B'.
Proof.
  intros Ho Hin Hw HB.
  apply pass_ok; auto; try lia.
  - intros z Hz. unfold hradf3 in Hz. apply in_app_iff in Hz. destruct Hz as [Hz|Hz].
    + apply in_loop in Hz. destruct Hz as (k & Hk & Hz). cbn [In] in Hz.
      destruct Hz as [<-|[<-|[<-|[]]]]; apply outf_ok; auto; try lia.
      * val out_first. q0 3%nat.
      * vala out_head_odd 1%nat. q0 3%nat.
      * vala out_head_even 1%nat. q0 3%nat.
    + destruct (ido =? 1)%nat eqn:E1; [destruct Hz|]. apply Nat.eqb_neq in E1.
      apply in_loop in Hz. destruct Hz as (k & Hk & Hz). apply in_loop2 in Hz. destruct Hz as (q & Q1 & Q2 & Hz).
        cbn [In] in Hz.
        destruct Hz as [<-|[<-|[<-|[<-|[<-|[<-|[]]]]]]]; apply outf_ok; auto; try lia.
      * vala out_re_plus 0%nat. qq 3%nat.
      * vala out_im_plus 0%nat. qq 3%nat.
      * vala out_re_plus 1%nat. qq 3%nat.
      * vala out_re_minus 1%nat. qq 3%nat.
      * vala out_im_plus 1%nat. qq 3%nat.
      * vala out_im_minus 1%nat. qq 3%nat.
  - intros i j k Hi Hj Hk. unfold hradf3.
    assert (J : (j = 1 \/ j = 2 \/ j = 3)%nat) by lia.
    assert (Jp : (exists a, j = 2 * a + 1)%nat \/ (exists a, j = 2 * a + 2)%nat).
    { repeat destruct J as [J|J]; subst j; first [left; exists 0%nat; reflexivity | left; exists 1%nat; reflexivity | left; exists 2%nat; reflexivity
        | right; exists 0%nat; reflexivity | right; exists 1%nat; reflexivity]. }
    destruct Jp as [(a & Ja)|(a & Ja)].
    + destruct (col_odd ido i Hi) as [->|[(q & Q1 & Q2 & Q3)|[-> E]]].
      * apply exists_app_l. repeat destruct J as [J|J]; subst j; try lia; hit_loop k.
      * apply exists_app_r. destruct (ido =? 1)%nat eqn:E1; [apply Nat.eqb_eq in E1; lia|].
        destruct Q3 as [->| ->]; repeat destruct J as [J|J]; subst j; try lia; hit_loop2 k q.
      * lia.
    + destruct (col_even ido i Hi) as [->|[(q & Q1 & Q2 & Q3)|(-> & E & E')]].
      * apply exists_app_l. repeat destruct J as [J|J]; subst j; try lia; hit_loop k.
      * apply exists_app_r. destruct (ido =? 1)%nat eqn:E1; [apply Nat.eqb_eq in E1; lia|].
        destruct Q3 as [->| ->]; repeat destruct J as [J|J]; subst j; try lia; hit_loop2 k q.
      * lia.
Qed.

Lemma hradf5_ok : (ido mod 2 = 1)%nat -> stage_in d 5 ido l1 x A -> twisted 5 ido w -> length B = (ido * 5 * l1)%nat ->
  exists B', run (hradf5 d ido l1 (w 0%nat) (w 1%nat) (w 2%nat) (w 3%nat)) (A, B) = Some (A, B') /\ length B' = length B /\ stage_out d 5 ido l1 x B'.
Proof.
  intros Ho Hin Hw HB.
  apply pass_ok; auto; try lia.
  - intros z Hz. unfold hradf5 in Hz. apply in_app_iff in Hz. destruct Hz as [Hz|Hz].
    + apply in_loop in Hz. destruct Hz as (k & Hk & Hz). cbn [In] in Hz.
      destruct Hz as [<-|[<-|[<-|[<-|[<-|[]]]]]]; apply outf_ok; auto; try lia.
      * val out_first. q0 5%nat.
      * vala out_head_even 1%nat. q0 5%nat.
      * vala out_head_odd 1%nat. q0 5%nat.
      * vala out_head_even 2%nat. q0 5%nat.
      * vala out_head_odd 2%nat. q0 5%nat.
    + destruct (ido =? 1)%nat eqn:E1; [destruct Hz|]. apply Nat.eqb_neq in E1.
      apply in_loop in Hz. destruct Hz as (k & Hk & Hz). apply in_loop2 in Hz. destruct Hz as (q & Q1 & Q2 & Hz).
        cbn [In] in Hz.
        destruct Hz as [<-|[<-|[<-|[<-|[<-|[<-|[<-|[<-|[<-|[<-|[]]]]]]]]]]]; apply outf_ok; auto; try lia.
      * vala out_re_plus 0%nat. qq 5%nat.
      * vala out_im_plus 0%nat. qq 5%nat.
      * vala out_re_plus 1%nat. qq 5%nat.
      * vala out_re_minus 1%nat. qq 5%nat.
      * vala out_im_plus 1%nat. qq 5%nat.
      * vala out_im_minus 1%nat. qq 5%nat.
      * vala out_re_plus 2%nat. qq 5%nat.
      * vala out_re_minus 2%nat. qq 5%nat.
      * vala out_im_plus 2%nat. qq 5%nat.
      * vala out_im_minus 2%nat. qq 5%nat.
  - intros i j k Hi Hj Hk. unfold hradf5.
    assert (J : (j = 1 \/ j = 2 \/ j = 3 \/ j = 4 \/ j = 5)%nat) by lia.
    assert (Jp : (exists a, j = 2 * a + 1)%nat \/ (exists a, j = 2 * a + 2)%nat).
    { repeat destruct J as [J|J]; subst j; first [left; exists 0%nat; reflexivity | left; exists 1%nat; reflexivity | left; exists 2%nat; reflexivity
        | right; exists 0%nat; reflexivity | right; exists 1%nat; reflexivity]. }
    destruct Jp as [(a & Ja)|(a & Ja)].
    + destruct (col_odd ido i Hi) as [->|[(q & Q1 & Q2 & Q3)|[-> E]]].
      * apply exists_app_l. repeat destruct J as [J|J]; subst j; try lia; hit_loop k.
      * apply exists_app_r. destruct (ido =? 1)%nat eqn:E1; [apply Nat.eqb_eq in E1; lia|].
        destruct Q3 as [->| ->]; repeat destruct J as [J|J]; subst j; try lia; hit_loop2 k q.
      * lia.
    + destruct (col_even ido i Hi) as [->|[(q & Q1 & Q2 & Q3)|(-> & E & E')]].
      * apply exists_app_l. repeat destruct J as [J|J]; subst j; try lia; hit_loop k.
      * apply exists_app_r. destruct (ido =? 1)%nat eqn:E1; [apply Nat.eqb_eq in E1; lia|].
        destruct Q3 as [->| ->]; repeat destruct J as [J|J]; subst j; try lia; hit_loop2 k q.
      * lia.
Qed.
End Passes.
