(** The backward passes of radix 2, 3, 4 and 5. *)
From Coq Require Import Reals List Arith Lia Lra Bool.
From Verif Require Import Base Buffer VH_Model RS_Spec RS_Dft FF_Model FF_Model2 FF_Proofs FF_Proofs2 FF_Proofs3 FF_Proofs4 FF_Proofs5 FF_Proofs11.
Import ListNotations.
Local Open Scope R_scope.

Lemma sqrt2_half : SQRT2 * HSQT2 = 1.
Proof. unfold SQRT2, HSQT2. pose proof (sqrt_sqrt 2 ltac:(lra)). lra. Qed.
Lemma sqrt2_twice : SQRT2 = 2 * HSQT2.
Proof. unfold SQRT2, HSQT2. lra. Qed.
Lemma HSQT2_sq : HSQT2 * HSQT2 = / 2.
Proof. pose proof sqrt2_half. rewrite sqrt2_twice in H. lra. Qed.
Lemma cos_third : cos (2 * PI / 3) = taur.
Proof. rewrite <- cos_3_1. f_equal. unfold th. simpl INR. field. Qed.
Lemma sin_third : sin (2 * PI / 3) = taui.
Proof. rewrite <- sin_3_1. f_equal. unfold th. simpl INR. field. Qed.

Lemma dist_minus a u v s t : a * (u * s - v * t) = u * (a * s) - v * (a * t).
Proof. ring. Qed.
Lemma dist_plus a u v s t : a * (u * s + v * t) = u * (a * s) + v * (a * t).
Proof. ring. Qed.

Section Passes.
Variable d : R.
Variables ido l1 : nat.
Variable x : nat -> R.
Variables A B : list R.
Hypothesis Hido : (0 < ido)%nat.
Hypothesis Hl1 : (0 < l1)%nat.
Variable w : nat -> nat -> R.

Ltac fin := try (simpl INR); first [ring | ring [sqrt2_half]].
Ltac nums := change (2 * 1)%nat with 2%nat; change (2 * 2)%nat with 4%nat; change (2 + 1)%nat with 3%nat; change (4 + 1)%nat with 5%nat.
Ltac small := change (1 - 1)%nat with 0%nat; change (2 - 1)%nat with 1%nat; change (3 - 1)%nat with 2%nat; change (4 - 1)%nat with 3%nat; change (5 - 1)%nat with 4%nat.

Ltac rw L := let E := fresh "E" in pose proof L as E; change (2 * 0)%nat with 0%nat in E; change (2 * 1)%nat with 2%nat in E; change (2 * 2)%nat with 4%nat in E; change (0 + 1)%nat with 1%nat in E; change (2 + 1)%nat with 3%nat in E; rewrite ?E; clear E.

(** every position is reached *)
Ltac reach_k k := repeat first [apply exists_app_l; hit_loop k | apply exists_app_r].

Lemma hradb2_ok : stage_out d 2 ido l1 x A -> twisted 2 ido w -> length B = (ido * l1 * 2)%nat ->
  exists B', run (hradb2 d ido l1 (w 0%nat)) (A, B) = Some (A, B') /\ length B' = length B /\ stage_in d 2 ido l1 (fun j => INR 2 * x j) B'.
Proof.
  intros Hin Hw HB. assert (HR : (0 < 2)%nat) by lia.
  assert (Tail : (ido mod 2 =? 1)%nat = false -> forall z, In z (hradb2_tail d ido l1) ->
     a_ch z = true /\ (a_ix z < ido * l1 * 2)%nat /\ (forall b, a_val z A b = targetb 2 ido l1 x (a_ix z))).
  { intros E z Hz. pose proof (even_half ido l1 Hido Hl1 E) as E2. set (h := (ido / 2)%nat) in *.
    apply in_loop in Hz. destruct Hz as (k & Hk & Hz). cbn [In] in Hz.
    destruct Hz as [<-|[<-|[]]]; apply outb_ok; auto; try lia; small; rewrite (un_h 2 ido l1 x HR Hido Hl1 k _ h E2); rw (rb_rh d 2%nat ido l1 x A HR Hido Hl1 Hin 0 h k Hk E2 ltac:(lia)); rw (rb_ih d 2%nat ido l1 x A HR Hido Hl1 Hin 1 h k Hk E2 ltac:(lia) ltac:(lia));
      cbn [sumR]; angles; rewrite ?(TRb_h 2 ido l1 x HR Hido Hl1) by (auto; lia); rewrite ?(TIb_h 2 ido l1 x HR Hido Hl1) by (auto; lia); angles_h; fin. }
  apply passb_ok; auto.
  - intros z Hz. unfold hradb2 in Hz.
    apply in_app_iff in Hz. destruct Hz as [Hz|Hz].
    + apply in_loop in Hz. destruct Hz as (k & Hk & Hz). cbn [In] in Hz.
      destruct Hz as [<-|[<-|[]]]; apply outb_ok; auto; try lia; rewrite un_0; small; rw (rb_first d 2%nat ido l1 x A HR Hido Hl1 Hin k Hk); rw (rb_he d 2%nat ido l1 x A HR Hido Hl1 Hin 1 k Hk ltac:(lia) ltac:(lia));
        cbn [sumR]; angles; rewrite !TI_0; fin.
    + destruct (ido <? 2)%nat eqn:E1; [destruct Hz|]. apply Nat.ltb_ge in E1.
      destruct (ido =? 2)%nat eqn:E2; [apply Nat.eqb_eq in E2; apply Tail; auto; rewrite E2; reflexivity|].
      apply in_app_iff in Hz. destruct Hz as [Hz|Hz].
      * apply in_loop in Hz. destruct Hz as (k & Hk & Hz). apply in_loop2 in Hz. destruct Hz as (q & Q1 & Q2 & Hz).
        cbn [In] in Hz.
        destruct Hz as [<-|[<-|[<-|[<-|[]]]]]; apply outb_ok; auto; try lia; small;
          first [rewrite un_re0 by lia | rewrite un_im0 by lia | rewrite (un_re 2 ido l1 x HR Hido Hl1 w Hw) by lia | rewrite (un_im 2 ido l1 x HR Hido Hl1 w Hw) by lia]; small;
          rw (rb_rp d 2%nat ido l1 x A HR Hido Hl1 Hin 0 q k Hk Q1 ltac:(lia) ltac:(lia)); rw (rb_ip d 2%nat ido l1 x A HR Hido Hl1 Hin 0 q k Hk Q1 Q2 ltac:(lia)); rw (rb_rm d 2%nat ido l1 x A HR Hido Hl1 Hin 1 q k Hk ltac:(lia) Q1 Q2 ltac:(lia)); rw (rb_im d 2%nat ido l1 x A HR Hido Hl1 Hin 1 q k Hk ltac:(lia) Q1 ltac:(lia) ltac:(lia)); cbn [sumR]; angles; fin.
      * destruct (ido mod 2 =? 1)%nat eqn:E3; [destruct Hz|auto].
  - intros i j k Hi Hj Hk. unfold hradb2.
    assert (J : (j = 1 \/ j = 2)%nat) by lia.
    assert (JJ : forall P : nat -> Prop, (P 1%nat /\ P 2%nat) -> P j) by (intros P HP; destruct J as [->| ->]; tauto).
    destruct (col_odd ido i Hi) as [->|[(q & Q1 & Q2 & Q3)|[-> E]]].
    + apply exists_app_l. pattern j; apply JJ; repeat split; hit_loop k.
    + apply exists_app_r. destruct (ido <? 2)%nat eqn:E1; [apply Nat.ltb_lt in E1; lia|].
      destruct (ido =? 2)%nat eqn:E2; [apply Nat.eqb_eq in E2; lia|]. apply exists_app_l.
      destruct Q3 as [->| ->]; pattern j; apply JJ; repeat split; hit_loop2 k q.
    + destruct (Nat.eq_dec ido 1) as [->|]; [apply exists_app_l; pattern j; apply JJ; repeat split; hit_loop k|].
      apply exists_app_r. destruct (ido <? 2)%nat eqn:E1; [apply Nat.ltb_lt in E1; lia|].
      destruct (ido =? 2)%nat eqn:E2; [pattern j; apply JJ; repeat split; hit_loop k|]. apply exists_app_r. rewrite E. pattern j; apply JJ; repeat split; hit_loop k.
Qed.

Lemma hradb4_ok : stage_out d 4 ido l1 x A -> twisted 4 ido w -> length B = (ido * l1 * 4)%nat ->
  exists B', run (hradb4 d ido l1 (w 0%nat) (w 1%nat) (w 2%nat)) (A, B) = Some (A, B') /\ length B' = length B /\ stage_in d 4 ido l1 (fun j => INR 4 * x j) B'.
Proof.
  intros Hin Hw HB. assert (HR : (0 < 4)%nat) by lia.
  assert (Tail : (ido mod 2 =? 1)%nat = false -> forall z, In z (hradb4_tail d ido l1) ->
     a_ch z = true /\ (a_ix z < ido * l1 * 4)%nat /\ (forall b, a_val z A b = targetb 4 ido l1 x (a_ix z))).
  { intros E z Hz. pose proof (even_half ido l1 Hido Hl1 E) as E2. set (h := (ido / 2)%nat) in *.
    apply in_loop in Hz. destruct Hz as (k & Hk & Hz). cbn [In] in Hz.
    destruct Hz as [<-|[<-|[<-|[<-|[]]]]]; apply outb_ok; auto; try lia; small; rewrite (un_h 4 ido l1 x HR Hido Hl1 k _ h E2); rw (rb_rh d 4%nat ido l1 x A HR Hido Hl1 Hin 0 h k Hk E2 ltac:(lia)); rw (rb_rh d 4%nat ido l1 x A HR Hido Hl1 Hin 1 h k Hk E2 ltac:(lia)); rw (rb_ih d 4%nat ido l1 x A HR Hido Hl1 Hin 1 h k Hk E2 ltac:(lia) ltac:(lia));  rw (rb_ih d 4%nat ido l1 x A HR Hido Hl1 Hin 2 h k Hk E2 ltac:(lia) ltac:(lia));
      cbn [sumR]; angles; rewrite ?(TRb_h 4 ido l1 x HR Hido Hl1) by (auto; lia); rewrite ?(TIb_h 4 ido l1 x HR Hido Hl1) by (auto; lia); angles_h; fin. }
  apply passb_ok; auto.
  - intros z Hz. unfold hradb4 in Hz.
    apply in_app_iff in Hz. destruct Hz as [Hz|Hz].
    + apply in_loop in Hz. destruct Hz as (k & Hk & Hz). cbn [In] in Hz.
      destruct Hz as [<-|[<-|[<-|[<-|[]]]]]; apply outb_ok; auto; try lia; rewrite un_0; small; rw (rb_first d 4%nat ido l1 x A HR Hido Hl1 Hin k Hk); rw (rb_he d 4%nat ido l1 x A HR Hido Hl1 Hin 1 k Hk ltac:(lia) ltac:(lia)); rw (rb_he d 4%nat ido l1 x A HR Hido Hl1 Hin 2 k Hk ltac:(lia) ltac:(lia));rw (rb_ho d 4%nat ido l1 x A HR Hido Hl1 Hin 1 k Hk ltac:(lia) ltac:(lia));
        cbn [sumR]; angles; rewrite !TI_0; fin.
    + destruct (ido <? 2)%nat eqn:E1; [destruct Hz|]. apply Nat.ltb_ge in E1.
      destruct (ido =? 2)%nat eqn:E2; [apply Nat.eqb_eq in E2; apply Tail; auto; rewrite E2; reflexivity|].
      apply in_app_iff in Hz. destruct Hz as [Hz|Hz].
      * apply in_loop in Hz. destruct Hz as (k & Hk & Hz). apply in_loop2 in Hz. destruct Hz as (q & Q1 & Q2 & Hz).
        cbn [In] in Hz.
        destruct Hz as [<-|[<-|[<-|[<-|[<-|[<-|[<-|[<-|[]]]]]]]]]; apply outb_ok; auto; try lia; small;
          first [rewrite un_re0 by lia | rewrite un_im0 by lia | rewrite (un_re 4 ido l1 x HR Hido Hl1 w Hw) by lia | rewrite (un_im 4 ido l1 x HR Hido Hl1 w Hw) by lia]; small;
          rw (rb_rp d 4%nat ido l1 x A HR Hido Hl1 Hin 0 q k Hk Q1 ltac:(lia) ltac:(lia)); rw (rb_ip d 4%nat ido l1 x A HR Hido Hl1 Hin 0 q k Hk Q1 Q2 ltac:(lia)); rw (rb_rp d 4%nat ido l1 x A HR Hido Hl1 Hin 1 q k Hk Q1 ltac:(lia) ltac:(lia)); rw (rb_ip d 4%nat ido l1 x A HR Hido Hl1 Hin 1 q k Hk Q1 Q2 ltac:(lia)); rw (rb_rm d 4%nat ido l1 x A HR Hido Hl1 Hin 1 q k Hk ltac:(lia) Q1 Q2 ltac:(lia)); rw (rb_im d 4%nat ido l1 x A HR Hido Hl1 Hin 1 q k Hk ltac:(lia) Q1 ltac:(lia) ltac:(lia));  rw (rb_rm d 4%nat ido l1 x A HR Hido Hl1 Hin 2 q k Hk ltac:(lia) Q1 Q2 ltac:(lia)); rw (rb_im d 4%nat ido l1 x A HR Hido Hl1 Hin 2 q k Hk ltac:(lia) Q1 ltac:(lia) ltac:(lia)); cbn [sumR]; angles; fin.
      * destruct (ido mod 2 =? 1)%nat eqn:E3; [destruct Hz|auto].
  - intros i j k Hi Hj Hk. unfold hradb4.
    assert (J : (j = 1 \/ j = 2 \/ j = 3 \/ j = 4)%nat) by lia.
    assert (JJ : forall P : nat -> Prop, (P 1%nat /\ P 2%nat /\ P 3%nat /\ P 4%nat) -> P j) by (intros P HP; destruct J as [->|[->|[->| ->]]]; tauto).
    destruct (col_odd ido i Hi) as [->|[(q & Q1 & Q2 & Q3)|[-> E]]].
    + apply exists_app_l. pattern j; apply JJ; repeat split; hit_loop k.
    + apply exists_app_r. destruct (ido <? 2)%nat eqn:E1; [apply Nat.ltb_lt in E1; lia|].
      destruct (ido =? 2)%nat eqn:E2; [apply Nat.eqb_eq in E2; lia|]. apply exists_app_l.
      destruct Q3 as [->| ->]; pattern j; apply JJ; repeat split; hit_loop2 k q.
    + destruct (Nat.eq_dec ido 1) as [->|]; [apply exists_app_l; pattern j; apply JJ; repeat split; hit_loop k|].
      apply exists_app_r. destruct (ido <? 2)%nat eqn:E1; [apply Nat.ltb_lt in E1; lia|].
      destruct (ido =? 2)%nat eqn:E2; [pattern j; apply JJ; repeat split; hit_loop k|]. apply exists_app_r. rewrite E. pattern j; apply JJ; repeat split; hit_loop k.
Qed.

Lemma hradb3_ok : (ido mod 2 = 1)%nat -> stage_out d 3 ido l1 x A -> twisted 3 ido w -> length B = (ido * l1 * 3)%nat ->
  exists B', run (hradb3 d ido l1 (w 0%nat) (w 1%nat)) (A, B) = Some (A, B') /\ length B' = length B /\ stage_in d 3 ido l1 (fun j => INR 3 * x j) B'.
Proof.
  intros Hodd Hin Hw HB. assert (HR : (0 < 3)%nat) by lia. assert (HH : 3%nat = (2 * 1 + 1)%nat) by lia.
  apply passb_ok; auto.
  - intros z Hz. unfold hradb3 in Hz.
    apply in_app_iff in Hz. destruct Hz as [Hz|Hz].
    + apply in_loop in Hz. destruct Hz as (k & Hk & Hz). cbn [In] in Hz.
      destruct Hz as [<-|[<-|[<-|[]]]]; apply outb_ok; auto; try lia; rewrite un_0; small;
        rewrite (inv_0 d 3 ido l1 x A HR Hido Hl1 Hin 1 HH k _ Hk) by lia; cbn [sumR]; angles; nums; rewrite ?cos_third, ?sin_third; fin.
    + destruct (ido =? 1)%nat eqn:E1; [destruct Hz|].
      apply in_loop in Hz. destruct Hz as (k & Hk & Hz). apply in_loop2 in Hz. destruct Hz as (q & Q1 & Q2 & Hz).
      cbn [In] in Hz.
      destruct Hz as [<-|[<-|[<-|[<-|[<-|[<-|[]]]]]]]; apply outb_ok; auto; try lia; small;
        first [rewrite un_re0 by lia | rewrite un_im0 by lia
              | rewrite (un_re 3 ido l1 x HR Hido Hl1 w Hw) by lia; rewrite dist_minus
              | rewrite (un_im 3 ido l1 x HR Hido Hl1 w Hw) by lia; rewrite dist_plus];
        rewrite ?(inv_re d 3 ido l1 x A HR Hido Hl1 Hin 1 HH k _ q Hk) by lia;
        rewrite ?(inv_im d 3 ido l1 x A HR Hido Hl1 Hin 1 HH k _ q Hk) by lia; small; cbn [sumR]; angles; nums; rewrite ?cos_third, ?sin_third; fin.
  - intros i j k Hi Hj Hk. unfold hradb3.
    assert (J : (j = 1 \/ j = 2 \/ j = 3)%nat) by lia.
    assert (JJ : forall P : nat -> Prop, (P 1%nat /\ P 2%nat /\ P 3%nat) -> P j) by (intros P HP; destruct J as [->|[->| ->]]; tauto).
    destruct (col_odd ido i Hi) as [->|[(q & Q1 & Q2 & Q3)|[-> E]]].
    + apply exists_app_l. pattern j; apply JJ; repeat split; hit_loop k.
    + apply exists_app_r. destruct (ido =? 1)%nat eqn:E1; [apply Nat.eqb_eq in E1; lia|].
      destruct Q3 as [->| ->]; pattern j; apply JJ; repeat split; hit_loop2 k q.
    + lia.
Qed.

Lemma hradb5_ok : (ido mod 2 = 1)%nat -> stage_out d 5 ido l1 x A -> twisted 5 ido w -> length B = (ido * l1 * 5)%nat ->
  exists B', run (hradb5 d ido l1 (w 0%nat) (w 1%nat) (w 2%nat) (w 3%nat)) (A, B) = Some (A, B') /\ length B' = length B /\ stage_in d 5 ido l1 (fun j => INR 5 * x j) B'.
Proof.
  intros Hodd Hin Hw HB. assert (HR : (0 < 5)%nat) by lia. assert (HH : 5%nat = (2 * 2 + 1)%nat) by lia.
  apply passb_ok; auto.
  - intros z Hz. unfold hradb5 in Hz.
    apply in_app_iff in Hz. destruct Hz as [Hz|Hz].
    + apply in_loop in Hz. destruct Hz as (k & Hk & Hz). cbn [In] in Hz.
      destruct Hz as [<-|[<-|[<-|[<-|[<-|[]]]]]]; apply outb_ok; auto; try lia; rewrite un_0; small;
        rewrite (inv_0 d 5 ido l1 x A HR Hido Hl1 Hin 2 HH k _ Hk) by lia; cbn [sumR]; angles; nums; fin.
    + destruct (ido =? 1)%nat eqn:E1; [destruct Hz|].
      apply in_loop in Hz. destruct Hz as (k & Hk & Hz). apply in_loop2 in Hz. destruct Hz as (q & Q1 & Q2 & Hz).
      cbn [In] in Hz.
      destruct Hz as [<-|[<-|[<-|[<-|[<-|[<-|[<-|[<-|[<-|[<-|[]]]]]]]]]]]; apply outb_ok; auto; try lia; small;
        first [rewrite un_re0 by lia | rewrite un_im0 by lia
              | rewrite (un_re 5 ido l1 x HR Hido Hl1 w Hw) by lia; rewrite dist_minus
              | rewrite (un_im 5 ido l1 x HR Hido Hl1 w Hw) by lia; rewrite dist_plus];
        rewrite ?(inv_re d 5 ido l1 x A HR Hido Hl1 Hin 2 HH k _ q Hk) by lia;
        rewrite ?(inv_im d 5 ido l1 x A HR Hido Hl1 Hin 2 HH k _ q Hk) by lia; small; cbn [sumR]; angles; nums; fin.
  - intros i j k Hi Hj Hk. unfold hradb5.
    assert (J : (j = 1 \/ j = 2 \/ j = 3 \/ j = 4 \/ j = 5)%nat) by lia.
    assert (JJ : forall P : nat -> Prop, (P 1%nat /\ P 2%nat /\ P 3%nat /\ P 4%nat /\ P 5%nat) -> P j) by (intros P HP; destruct J as [->|[->|[->|[->| ->]]]]; tauto).
    destruct (col_odd ido i Hi) as [->|[(q & Q1 & Q2 & Q3)|[-> E]]].
    + apply exists_app_l. pattern j; apply JJ; repeat split; hit_loop k.
    + apply exists_app_r. destruct (ido =? 1)%nat eqn:E1; [apply Nat.eqb_eq in E1; lia|].
      destruct Q3 as [->| ->]; pattern j; apply JJ; repeat split; hit_loop2 k q.
    + lia.
Qed.
End Passes.
