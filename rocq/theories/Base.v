(** Shared vocabulary: canonical rationals with a linear-arithmetic tactic,
    comparison booleans, list helpers.  Nothing here models repository code. *)
From Coq Require Export QArith Qcanon Qcabs ZArith List Lia Bool Permutation Sorted Arith.
From Coq Require Import Lqa.
Export ListNotations.
Set Implicit Arguments.
Open Scope Qc_scope.

(** ** Translating Qc goals to Q so that [lra]/[nra] apply *)
Lemma this_add x y : (this (x + y) == this x + this y)%Q.
Proof. exact (Qred_correct _). Qed.
Lemma this_mul x y : (this (x * y) == this x * this y)%Q.
Proof. exact (Qred_correct _). Qed.
Lemma this_opp x : (this (- x) == - this x)%Q.
Proof. exact (Qred_correct _). Qed.
Lemma this_sub x y : (this (x - y) == this x - this y)%Q.
Proof. unfold Qcminus. rewrite this_add, this_opp. reflexivity. Qed.
Lemma this_inv x : (this (/ x) == / this x)%Q.
Proof. exact (Qred_correct _). Qed.
Lemma this_div x y : (this (x / y) == this x / this y)%Q.
Proof. unfold Qcdiv. rewrite this_mul, this_inv. reflexivity. Qed.
Lemma this_Q2Qc q : (this (Q2Qc q) == q)%Q.
Proof. exact (Qred_correct _). Qed.
Lemma Qc_eq_this x y : (this x == this y)%Q -> x = y.
Proof. apply Qc_is_canon. Qed.
Lemma this_eq_Qc (x y : Qc) : x = y -> (this x == this y)%Q.
Proof. intros ->; reflexivity. Qed.
Lemma Qcle_this x y : (x <= y) <-> (this x <= this y)%Q.
Proof. reflexivity. Qed.
Lemma Qclt_this x y : (x < y) <-> (this x < this y)%Q.
Proof. reflexivity. Qed.
Lemma Qcneq_this (x y : Qc) : x <> y -> ~ (this x == this y)%Q.
Proof. intros H E; apply H, Qc_is_canon, E. Qed.

(** integers inside Qc *)
Definition qz (z : Z) : Qc := Q2Qc (inject_Z z).
Notation "2" := (qz 2) : Qc_scope.
Lemma this_qz z : (this (qz z) == inject_Z z)%Q.
Proof. apply this_Q2Qc. Qed.
Lemma qz_add a b : qz (a + b) = qz a + qz b.
Proof. apply Qc_is_canon. rewrite this_add, !this_qz, inject_Z_plus. reflexivity. Qed.
Lemma qz_mul a b : qz (a * b) = qz a * qz b.
Proof. apply Qc_is_canon. rewrite this_mul, !this_qz, inject_Z_mult. reflexivity. Qed.
Lemma qz_opp a : qz (- a) = - qz a.
Proof. apply Qc_is_canon. rewrite this_opp, !this_qz, inject_Z_opp. reflexivity. Qed.
Lemma qz_sub a b : qz (a - b) = qz a - qz b.
Proof. unfold Z.sub. rewrite qz_add, qz_opp. reflexivity. Qed.
Lemma qz_0 : qz 0 = 0. Proof. apply Qc_is_canon. reflexivity. Qed.
Lemma qz_1 : qz 1 = 1. Proof. apply Qc_is_canon. reflexivity. Qed.
Lemma qz_inj a b : qz a = qz b -> a = b.
Proof. intros H. apply (f_equal this) in H.
  assert (E : (inject_Z a == inject_Z b)%Q) by (rewrite <- !this_qz, H; reflexivity).
  unfold Qeq in E; simpl in E. lia. Qed.
Lemma qz_le a b : qz a <= qz b <-> (a <= b)%Z.
Proof. rewrite Qcle_this, !this_qz. unfold Qle; simpl. lia. Qed.
Lemma qz_lt a b : qz a < qz b <-> (a < b)%Z.
Proof. rewrite Qclt_this, !this_qz. unfold Qlt; simpl. lia. Qed.

Ltac qc_push_in H :=
  repeat first
   [ rewrite this_add in H | rewrite this_sub in H | rewrite this_mul in H
   | rewrite this_opp in H | rewrite this_div in H | rewrite this_inv in H
   | rewrite this_qz in H | rewrite this_Q2Qc in H ].
Ltac qc_push :=
  repeat first
   [ rewrite this_add | rewrite this_sub | rewrite this_mul | rewrite this_opp
   | rewrite this_div | rewrite this_inv | rewrite this_qz | rewrite this_Q2Qc ].

Ltac qc_hyp H :=
  let T := type of H in
  match T with
  | @eq Qc _ _ => apply this_eq_Qc in H; qc_push_in H
  | Qcle _ _ => rewrite Qcle_this in H; qc_push_in H
  | Qclt _ _ => rewrite Qclt_this in H; qc_push_in H
  | ~ (Qcle _ _) => apply Qcnot_le_lt in H; rewrite Qclt_this in H; qc_push_in H
  | ~ (Qclt _ _) => apply Qcnot_lt_le in H; rewrite Qcle_this in H; qc_push_in H
  end.
Ltac qc_hyps := repeat match goal with H : _ |- _ => progress (qc_hyp H) end.
(* equations between goals *)
Ltac qc_goal :=
  match goal with
  | |- @eq Qc _ _ => apply Qc_eq_this; qc_push
  | |- Qcle _ _ => rewrite Qcle_this; qc_push
  | |- Qclt _ _ => rewrite Qclt_this; qc_push
  | |- Qle _ _ => qc_push
  | |- Qlt _ _ => qc_push
  | |- ~ (Qcle _ _) => apply Qclt_not_le; rewrite Qclt_this; qc_push
  | |- ~ (Qclt _ _) => apply Qcle_not_lt; rewrite Qcle_this; qc_push
  | |- ~ (@eq Qc _ _) => let H := fresh in intro H; qc_hyp H
  | |- False => idtac
  | _ => exfalso
  end.
Ltac qc_consts := change (this 0) with 0%Q in *; change (this 1) with 1%Q in *.
Ltac qc_clean := qc_consts; unfold Qdiv in *; cbn [inject_Z Qinv Qnum Qden] in *.
Ltac qclra := qc_goal; qc_hyps; qc_clean; lra.
Ltac qcnra := qc_goal; qc_hyps; qc_clean; nra.

(** ** Boolean comparisons (Fortran/Python [<], [<=], [==] on finite values) *)
Definition Qcltb (x y : Qc) : bool := match x ?= y with Lt => true | _ => false end.
Definition Qcleb (x y : Qc) : bool := match x ?= y with Gt => false | _ => true end.
Definition Qceqb (x y : Qc) : bool := match x ?= y with Eq => true | _ => false end.
Infix "<?" := Qcltb (at level 70, no associativity) : Qc_scope.
Infix "<=?" := Qcleb (at level 70, no associativity) : Qc_scope.
Infix "=?" := Qceqb (at level 70, no associativity) : Qc_scope.

Lemma Qcltb_spec x y : reflect (x < y) (x <? y).
Proof. unfold Qcltb. destruct (x ?= y) eqn:E; constructor.
  - apply Qceq_alt in E. subst. intro H; exact (Qclt_not_eq _ _ H eq_refl).
  - apply Qclt_alt in E; assumption.
  - apply Qcgt_alt in E. intro H. exact (Qclt_not_le _ _ H (Qclt_le_weak _ _ E)).
Qed.
Lemma Qcleb_spec x y : reflect (x <= y) (x <=? y).
Proof. unfold Qcleb. destruct (x ?= y) eqn:E; constructor.
  - apply Qceq_alt in E. subst. apply Qcle_refl.
  - apply Qclt_alt in E. apply Qclt_le_weak; assumption.
  - apply Qcgt_alt in E. apply Qclt_not_le; assumption.
Qed.
Lemma Qceqb_spec x y : reflect (x = y) (x =? y).
Proof. unfold Qceqb. destruct (x ?= y) eqn:E; constructor.
  - apply Qceq_alt in E. assumption.
  - apply Qclt_alt in E. intros ->. exact (Qclt_not_eq _ _ E eq_refl).
  - apply Qcgt_alt in E. intros ->. exact (Qclt_not_eq _ _ E eq_refl).
Qed.

(** Case split on the first comparison occurring in the goal. *)
Ltac qc_case :=
  match goal with
  | |- context [Qcltb ?x ?y] => destruct (Qcltb_spec x y)
  | |- context [Qcleb ?x ?y] => destruct (Qcleb_spec x y)
  | |- context [Qceqb ?x ?y] => destruct (Qceqb_spec x y)
  end.

(** ** Sign facts used everywhere *)
Lemma Qcmul_nonneg x y : 0 <= x -> 0 <= y -> 0 <= x * y.
Proof. intros. qcnra. Qed.
Lemma Qcmul_pos x y : 0 < x -> 0 < y -> 0 < x * y.
Proof. intros. qcnra. Qed.
Lemma Qcpos_neq x : 0 < x -> x <> 0.
Proof. intros H E. rewrite E in H. qclra. Qed.
Lemma Qcdiv_cancel x y : y <> 0 -> x / y * y = x.
Proof. intros. field. auto. Qed.
Lemma Qcinv_pos x : 0 < x -> 0 < / x.
Proof.
  intros H. assert (E : / x * x = 1) by (field; apply Qcpos_neq; auto).
  destruct (Qclt_le_dec 0 (/ x)) as [L|L]; auto. exfalso. set (i := / x) in *. clearbody i. qcnra.
Qed.
Lemma Qcdiv_nonneg x y : 0 <= x -> 0 < y -> 0 <= x / y.
Proof. intros. apply Qcmul_nonneg; auto. apply Qclt_le_weak, Qcinv_pos; auto. Qed.
Lemma Qcdiv_pos x y : 0 < x -> 0 < y -> 0 < x / y.
Proof. intros. apply Qcmul_pos; auto. apply Qcinv_pos; auto. Qed.
Lemma Qcsquare_nonneg x : 0 <= x * x.
Proof. qcnra. Qed.
