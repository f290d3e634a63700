(** C91: the reduced-Gaussian transforms with the real row transforms. *)
From Coq Require Import Reals List Arith Lia Bool Lra FunctionalExtensionality.
From Coq Require Import ZArith.
From Verif Require Import Base Buffer VH_Model VH_Proofs SH_Spec SH_Model SH_Proofs SH_Proofs2 SH_Proofs4 SH_Props.
From Verif Require Import RS_Model RS_Model2 RS_Spec RS_Dft RS_Proofs1 RS_Proofs2 RS_Proofs3 RS_Proofs4 RS_Proofs5 RS_Proofs6 RS_Proofs7 RS_Proofs8 RS_Table RS_Props1 RS_Props2.
From Verif Require Import FF_Model FF_Model2 FF_Props FF_Props2.
Import ListNotations.
Local Open Scope R_scope.

(** One row of a call of hrfftf / hrfftb as the reduced-Gaussian routines make
    it: the table of hrffti for this row length, then the transform.  On a row
    of length n, [fit n r] is r. *)
Definition fit (n : nat) (r : list R) : list R := firstn n (r ++ repeat 0 n).
Definition code_fwd (n : nat) (r : list R) : list R :=
  match hrffti (2 * n + 5) n (repeat 0 n) with
  | Some ws => match hrfftf 0 n (fit n r) (repeat 0 n) ws with Some (y, _) => y | None => [] end
  | None => []
  end.
Definition code_bwd (n : nat) (r : list R) : list R :=
  match hrffti (2 * n + 5) n (repeat 0 n) with
  | Some ws => match hrfftb 0 n (fit n r) (repeat 0 n) ws with Some (y, _) => y | None => [] end
  | None => []
  end.
Lemma fit_row n r : length r = n -> fit n r = r.
Proof. intros <-. unfold fit. rewrite firstn_app, firstn_all, Nat.sub_diag, firstn_O. apply app_nil_r. Qed.
Lemma fit_length n r : length (fit n r) = n.
Proof. unfold fit. rewrite firstn_length, app_length, repeat_length. lia. Qed.
Lemma nth_fit n r k : (k < n)%nat -> nth k (fit n r) 0 = nth k r 0.
Proof.
  intros H. unfold fit. 
  assert (F : forall m (l : list R), (k < m)%nat -> nth k (firstn m l) 0 = nth k l 0).
  { clear. revert k. intros k m l. revert k l. induction m; intros k l H; [lia|]. destruct l; [destruct k; reflexivity|]. destruct k; [reflexivity|]. cbn. apply IHm. lia. }
  rewrite F by auto. destruct (le_lt_dec (length r) k).
  - rewrite app_nth2 by auto. rewrite nth_repeat. symmetry. apply nth_overflow; auto.
  - apply app_nth1; auto.
Qed.
Lemma forward_fit n r : forward n (fit n r) = forward n r.
Proof.
  unfold forward. apply map_ext_in. intros t _.
  assert (E : forall f : R -> nat -> R, sumR n (fun k => f (nth k (fit n r) 0) k) = sumR n (fun k => f (nth k r 0) k)).
  { intros f. apply sumR_ext. intros k Hk. rewrite nth_fit by auto. reflexivity. }
  destruct (andb _ _); [f_equal|];
  match goal with |- sumR n ?g = sumR n ?g' => apply sumR_ext; intros k Hk; rewrite nth_fit by auto; reflexivity end.
Qed.
Lemma backward_fit n r : backward n (fit n r) = backward n r.
Proof.
  unfold backward. apply map_ext_in. intros i Hi. apply in_seq in Hi. rewrite (nth_fit n r 0) by lia. f_equal; [f_equal|].
  - apply sumR_ext. intros k Hk. cbv zeta. pose proof (Nat.div_mod_eq (n - 1) 2). rewrite !nth_fit by lia. reflexivity.
  - destruct (Nat.even n); [|reflexivity]. rewrite nth_fit by lia. reflexivity.
Qed.

Theorem C91_row_forward : code_fwd = forward.
Proof.
  extensionality n. extensionality r. unfold code_fwd. destruct (Nat.eq_dec n 0) as [->|Hn].
  - cbn [Nat.mul Nat.add repeat]. rewrite <- forward_fit. destruct (fit 0 r) eqn:E; [|unfold fit in E; discriminate E]. reflexivity.
  - destruct (C88_total 0 n (repeat 0 n) (fit n r) (repeat 0 n) ltac:(lia) (fit_length n r) (repeat_length 0 n) ltac:(rewrite repeat_length; lia)) as (ws & w & -> & ->).
    apply forward_fit.
Qed.
Theorem C91_row_backward : code_bwd = backward.
Proof.
  extensionality n. extensionality r. unfold code_bwd. destruct (Nat.eq_dec n 0) as [->|Hn].
  - cbn [Nat.mul Nat.add repeat]. rewrite <- backward_fit. destruct (fit 0 r) eqn:E; [|unfold fit in E; discriminate E]. reflexivity.
  - destruct (C89_total 0 n (repeat 0 n) (fit n r) (repeat 0 n) ltac:(lia) (fit_length n r) (repeat_length 0 n) ltac:(rewrite repeat_length; lia)) as (ws & w & -> & ->).
    apply backward_fit.
Qed.
(** on a row of the declared length nothing is padded *)
Theorem C91_row_as_called : forall n r wa fac y work, (1 <= n)%nat -> length r = n -> hrffti (2 * n + 5) n (repeat 0 n) = Some (wa, fac) ->
  (hrfftf 0 n r (repeat 0 n) (wa, fac) = Some (y, work) -> code_fwd n r = y) /\
  (hrfftb 0 n r (repeat 0 n) (wa, fac) = Some (y, work) -> code_bwd n r = y).
Proof.
  intros n r wa fac y work Hn Lr I. unfold code_fwd, code_bwd. rewrite I, fit_row by auto. split; intros ->; reflexivity.
Qed.

Local Open Scope nat_scope.
Local Notation C := RS_Model.C.
(** Synthesis, analysis, gradient and the vector operators, through the code's
    own row transforms *)
Theorem C91_synthesis : forall pl T basis junk spec out, synthesis_ok pl T basis junk -> length spec = tri T -> length out = list_sum pl ->
  exists g, spectogrd code_bwd junk pl T spec basis out = Some g /\ length g = list_sum pl /\
    forall j i, 1 <= j <= length pl -> i < row_len pl j -> point pl g j i = series (row_len pl j) T (leg T spec basis j) i.
Proof. rewrite C91_row_backward. exact C76_spectogrd. Qed.
Theorem C91_roundtrip : forall pl T weights basis junk spec out oc os, synthesis_ok pl T basis junk -> length spec = tri T -> length out = list_sum pl ->
  length weights = length pl -> length oc = length pl -> length os = length pl -> full_rows pl T -> orthonormal T (length pl) weights basis ->
  exists g spec', spectogrd code_bwd junk pl T spec basis out = Some g /\ grdtospec code_fwd pl T g weights basis oc os = Some spec' /\ length spec' = tri T /\
    forall m n, m <= n <= T -> coef T spec' m n = real_part_at_0 m (coef T spec m n).
Proof. rewrite C91_row_backward, C91_row_forward. exact C77_roundtrip. Qed.
Theorem C91_winds : forall pl T weights basis dbasis sin_theta r j1 j2 j3 j4 zspec dspec f1 f2 gout old out,
  gradient_ok pl T basis dbasis sin_theta r -> work_rows pl j1 -> work_rows pl j2 -> work_rows pl j3 -> work_rows pl j4 ->
  length zspec = tri T -> length dspec = tri T -> length f1 = tri T -> length f2 = tri T -> (Z.of_nat (tri T) < 2 ^ 31)%Z ->
  length (fst (fst gout)) = list_sum pl -> length (snd (fst gout)) = list_sum pl -> length (fst (snd gout)) = list_sum pl -> length (snd (snd gout)) = list_sum pl ->
  length weights = length pl -> (mirrored pl -> even_rows (length pl) weights) -> old_ok pl old -> (mirrored pl -> increasing_to_equator pl) ->
  length (fst out) = tri T -> length (snd out) = tri T -> full_rows pl T -> gradient_orthogonal T (length pl) weights basis dbasis sin_theta ->
  exists u v z d, getuv code_bwd j1 j2 j3 j4 pl T zspec dspec f1 f2 basis dbasis sin_theta r gout = Some (u, v) /\ length u = list_sum pl /\ length v = list_sum pl /\
    getvrtdivspec code_fwd pl T u v weights basis dbasis sin_theta r old out = Some (z, d) /\
    forall m n, m <= n <= T ->
      coef T z m n = (if n =? 0 then (0, 0)%R else real_part_at_0 m (coef T zspec m n)) /\
      coef T d m n = (if n =? 0 then (0, 0)%R else real_part_at_0 m (coef T dspec m n)).
Proof. rewrite C91_row_backward, C91_row_forward. exact C78_winds. Qed.

Example C91_example : exists g spec', spectogrd code_bwd (fun _ => repeat 7%R 8) [6; 8; 6] 2 wave22 table3 (repeat 0%R 20) = Some g /\
  grdtospec code_fwd [6; 8; 6] 2 g weights3 table3 (repeat [] 3) (repeat [] 3) = Some spec' /\
  coef 2 spec' 2 2 = coef 2 wave22 2 2.
Proof.
  destruct C77_roundtrip_ex as (H1 & H2 & H3 & H4).
  destruct (C91_roundtrip [6; 8; 6] 2 weights3 table3 (fun _ => repeat 7%R 8) wave22 (repeat 0%R 20) (repeat [] 3) (repeat [] 3) H1 H4 eq_refl eq_refl eq_refl eq_refl H2 H3)
    as (g & spec' & A & B & _ & V).
  exists g, spec'. split; [exact A|]. split; [exact B|]. rewrite V by lia. unfold real_part_at_0. cbn [Nat.eqb]. now rewrite <- surjective_pairing.
Qed.

Print Assumptions C91_row_forward.
Print Assumptions C91_row_backward.
Print Assumptions C91_row_as_called.
Print Assumptions C91_synthesis.
Print Assumptions C91_roundtrip.
Print Assumptions C91_winds.
