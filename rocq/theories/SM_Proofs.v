(** Smoothing of spectra, for SM_Props *)
From Coq Require Import Reals List Arith ZArith Lia Bool Lra.
From Verif Require Import Base Buffer VH_Model RS_Spec RS_Dft GS_Spec GS_Model LG_Spec SH_Spec ST_Spec ST_Model ST_Proofs1 ST_Proofs2 ST_Proofs3 SM_Model.
From Verif Require SH_Model SH_Proofs SH_Proofs2 SH_Proofs3 SH_Proofs4 SH_Props.
Import ListNotations.
Local Open Scope nat_scope.

Definition scale (f : R) (c : R * R) : R * R := (f * fst c, f * snd c)%R.
Lemma smooth_one N smooth (c junk : list (R * R)) : length c = tri N -> (Z.of_nat (tri N) < 2 ^ 31)%Z -> length junk = tri N -> N + 1 <= length smooth ->
  exists y, SH_Model.multsmoothfact SH_Model.RR smooth c junk = Some y /\ length y = tri N /\ forall m n, m <= n <= N -> at_ N y m n = scale (nth n smooth 0%R) (at_ N c m n).
Proof.
  intros LC HT LJ LS. eexists. split; [apply (SH_Props.C52_smoothing SH_Model.RR N smooth c junk); [split; [exact LC|exact HT]|transitivity (tri N); [exact LJ|symmetry; exact LC]|exact LS]|].
  split; [apply SH_Proofs2.pointwise_length; apply Nat.eq_le_incl; symmetry; exact LC|]. intros m n Hmn. pose proof (SH_Proofs.index_lt N m n Hmn) as L. unfold at_.
  destruct (nth_error c (index N m n)) as [v|] eqn:E; [|apply nth_error_None in E; lia].
  erewrite nth_error_nth; [|exact (SH_Proofs2.pointwise_nth _ _ N (fun m n c => SH_Model.cscale SH_Model.RR (nth n smooth 0%R) c) c _ m n v E (SH_Proofs.nth_pairs N m n Hmn))]. rewrite (nth_error_nth c _ _ E). reflexivity.
Qed.
Lemma smooth_none N smooth (c junk : list (R * R)) : length c = tri N -> (Z.of_nat (tri N) < 2 ^ 31)%Z -> length junk = tri N -> length smooth < N + 1 ->
  SH_Model.multsmoothfact SH_Model.RR smooth c junk = None.
Proof.
  intros LC HT LJ LS. unfold SH_Model.multsmoothfact.
  replace (SH_Model.trunc32 _) with (Some (Z.of_nat N)) by (symmetry; exact (SH_Props.trunc_ok SH_Model.RR c N (conj LC HT))). cbn [bind].
  apply (SH_Proofs4.smooth_short SH_Model.RR N smooth c junk); [exact LC|apply Nat.eq_le_incl; symmetry; exact LJ|exact LS].
Qed.

Section Smooth.
Variables (nlat N : nat) (smooth : list R) (fresh : nat -> list (R * R)) (x : array (R * R)) (extra : list nat).
Hypothesis HN : N < nlat.
Hypothesis HT : (Z.of_nat (tri N) < 2 ^ 31)%Z.
Hypothesis ES : shape x = tri N :: extra.
Hypothesis LF : forall k, k < total extra -> length (fresh k) = tri N.
Lemma smooth_ok : N + 1 <= length smooth -> exists y, smooth_spectrum nlat smooth fresh x = Done y /\ shape y = tri N :: extra /\
  forall k m n, k < total extra -> m <= n <= N -> coefficient N (total extra) (elements y) k m n = scale (nth n smooth 0%R) (coefficient N (total extra) (elements x) k m n).
Proof.
  intros LS. unfold smooth_spectrum, validate_spectral_data. rewrite ES, (valid_spectrum nlat N HN HT). cbn [after hd]. set (nt := total extra) in *. set (cols := map (column_of (tri N) nt (elements x)) (seq 0 nt)).
  assert (LC : length cols = nt) by (unfold cols; rewrite map_length, seq_length; reflexivity).
  assert (NC : forall k, k < nt -> nth k cols [] = column_of (tri N) nt (elements x) k) by (intros k Hk; unfold cols; rewrite nth_tab by auto; reflexivity).
  destruct (@mapM_tab (nat * list (R * R)) (list (R * R)) (fun kc => SH_Model.multsmoothfact SH_Model.RR smooth (snd kc) (fresh (fst kc))) (0, []) []
     (fun k y => length y = tri N /\ forall m n, m <= n <= N -> at_ N y m n = scale (nth n smooth 0%R) (coefficient N nt (elements x) k m n)) (combine (seq 0 nt) cols)) as (cs & EM & LM & VM).
  { intros k Hk. rewrite combine_length, seq_length, LC in Hk. rewrite <- LC, combine_seq by lia. cbn [fst snd]. rewrite LC, NC by lia.
    destruct (smooth_one N smooth (column_of (tri N) nt (elements x) k) (fresh k) (column_length _ _ _ _) HT (LF k ltac:(lia)) LS) as (y & E & L & V).
    exists y. split; [exact E|]. split; [exact L|]. intros m n Hmn. rewrite V by auto. rewrite column_at by auto. reflexivity. }
  rewrite combine_length, seq_length, LC, Nat.min_id in LM, VM. match goal with |- context [run ?o] => replace o with (Some cs) by (symmetry; exact EM) end. cbn [run after].
  eexists. split; [reflexivity|]. split; [reflexivity|]. intros k m n Hk Hmn. unfold coefficient at 1. rewrite restore_spectral by (auto; apply SH_Proofs.index_lt; auto). destruct (VM k Hk) as (_ & _ & V). apply V. auto.
Qed.
Lemma smooth_outside : length smooth < N + 1 -> total extra <> 0 -> smooth_spectrum nlat smooth fresh x = Outside.
Proof.
  intros LS NZ. unfold smooth_spectrum, validate_spectral_data. rewrite ES, (valid_spectrum nlat N HN HT). cbn [after hd]. set (nt := total extra) in *. destruct nt as [|nt'] eqn:ENT; [congruence|].
  cbn [seq map combine mapM fst snd]. match goal with |- context [bind ?o _] => replace o with (@None (list (R * R))) by (symmetry; apply (smooth_none N smooth); [apply column_length|exact HT|apply LF; lia|exact LS]) end. reflexivity.
Qed.
End Smooth.
