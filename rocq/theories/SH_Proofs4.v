(** Laplacian and its inverse, smoothing, vorticity/divergence, evaluation. *)
From Coq Require Import Lia Arith ZArith List Bool Field_theory Field.
From Verif Require Import Base Buffer VH_Model VH_Proofs SH_Model SH_Spec SH_Proofs SH_Proofs2 SH_Proofs3 TG_Proofs.
Import ListNotations.
Local Open Scope Z_scope.

Lemma pointwise_ext_in (X Y : Type) N (f g : nat -> nat -> X -> Y) d :
  (forall m n x, (m <= n <= N)%nat -> f m n x = g m n x) -> pointwise N f d = pointwise N g d.
Proof.
  intro H. unfold pointwise. apply map_ext_in. intros [x [m n]] Hin. cbn [fst snd]. apply H.
  apply pairs_in. exact (in_combine_r _ _ _ _ Hin).
Qed.
Lemma pointwise_compose (X Y W : Type) N (f : nat -> nat -> X -> Y) (g : nat -> nat -> Y -> W) d :
  pointwise N g (pointwise N f d) = pointwise N (fun m n x => g m n (f m n x)) d.
Proof.
  unfold pointwise. generalize (pairs N) as l. induction d as [|x d IH]; intros [|p l]; [reflexivity..|].
  cbn [combine map fst snd]. f_equal. apply IH.
Qed.
Lemma pointwise_id (X : Type) N (f : nat -> nat -> X -> X) d : length d = tri N ->
  (forall m n x, (m <= n <= N)%nat -> f m n x = x) -> pointwise N f d = d.
Proof.
  intros Hd H. rewrite (pointwise_ext_in _ _ N f (fun m n x => x)) by exact H.
  unfold pointwise. rewrite <- pairs_length in Hd. clear H f. revert Hd. generalize (pairs N) as l.
  induction d as [|x d IH]; intros [|p l] Hd; try discriminate; [reflexivity|].
  cbn [combine map fst]. f_equal. apply IH. cbn [length] in Hd; lia.
Qed.

Lemma tl_enum (X : Type) k (l : list X) : tl (enum k l) = enum (S k) (tl l).
Proof. destruct l; reflexivity. Qed.

(** invlap's loop: every entry but the first. *)
Lemma skip_loop (X : Type) N (inp junk : list X) (h : Z -> X -> X) z :
  (tri N <= length inp)%nat -> (tri N <= length junk)%nat ->
  (let* out := tri_loop (Z.of_nat N) (fun m => if (m =? 1)%Z then 2 else m)
    (fun m n nm out => let* c := rdz inp nm in wrz out nm (h n c)) junk in
   wrz out 1 z)
  = Some (pointwise N (fun m n c => if (n =? 0)%nat then z else h (Z.of_nat n + 1) c) inp ++ skipn (tri N) junk).
Proof.
  intros Hi Hj. rewrite tri_loop_skip, tl_enum.
  pose (val := fun e : nat * (nat * nat) =>
      let* c := rdz inp (Z.of_nat (fst e) + 1) in Some (h (Z.of_nat (snd (snd e)) + 1) c)).
  rewrite (foldM_ext_in _ _ _ (fun out e => let* x := val e in wrz out (Z.of_nat (fst e) + 1) x)).
  2:{ intros out [k [m n]] _. unfold visit, val; cbn [fst snd].
      destruct (rdz inp _); reflexivity. }
  assert (Ht : (0 < tri N)%nat) by (pose proof (tri2 N); lia).
  pose (v := fun e : nat * (nat * nat) => h (Z.of_nat (snd (snd e)) + 1) (nth (fst e) inp z)).
  destruct junk as [|j0 junk]; [cbn [length] in Hj; lia|].
  destruct (pairs_head N) as [pl Ep].
  assert (Hpl : S (length pl) = tri N) by (rewrite <- pairs_length, Ep; reflexivity).
  change (j0 :: junk) with ([j0] ++ junk) at 1.
  rewrite (stream_write X (nat * nat) val v).
  - cbn [bind app]. pose proof (wrz_app X [] j0 (map v (enum 1 (tl (pairs N))) ++ skipn (length (tl (pairs N))) junk) 0 z eq_refl) as W.
    change (Z.of_nat 0 + 1) with 1 in W. cbn [app] in W. rewrite W.
    cbn [app]. f_equal. rewrite Ep. cbn [tl]. rewrite <- Hpl. cbn [skipn].
    assert (P : pointwise N (fun m n c => if (n =? 0)%nat then z else h (Z.of_nat n + 1) c) inp
       = z :: map v (enum 1 pl)).
    { rewrite <- (map_enum_pointwise X X N (fun m n c => if (n =? 0)%nat then z else h (Z.of_nat n + 1) c) inp
        (fun e => if (snd (snd e) =? 0)%nat then z else v e)) by
        (try exact Hi; intros k m n x E1 E2; cbn [snd]; unfold v; cbn [fst snd]; rewrite (nth_error_nth _ _ _ E1); reflexivity).
      rewrite Ep, enum_cons. cbn [map snd Nat.eqb]. f_equal. apply map_ext_in.
      intros [k [m n]] He. apply enum_in in He. destruct He as [_ He].
      assert (Hn : nth_error (tl (pairs N)) (k - 1) = Some (m, n)) by (rewrite Ep; exact He).
      apply pairs_tail in Hn. cbn [snd]. destruct (Nat.eqb_spec n 0); [lia|reflexivity]. }
    rewrite P. reflexivity.
  - reflexivity.
  - rewrite Ep. cbn [tl]. cbn [length] in Hj. lia.
  - intros [k [m n]] He. apply enum_in in He. destruct He as [Hk He].
    rewrite Ep in He. cbn [tl] in He.
    assert (Hlt : (k < tri N)%nat).
    { assert (k - 1 < length pl)%nat by (apply nth_error_Some; rewrite He; discriminate). lia. }
    unfold val, v; cbn [fst snd]. rewrite rdz_nth, (nth_error_nth' inp z) by lia. reflexivity.
Qed.

Section Vals.
Variable A : rl.
Variable LW : rlaws A.
Notation C := (T A * T A)%type.
Definition fth := rl_field A LW.
Add Field Afield : fth.
Notation "0f" := (rz A 0). Notation "1f" := (rz A 1).

Lemma invlap_result N r (d junk : list C) : (tri N <= length d)%nat -> (tri N <= length junk)%nat ->
  invlap_at A (Z.of_nat N) r d junk
  = Some (pointwise N (fun m n c => if (n =? 0)%nat then czero A else cscale A (ilapf A r (Z.of_nat n + 1)) c) d
          ++ skipn (tri N) junk).
Proof. intros Hd Hj. exact (skip_loop C N d junk (fun n => cscale A (ilapf A r n)) (czero A) Hd Hj). Qed.

Lemma lap_ilap r n : r <> 0f -> 2 <= n -> forall x, rmul A (ilapf A r n) (rmul A (lapf A r n) x) = x.
Proof.
  intros Hr Hn x. pose proof (nn1_nz A LW n Hn) as H. unfold ilapf, lapf.
  assert (Hn0 : rz A n <> 0f) by (apply (rl_nz A LW); lia).
  assert (Hn1 : rsub A (rz A n) 1f <> 0f) by (rewrite (rz_sub1 A LW); apply (rl_nz A LW); lia).
  field. repeat split; assumption.
Qed.
Lemma ilap_lap r n : r <> 0f -> 2 <= n -> forall x, rmul A (lapf A r n) (rmul A (ilapf A r n) x) = x.
Proof.
  intros Hr Hn x. unfold ilapf, lapf.
  assert (Hn0 : rz A n <> 0f) by (apply (rl_nz A LW); lia).
  assert (Hn1 : rsub A (rz A n) 1f <> 0f) by (rewrite (rz_sub1 A LW); apply (rl_nz A LW); lia).
  field. repeat split; assumption.
Qed.
Lemma lapf_1 r : forall x, rmul A (lapf A r 1) x = 0f.
Proof. intro x. unfold lapf. replace (rsub A 1f 1f) with 0f by ring. 
  transitivity (rmul A 0f (rmul A (rdiv A 1f (rmul A r r)) x)); [|ring]. ring. Qed.

Definition zero_mean (d : list C) : list C := czero A :: tl d.
Lemma pointwise_zero_mean N (d : list C) : length d = tri N ->
  pointwise N (fun m n c => if (n =? 0)%nat then czero A else c) d = zero_mean d.
Proof.
  intro Hd. apply nth_error_ext_all. intro k.
  destruct (nth_error (pairs N) k) as [[m n]|] eqn:E.
  - destruct (nth_error d k) as [c|] eqn:Ec.
    2:{ apply nth_error_None in Ec. assert (k < length (pairs N))%nat by (apply nth_error_Some; rewrite E; discriminate).
        rewrite pairs_length in *. lia. }
    rewrite (pointwise_nth _ _ N _ d k m n c Ec E).
    destruct (pairs_head N) as [pl Ep]. unfold zero_mean. destruct k as [|k].
    + rewrite Ep in E. injection E as <- <-. reflexivity.
    + assert (H : nth_error (tl (pairs N)) k = Some (m, n)) by (rewrite Ep in *; exact E).
      apply pairs_tail in H. destruct (Nat.eqb_spec n 0); [lia|].
      destruct d; [discriminate|]. cbn [tl nth_error] in *. congruence.
  - assert (Hk : (tri N <= k)%nat) by (rewrite <- pairs_length; apply nth_error_None; exact E).
    rewrite (proj2 (nth_error_None (pointwise _ _ _) _)) by (rewrite pointwise_length by lia; assumption).
    symmetry. apply nth_error_None. unfold zero_mean. destruct d as [|c d]; [pose proof (tri2 N); cbn [length] in Hd; lia|].
    cbn [tl length] in *. lia.
Qed.
Lemma skipn_exact N (j : list C) : length j = tri N -> skipn (tri N) j = [].
Proof. intro H. apply skipn_all2. lia. Qed.
Lemma invlap_lap N r (d j1 j2 : list C) : r <> 0f -> length d = tri N -> length j1 = tri N -> length j2 = tri N ->
  exists l, lap_at A (Z.of_nat N) r d j1 = Some l /\ length l = tri N /\
    invlap_at A (Z.of_nat N) r l j2 = Some (zero_mean d).
Proof.
  intros Hr Hd H1 H2. eexists. split; [apply lap_result; lia|].
  rewrite (skipn_exact N j1 H1), app_nil_r. split; [apply pointwise_length; lia|].
  rewrite invlap_result by (rewrite ?pointwise_length; lia).
  rewrite (skipn_exact N j2 H2), app_nil_r, pointwise_compose. f_equal.
  rewrite <- (pointwise_zero_mean N d Hd). apply pointwise_ext_in. intros m n [re im] B.
  destruct (Nat.eqb_spec n 0); [reflexivity|]. unfold cscale; cbn [fst snd].
  rewrite !lap_ilap by (try exact Hr; lia). reflexivity.
Qed.
Lemma lap_invlap N r (d j1 j2 : list C) : r <> 0f -> length d = tri N -> length j1 = tri N -> length j2 = tri N ->
  exists l, invlap_at A (Z.of_nat N) r d j1 = Some l /\ length l = tri N /\
    lap_at A (Z.of_nat N) r l j2 = Some (zero_mean d).
Proof.
  intros Hr Hd H1 H2. eexists. split; [apply invlap_result; lia|].
  rewrite (skipn_exact N j1 H1), app_nil_r. split; [apply pointwise_length; lia|].
  rewrite lap_result by (rewrite ?pointwise_length; lia).
  rewrite (skipn_exact N j2 H2), app_nil_r, pointwise_compose. f_equal.
  rewrite <- (pointwise_zero_mean N d Hd). apply pointwise_ext_in. intros m n [re im] B.
  destruct (Nat.eqb_spec n 0) as [->|].
  - unfold cscale, czero; cbn [fst snd]. change (Z.of_nat 0 + 1) with 1. rewrite !lapf_1. reflexivity.
  - unfold cscale; cbn [fst snd]. rewrite !ilap_lap by (try exact Hr; lia). reflexivity.
Qed.

(** ** Smoothing *)
Lemma smooth_result N smooth (d junk : list C) : (tri N <= length d)%nat -> (tri N <= length junk)%nat ->
  (N + 1 <= length smooth)%nat ->
  multsmoothfact_at A (Z.of_nat N) smooth d junk
  = Some (pointwise N (fun m n c => cscale A (nth n smooth 0f) c) d ++ skipn (tri N) junk).
Proof.
  intros Hd Hj Hs.
  rewrite <- (spectral_loop C N d junk (fun m n => option_map (cscale A) (rdz smooth n))
    (fun m n c => cscale A (nth n smooth 0f) c) Hd Hj).
  - unfold multsmoothfact_at. apply tri_loop_ext. intros m n nm s. destruct (rdz smooth n); reflexivity.
  - intros m n B. rewrite rdz_nth, (nth_error_nth' smooth 0f) by lia. reflexivity.
Qed.
(** A smoothing vector that is too short is read past its end. *)
Lemma smooth_short N smooth (d junk : list C) : length d = tri N -> (tri N <= length junk)%nat ->
  (length smooth < N + 1)%nat -> multsmoothfact_at A (Z.of_nat N) smooth d junk = None.
Proof.
  intros Hd Hj Hs. unfold multsmoothfact_at. rewrite tri_loop_visits.
  assert (B : (0 <= length smooth <= N)%nat) by lia.
  assert (Hin : In (index N 0 (length smooth), (0%nat, length smooth)) (enum 0 (pairs N))).
  { apply enum_in. split; [lia|]. rewrite Nat.sub_0_r. apply nth_pairs; exact B. }
  apply in_split in Hin. destruct Hin as (l1 & l2 & ->).
  rewrite foldM_app. destruct (foldM _ l1 junk) as [s|]; [|reflexivity]. cbn [bind foldM].
  unfold visit at 1; cbn [fst snd]. rewrite rdz_nth.
  rewrite (proj2 (nth_error_None smooth (length smooth))) by lia. reflexivity.
Qed.
End Vals.
