(** C83: the Python layer of the potential-intensity code. *)
From Coq Require Import Reals List Arith Lia ZArith Bool Permutation Lra String.
From Verif Require Import Base Buffer VH_Model VH_Proofs PI_Model PI_Model2 PI_Spec PI_Proofs1 PI_Proofs2 PI_Proofs3 PI_Proofs4 PI_Props2 PI_Py PI_PySpec PI_PyProofs PI_PyProofs2.
Import ListNotations.
Local Open Scope nat_scope.

Lemma good_dim_dec s : {good_dim s} + {~ good_dim s}.
Proof. unfold good_dim. destruct (Nat.eq_dec (List.length s) 1), (Nat.eq_dec (List.length s) 3), (Nat.eq_dec (List.length s) 4); intuition. Qed.
Lemma detect_bad {A} (T : nd A) : ~ good_dim (sh T) -> detect_kind T = Raise.
Proof. unfold good_dim, detect_kind. destruct (List.length (sh T)) as [|[|[|[|[|n]]]]]; intros H; auto; exfalso; apply H; auto. Qed.

Section Calls.
Variables (sched : nat -> list nat) (junk : nat -> list (list R)) (flag0 : Z).
Notation call := (pi_call sched junk flag0).

(** The order in which the levels are listed does not matter. *)
Theorem C83_reversed : forall diag sst psl P T r T' r' actual a b,
  levels_reversed T T' -> levels_reversed r r' -> sh r = sh T ->
  nth_error P 0 = Some (Some a) -> nth_error P (List.length P - 1) = Some (Some b) -> a <> b ->
  call diag sst psl (rev P) T' r' actual = call diag sst psl P T r actual.
Proof.
  intros diag sst psl P T r T' r' actual a b HT Hr S Pa Pb N.
  destruct (good_dim_dec (sh T)) as [G|G].
  2:{ unfold pi_call, prepare_inputs. rewrite !detect_bad; auto. destruct HT as (_ & _ & -> & _). auto. }
  assert (ET := reversed_flip None T T' G HT). assert (Er := reversed_flip None r r' ltac:(rewrite S; auto) Hr).
  fold (flipped None T) in ET. fold (flipped None r) in Er. subst T' r'. assert (WT := proj1 HT). assert (Wr := proj1 Hr).
  assert (G' : good_dim (sh r)) by (rewrite S; auto).
  assert (EO : ensure_pressure_ordering (map nan_undef (rev P)) (cleaned (flipped None T)) (cleaned (flipped None r)) =
    ensure_pressure_ordering (map nan_undef P) (cleaned T) (cleaned r)).
  { rewrite !cleaned_flipped, map_rev by auto. apply ordering_reversed with (a := a) (b := b); auto.
    - unfold wf, cleaned. cbn. rewrite map_length. auto.
    - unfold wf, cleaned. cbn. rewrite map_length. auto.
    - split; [rewrite nth_error_map, Pa; auto|]. rewrite map_length, nth_error_map, Pb. auto. }
  assert (EP : prepare_inputs sst psl (rev P) (flipped None T) (flipped None r) actual = prepare_inputs sst psl P T r actual).
  { unfold prepare_inputs. assert (ED : detect_kind (flipped None T) = detect_kind T) by reflexivity. rewrite ED.
    assert (EG : forall k, prepare_gridded k sst psl (rev P) (flipped None T) (flipped None r) = prepare_gridded k sst psl P T r).
    { intros k. unfold prepare_gridded. rewrite EO. cbn [existsb]. rewrite !missing_flipped by auto. unfold has_missing at 3 8. rewrite existsb_rev. reflexivity. }
    assert (EF : forall s p, prepare_profile s p (rev P) (flipped None T) (flipped None r) actual = prepare_profile s p P T r actual).
    { intros s p. unfold prepare_profile. rewrite EO, rev_length. reflexivity. }
    destruct (detect_kind T) as [[]|]; [|rewrite EG; auto|rewrite EG; auto|auto].
    destruct (py_float sst) as [[?|]|], (py_float psl) as [[?|]|]; rewrite ?EF; auto. }
  unfold pi_call. rewrite EP. reflexivity.
Qed.

(** Inconsistent shapes and unknown options are rejected before the compiled
    call; consistent ones are not. *)
Lemma ordering_cases P0 (T r : nd R) : (exists P' T' r', ensure_pressure_ordering P0 T r = Ret (P', T', r') /\ List.length P' = List.length P0 /\ sh T' = sh T /\ sh r' = sh r) \/
  (ensure_pressure_ordering P0 T r = Raise /\ ~ (good_dim (sh T) /\ sh r = sh T)).
Proof.
  unfold ensure_pressure_ordering. destruct (upside_down P0); [|left; do 3 eexists; split; [reflexivity|auto]].
  unfold np_flip. destruct (List.length (sh T) <=? pressure_axis T) eqn:E1; [|destruct (List.length (sh r) <=? pressure_axis T) eqn:E2].
  - right. split; auto. intros [G S]. apply Nat.leb_le in E1. unfold pressure_axis, good_dim in *.
    destruct G as [G|[G|G]]; rewrite G in E1; cbn in E1; lia.
  - right. split; auto. intros [G S]. rewrite S in E2. congruence.
  - left. do 3 eexists. split; [reflexivity|]. rewrite rev_length. auto.
Qed.
Theorem C83_shapes : forall diag sst psl P T r actual,
  (forall x, call diag sst psl P T r actual = Some (Ret x) -> consistent sst psl P T r actual /\ known_source diag) /\
  (call diag sst psl P T r actual = Some Raise -> ~ (consistent sst psl P T r actual /\ known_source diag)) /\
  (~ In None (dat sst) -> ~ In None (dat psl) -> ~ (consistent sst psl P T r actual /\ known_source diag) ->
   call diag sst psl P T r actual = Some Raise).
Proof.
  intros diag sst psl P T r actual.
  assert (KS : forall s k, (outflow_flag s = Raise /\ ~ known_source (Some (s, k))) \/ (exists o, outflow_flag s = Ret o /\ known_source (Some (s, k)))).
  { intros s k. unfold outflow_flag, known_source. destruct (String.eqb_spec s "cape_star") as [->|]; [right; eauto|].
    destruct (String.eqb_spec s "cape_env") as [->|]; [right; eauto|left; split; auto; tauto]. }
  assert (CC : forall q, (forall x, (match diag with None => let* x := calc sched junk flag0 None q in Some (Ret x)
      | Some (s, ck) => match outflow_flag s with Raise => Some Raise | Ret o => let* x := calc sched junk flag0 (Some (o, ck)) q in Some (Ret x) end end) = Some (Ret x) -> known_source diag) /\
    ((match diag with None => let* x := calc sched junk flag0 None q in Some (Ret x)
      | Some (s, ck) => match outflow_flag s with Raise => Some Raise | Ret o => let* x := calc sched junk flag0 (Some (o, ck)) q in Some (Ret x) end end) = Some Raise <-> ~ known_source diag)).
  { intros q. destruct diag as [[s ck]|].
    - destruct (KS s ck) as [[-> K]|(o & -> & K)].
      + split; [discriminate|]. tauto.
      + split; auto. destruct (calc _ _ _ _ q); cbn; split; try discriminate; tauto.
    - split; [cbn; auto|]. destruct (calc _ _ _ _ q); cbn; split; try discriminate; tauto. }
  assert (PC : (exists q, prepare_inputs sst psl P T r actual = Some (Ret q) /\ consistent sst psl P T r actual) \/
    (prepare_inputs sst psl P T r actual = Some Raise /\ ~ consistent sst psl P T r actual) \/
    (prepare_inputs sst psl P T r actual = None /\ (In None (dat sst) \/ In None (dat psl)))).
  { destruct (good_dim_dec (sh T)) as [G|G].
    2:{ right. left. unfold prepare_inputs. rewrite detect_bad by auto. split; auto. intros [S C]. apply G. unfold good_dim.
        destruct (sh T) as [|? [|? [|? [|? [|? ?]]]]]; try contradiction; cbn; auto. }
    unfold prepare_inputs, detect_kind. destruct (sh T) as [|n [|n1 [|n2 [|n3 [|? ?]]]]] eqn:ST; unfold good_dim in G; cbn in G; try lia; cbn [List.length].
    - (* profile *)
      unfold py_float. assert (FL : forall X : nd (option R), (exists x, dat X = x :: nil) \/ (List.length (dat X) <> 1 /\ (match dat X with x :: nil => Ret x | _ => Raise end) = Raise)).
      { intros X. destruct (dat X) as [|x [|y l]]; [right; cbn; auto|left; eauto|right; cbn; auto]. }
      destruct (FL sst) as [[x Ex]|[Lx Ex]].
      2:{ rewrite Ex. right. left. split; [destruct (dat psl) as [|? [|? ?]]; auto|]. unfold consistent. rewrite ST. tauto. }
      destruct (FL psl) as [[y Ey]|[Ly Ey]].
      2:{ rewrite Ex, Ey. right. left. split; [destruct x; auto|]. unfold consistent. rewrite ST. tauto. }
      rewrite Ex, Ey. destruct x as [s|]; [|right; right; split; [auto|left; cbn; auto]]. destruct y as [p|]; [|right; right; split; [auto|right; cbn; auto]].
      unfold prepare_profile, py_len. rewrite ST. assert (CS : consistent sst psl P T r actual <-> sh r = n :: nil /\ List.length P = n /\ match actual with None => 1 <= n | Some z => (1 <= z <= Z.of_nat n)%Z end).
      { unfold consistent. rewrite ST, Ex, Ey. cbn. tauto. }
      destruct (sh r) as [|nr sr] eqn:Sr.
      { right. left. split; auto. rewrite CS. intros [X _]. discriminate. }
      destruct (Nat.eqb_spec n (List.length P)) as [E1|E1].
      2:{ right. left. cbn. split; auto. rewrite CS. intros (_ & X & _). auto. }
      destruct (Nat.eqb_spec nr (List.length P)) as [E2|E2].
      2:{ right. left. cbn. split; auto. rewrite CS. intros (X & Y & _). injection X as ? ?. congruence. }
      cbn [andb negb].
      destruct (ordering_cases (map nan_undef P) (cleaned T) (cleaned r)) as [(P' & T' & r' & -> & LP & S1 & S2)|[-> Q]].
      2:{ right. left. split; auto. rewrite CS. intros (X & Y & _). apply Q. cbn. rewrite ST, Sr. split; [left; auto|congruence]. }
      cbn in S1, S2. rewrite map_length in LP. unfold dimensions_ok. rewrite S1, S2, ST, Sr, LP, <- E1, shape_eqb_refl. cbn [andb].
      destruct (shape_eqb (n :: nil) (nr :: sr)) eqn:EB.
      2:{ right. left. cbn. split; auto. rewrite CS. intros [X _]. rewrite X, shape_eqb_refl in EB. discriminate. }
      apply shape_eqb_eq in EB. cbn [negb].
      destruct (orb _ _) eqn:EO.
      + right. left. split; auto. rewrite CS. intros (_ & _ & X). apply orb_true_iff in EO. rewrite !Z.ltb_lt in EO. destruct actual; lia.
      + left. eexists. split; [reflexivity|]. apply CS. apply orb_false_iff in EO. rewrite !Z.ltb_ge in EO. split; [congruence|]. split; auto. destruct actual; lia.
    - (* 3d *)
      unfold prepare_gridded. destruct (ordering_cases (map nan_undef P) (cleaned T) (cleaned r)) as [(P' & T' & r' & -> & LP & S1 & S2)|[-> Q]].
      2:{ right. left. split; auto. intros [X _]. apply Q. cbn. rewrite X, ST. split; [right; left; auto|auto]. }
      cbn in S1, S2. rewrite map_length in LP. unfold dimensions_ok. rewrite S1, S2, ST, LP. cbn [cleaned sh].
      destruct (andb _ _) eqn:EB.
      + left. eexists. split; [reflexivity|]. apply andb_true_iff in EB. destruct EB as [EB E4]. apply andb_true_iff in EB. destruct EB as [E1 EB].
        apply andb_true_iff in EB. destruct EB as [E2 E3]. apply shape_eqb_eq in E2, E3, E4. apply Nat.eqb_eq in E1. unfold consistent. rewrite ST. auto.
      + right. left. split; auto. unfold consistent. rewrite ST. intros (X & Y & Z & W). rewrite X, Y, Z, W, !shape_eqb_refl, Nat.eqb_refl in EB. discriminate.
    - (* 4d *)
      unfold prepare_gridded. destruct (ordering_cases (map nan_undef P) (cleaned T) (cleaned r)) as [(P' & T' & r' & -> & LP & S1 & S2)|[-> Q]].
      2:{ right. left. split; auto. intros [X _]. apply Q. cbn. rewrite X, ST. split; [right; right; auto|auto]. }
      cbn in S1, S2. rewrite map_length in LP. unfold dimensions_ok. rewrite S1, S2, ST, LP. cbn [cleaned sh].
      destruct (andb _ _) eqn:EB.
      + left. eexists. split; [reflexivity|]. apply andb_true_iff in EB. destruct EB as [EB E4]. apply andb_true_iff in EB. destruct EB as [E1 EB].
        apply andb_true_iff in EB. destruct EB as [E2 E3]. apply shape_eqb_eq in E2, E3, E4. apply Nat.eqb_eq in E1. unfold consistent. rewrite ST. auto.
      + right. left. split; auto. unfold consistent. rewrite ST. intros (X & Y & Z & W). rewrite X, Y, Z, W, !shape_eqb_refl, Nat.eqb_refl in EB. discriminate. }
  unfold pi_call. destruct PC as [(q & -> & C)|[[-> C]|[-> C]]]; cbn [bind].
  - specialize (CC q). destruct CC as [C1 C2]. split; [|split].
    + intros x H. split; auto. eapply C1; eauto.
    + intros H [_ K]. apply C2 in H. auto.
    + intros _ _ H. apply C2. tauto.
  - split; [discriminate|]. split; [tauto|auto].
  - split; [discriminate|]. split; [discriminate|]. intros A B. destruct C; contradiction.
Qed.
End Calls.
