(** Isentropic interpolation (C28, and the isentropic part of C29). *)
From Coq Require Import Permutation.
From Verif Require Import Base Buffer Loops I2P_Model VH_Model VH_Spec VH_Proofs VH_Proofs3 IS_Model IS_Spec IS_Proofs IS_Proofs2.
Local Open Scope nat_scope.

(** [marker missing] is the value that stands for missing inside the kernel: the
    caller's [missing_value], or the vinth2p sentinel when that is NaN. *)

(** Every output element is the interpolated value, at its theta, of the usable
    levels of its column; no buffer is left and no uninitialised output element
    survives ([e] does not occur in the value). *)
Theorem isentropic_values pw data temp pressure thetas p0 kappa ex missing nouter nlev ninner e :
  length data = nouter * nlev * ninner -> length temp = nouter * nlev * ninner -> length pressure = nouter * nlev * ninner ->
  length e = nouter * length thetas * ninner ->
  exists out, interp_to_isentropic pw data temp pressure thetas p0 kappa ex missing nouter nlev ninner e = Some out /\
    length out = nouter * length thetas * ninner /\
    forall o i k t D T P, o < nouter -> i < ninner -> nth_error thetas k = Some t ->
      column3 data nlev ninner o i D -> column3 temp nlev ninner o i T -> column3 pressure nlev ninner o i P ->
      let m := marker missing in
      exists w, profile_value ex (usable_levels pw p0 kappa (map (unmark m) D) (map (unmark m) T) (map (unmark m) P)) t w /\
        elt3 out (length thetas) ninner o k i = Some (unmark m w).
Proof.
  intros Ld Lt Lp Le. destruct (isentropic_ok pw data temp pressure thetas p0 kappa ex missing nouter nlev ninner e Ld Lt Lp Le) as [out [E [L B]]].
  exists out. split; auto. split; auto. intros o i k t D T P Ho Hi Hk CD CT CP m.
  rewrite <- (column3_unique _ _ _ _ _ _ _ _ (take_column_spec _ None data nouter nlev ninner o i Ld Ho Hi) CD).
  rewrite <- (column3_unique _ _ _ _ _ _ _ _ (take_column_spec _ None temp nouter nlev ninner o i Lt Ho Hi) CT).
  rewrite <- (column3_unique _ _ _ _ _ _ _ _ (take_column_spec _ None pressure nouter nlev ninner o i Lp Ho Hi) CP).
  fold (column_levels pw p0 kappa m data temp pressure nlev ninner o i). set (L0 := column_levels _ _ _ _ _ _ _ _ _ _ _).
  destruct (column_profile_ok L0 ex m t) as [w [Ew V]]. exists w. split; auto.
  rewrite B by (auto; apply nth_error_Some; congruence). rewrite nth_error_map, Hk. cbn [option_map]. fold m. fold L0. rewrite Ew. f_equal.
  destruct w; auto. unfold spv_of, unmark. destruct (Qceqb_spec m m); congruence.
Qed.

(** what [profile_value] says is one value *)
Theorem isentropic_value_unique ex L t w w' : profile_value ex L t w -> profile_value ex L t w' -> w = w'.
Proof. apply profile_value_unique. Qed.

(** present outputs lie within the range of the usable data of the column *)
Theorem isentropic_in_range pw data temp pressure thetas p0 kappa ex missing nouter nlev ninner e out o i k D T P v lo hi :
  length data = nouter * nlev * ninner -> length temp = nouter * nlev * ninner -> length pressure = nouter * nlev * ninner ->
  length e = nouter * length thetas * ninner -> o < nouter -> i < ninner -> k < length thetas ->
  column3 data nlev ninner o i D -> column3 temp nlev ninner o i T -> column3 pressure nlev ninner o i P ->
  (forall d, In (Some d) D -> d = marker missing \/ (lo <= d)%Qc /\ (d <= hi)%Qc) ->
  interp_to_isentropic pw data temp pressure thetas p0 kappa ex missing nouter nlev ninner e = Some out ->
  elt3 out (length thetas) ninner o k i = Some (Some v) -> (lo <= v)%Qc /\ (v <= hi)%Qc.
Proof.
  intros Ld Lt Lp Le Ho Hi Hk CD CT CP HD E Ev.
  destruct (isentropic_values pw data temp pressure thetas p0 kappa ex missing nouter nlev ninner e Ld Lt Lp Le) as [out' [E' [_ V]]].
  rewrite E in E'. injection E' as <-. destruct (nth_error thetas k) as [t|] eqn:Et; [|apply nth_error_None in Et; lia].
  destruct (V o i k t D T P Ho Hi Et CD CT CP) as [w [PV Ew]]. rewrite Ev in Ew. injection Ew as Ew.
  assert (w = Some v) as ->. { destruct w as [w|]; [|discriminate]. simpl in Ew. destruct (w =? marker missing)%Qc; congruence. }
  eapply profile_between; [exact PV|]. clear - HD. revert T P. induction D as [|d D IH]; intros [|t T] [|p P] q Hq; try destruct Hq.
  cbn [map usable_levels] in Hq. apply in_app_iff in Hq. destruct Hq as [Hq|Hq].
  - destruct d as [d|]; [|destruct Hq]. unfold unmark at 1 in Hq. destruct (Qceqb_spec d (marker missing)); [destruct Hq|].
    unfold usable_level in Hq. destruct (unmark _ t); [|destruct Hq]. destruct (unmark _ p); [|destruct Hq]. destruct (_ <? _)%Qc; [|destruct Hq].
    destruct Hq as [<-|[]]. cbn [snd]. destruct (HD d); simpl; auto. contradiction.
  - apply (IH (fun d' H' => HD d' (or_intror H')) T P q Hq).
Qed.

(** outside the theta range of the column: missing, or the edge value *)
Theorem isentropic_outside pw data temp pressure thetas p0 kappa ex missing nouter nlev ninner e out o i k t D T P :
  length data = nouter * nlev * ninner -> length temp = nouter * nlev * ninner -> length pressure = nouter * nlev * ninner ->
  length e = nouter * length thetas * ninner -> o < nouter -> i < ninner -> nth_error thetas k = Some t ->
  column3 data nlev ninner o i D -> column3 temp nlev ninner o i T -> column3 pressure nlev ninner o i P ->
  let m := marker missing in let L := usable_levels pw p0 kappa (map (unmark m) D) (map (unmark m) T) (map (unmark m) P) in
  (forall q, In q L -> (t < fst q)%Qc) \/ (forall q, In q L -> (fst q < t)%Qc) ->
  interp_to_isentropic pw data temp pressure thetas p0 kappa ex missing nouter nlev ninner e = Some out ->
  (ex = false -> elt3 out (length thetas) ninner o k i = Some None) /\
  (forall q, 2 <= length L -> NoDup (map fst L) -> In q L -> least L (fst q) \/ greatest L (fst q) ->
     (least L (fst q) <-> (t < fst q)%Qc) -> ex = true -> elt3 out (length thetas) ninner o k i = Some (unmark m (Some (snd q)))).
Proof.
  intros Ld Lt Lp Le Ho Hi Hk CD CT CP m L HO E.
  destruct (isentropic_values pw data temp pressure thetas p0 kappa ex missing nouter nlev ninner e Ld Lt Lp Le) as [out' [E' [_ V]]].
  rewrite E in E'. injection E' as <-. destruct (V o i k t D T P Ho Hi Hk CD CT CP) as [w [PV Ew]]. fold m L in PV. fold m in Ew.
  assert (NE : forall q, In q L -> fst q <> t).
  { intros q Hq Z. destruct HO as [HO|HO]; specialize (HO q Hq); rewrite Z in HO; apply (Qclt_not_le _ _ HO), Qcle_refl. }
  split.
  - intros ->. destruct PV as [|y _ H2|x0 x1 y0 y1 _ [N1 [N2 [N3 [N4 _]]]] _ _| |]; auto.
    + apply first_at_in in H2. destruct (NE _ H2 eq_refl).
    + apply in_map_iff in N1, N2. destruct N1 as [q [<- Q]], N2 as [q' [<- Q']]. exfalso. destruct HO as [HO|HO].
      * apply (Qclt_not_le _ _ N3). apply Qclt_le_weak. auto.
      * apply (Qclt_not_le _ _ N4). apply Qclt_le_weak. auto.
  - intros [x y] L2 ND Hq HE HI ->. cbn [fst snd] in *. rewrite Ew. f_equal. f_equal.
    assert (FL : first_at L x y /\ last_at L x y).
    { apply in_split in Hq. destruct Hq as [l1 [l2 EL]]. rewrite EL in ND |- *. rewrite map_app in ND. cbn [map fst] in ND. apply NoDup_remove_2 in ND. rewrite <- map_app in ND.
      split; exists l1, l2; split; auto; intros p Hp Z; apply ND; rewrite <- Z; apply in_map; apply in_app_iff; auto. }
    destruct HO as [HO|HO].
    + assert (Hx : (t < x)%Qc) by (apply (HO _ Hq)). eapply profile_value_unique; [exact PV|]. exact (pv_low true L t x y L2 (proj2 HI Hx) Hx (proj1 FL)).
    + assert (Hx : (x < t)%Qc) by (apply (HO _ Hq)). eapply profile_value_unique; [exact PV|].
      assert (G : greatest L x). { destruct HE as [HL|]; auto. exfalso. apply (Qclt_not_le _ _ Hx), Qclt_le_weak. apply HI. auto. }
      exact (pv_high true L t x y L2 G Hx (proj2 FL)).
Qed.

(** with distinct thetas, the order in which levels are stored does not matter *)
Lemma usable_combine pw p0 kappa D : forall T P, length T = length D -> length P = length D ->
  usable_levels pw p0 kappa D T P = flat_map (fun dtp => usable_level pw p0 kappa (fst dtp) (fst (snd dtp)) (snd (snd dtp))) (combine D (combine T P)).
Proof. induction D as [|d D IH]; intros [|t T] [|p P] L1 L2; try discriminate; auto. cbn [usable_levels combine flat_map fst snd]. rewrite IH; auto. Qed.
Theorem isentropic_order_free pw data temp pressure data' temp' pressure' thetas p0 kappa ex missing nouter nlev ninner e e' :
  length data = nouter * nlev * ninner -> length temp = nouter * nlev * ninner -> length pressure = nouter * nlev * ninner ->
  length data' = nouter * nlev * ninner -> length temp' = nouter * nlev * ninner -> length pressure' = nouter * nlev * ninner ->
  length e = nouter * length thetas * ninner -> length e' = nouter * length thetas * ninner ->
  (forall o i D T P D' T' P', o < nouter -> i < ninner ->
     column3 data nlev ninner o i D -> column3 temp nlev ninner o i T -> column3 pressure nlev ninner o i P ->
     column3 data' nlev ninner o i D' -> column3 temp' nlev ninner o i T' -> column3 pressure' nlev ninner o i P' ->
     let m := marker missing in
     Permutation (combine D (combine T P)) (combine D' (combine T' P')) /\
     NoDup (map fst (usable_levels pw p0 kappa (map (unmark m) D) (map (unmark m) T) (map (unmark m) P)))) ->
  interp_to_isentropic pw data temp pressure thetas p0 kappa ex missing nouter nlev ninner e =
  interp_to_isentropic pw data' temp' pressure' thetas p0 kappa ex missing nouter nlev ninner e'.
Proof.
  intros Ld Lt Lp Ld' Lt' Lp' Le Le' H.
  destruct (isentropic_ok pw data temp pressure thetas p0 kappa ex missing nouter nlev ninner e Ld Lt Lp Le) as [out [E B]].
  destruct (isentropic_ok pw data' temp' pressure' thetas p0 kappa ex missing nouter nlev ninner e' Ld' Lt' Lp' Le') as [out' [E' B']].
  rewrite E, E'. f_equal. eapply by_columns_unique; eauto. intros o i Ho Hi. cbv beta. apply map_ext. intros t.
  set (m := marker missing) in *.
  destruct (column_profile_ok (column_levels pw p0 kappa m data temp pressure nlev ninner o i) ex m t) as [w [Ew V]].
  destruct (column_profile_ok (column_levels pw p0 kappa m data' temp' pressure' nlev ninner o i) ex m t) as [w' [Ew' V']].
  rewrite Ew, Ew'. replace w' with w; auto. eapply profile_value_unique; [|exact V'].
  destruct (H o i _ _ _ _ _ _ Ho Hi (take_column_spec _ None data nouter nlev ninner o i Ld Ho Hi) (take_column_spec _ None temp nouter nlev ninner o i Lt Ho Hi) (take_column_spec _ None pressure nouter nlev ninner o i Lp Ho Hi)
    (take_column_spec _ None data' nouter nlev ninner o i Ld' Ho Hi) (take_column_spec _ None temp' nouter nlev ninner o i Lt' Ho Hi) (take_column_spec _ None pressure' nouter nlev ninner o i Lp' Ho Hi)) as [P N].
  assert (PL : Permutation (column_levels pw p0 kappa m data' temp' pressure' nlev ninner o i) (column_levels pw p0 kappa m data temp pressure nlev ninner o i)).
  { unfold column_levels. rewrite !usable_combine by (rewrite !map_length, !take_column_length; auto).
    assert (CM : forall (f : option Qc -> option Qc) D T P, combine (map f D) (combine (map f T) (map f P)) = map (fun dtp => (f (fst dtp), (f (fst (snd dtp)), f (snd (snd dtp))))) (combine D (combine T P))).
    { intros f. induction D as [|d D IH]; intros [|t0 T] [|p P0]; simpl; auto. f_equal. auto. }
    rewrite !CM. rewrite !(flat_map_concat_map _ (map _ _)), !map_map, <- !flat_map_concat_map. symmetry. apply Permutation_flat_map. exact P. }
  apply profile_transfer with (R := column_levels pw p0 kappa m data temp pressure nlev ninner o i); auto; [symmetry; auto|].
  intros x. symmetry. apply at_key_perm; auto.
Qed.

(** two levels with the same theta: the stored order then decides *)
Theorem isentropic_order_duplicates_refuted : exists pw D T P D' T' P' thetas p0 kappa e,
  Permutation (combine D (combine T P)) (combine D' (combine T' P')) /\
  option_map (map (option_map this)) (interp_to_isentropic pw D T P thetas p0 kappa false None 1 3 1 e) <>
  option_map (map (option_map this)) (interp_to_isentropic pw D' T' P' thetas p0 kappa false None 1 3 1 e).
Proof.
  exists (fun x _ => x), [Some (qz 1); Some (qz 2); Some (qz 5)], [Some (qz 300); Some (qz 300); Some (qz 310)], [Some (qz 1); Some (qz 1); Some (qz 1)],
    [Some (qz 2); Some (qz 1); Some (qz 5)], [Some (qz 300); Some (qz 300); Some (qz 310)], [Some (qz 1); Some (qz 1); Some (qz 1)], (qz 300 :: nil), (qz 1), 0%Qc, (None :: nil).
  split; [simpl; apply perm_swap|]. vm_compute. discriminate.
Qed.

(** a concrete column: levels stored out of order, one missing, one without pressure *)
Definition demo_data := map Some [qz 10; qz 40; qz 20; qz 99] ++ [None].
Definition demo_temp := map Some [qz 300; qz 330; qz 310; qz 320; qz 305].
Definition demo_pres := map Some [qz 1; qz 1; qz 1; 0%Qc; qz 1].
Example isentropic_demo :
  option_map (map (option_map this)) (interp_to_isentropic (fun x _ => x) demo_data demo_temp demo_pres [qz 300; qz 305; qz 320; qz 340] (qz 1) 0 true None 1 5 1 [None; None; None; None]) =
    Some [Some (10 # 1)%Q; Some (15 # 1)%Q; Some (30 # 1)%Q; Some (40 # 1)%Q] /\
  option_map (map (option_map this)) (interp_to_isentropic (fun x _ => x) demo_data demo_temp demo_pres [qz 299; qz 340] (qz 1) 0 false None 1 5 1 [None; None]) = Some [None; None].
Proof. split; vm_compute; reflexivity. Qed.
Example isentropic_hypotheses : length demo_data = 1 * 5 * 1 /\ length demo_temp = 1 * 5 * 1 /\ length demo_pres = 1 * 5 * 1 /\
  column3 demo_data 5 1 0 0 demo_data /\
  let L := usable_levels (fun x _ => x) (qz 1) 0 demo_data demo_temp demo_pres in
  map (fun q => (this (fst q), this (snd q))) L = [(300 # 1, 10 # 1); (330 # 1, 40 # 1); (310 # 1, 20 # 1)]%Q /\ NoDup (map fst L).
Proof.
  repeat split; try (vm_compute; reflexivity).
  - intros k Hk. do 5 (destruct k; [reflexivity|]). lia.
  - repeat constructor; intros H; simpl in H; repeat (destruct H as [H|H]; [apply (f_equal this) in H; vm_compute in H; discriminate|]); auto.
Qed.
Example isentropic_two_columns :
  option_map (map (option_map this)) (interp_to_isentropic (fun x _ => x) (map Some [qz 1; qz 5; qz 3; qz 7]) (map Some [qz 300; qz 300; qz 310; qz 310]) (map Some [qz 1; qz 1; qz 1; qz 1])
    (qz 305 :: nil) (qz 1) 0 true None 1 2 2 [None; None]) = Some [Some (2 # 1)%Q; Some (6 # 1)%Q].
Proof. vm_compute. reflexivity. Qed.

Print Assumptions isentropic_values.
Print Assumptions isentropic_value_unique.
Print Assumptions isentropic_in_range.
Print Assumptions isentropic_outside.
Print Assumptions isentropic_order_free.
Print Assumptions isentropic_order_duplicates_refuted.
