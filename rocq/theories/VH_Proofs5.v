(** The ECMWF kernels, the drivers, and what one target of one column gets. *)
From Verif Require Import Base Buffer Loops I2P_Model I2P_Proofs VH_Model VH_Spec VH_Proofs VH_Proofs2 VH_Proofs3 VH_Proofs4.
Local Open Scope nat_scope.
Local Opaque spvl.

Section Drive.
Variable lg : Qc -> Qc.

(** ** Totality of the column kernels *)
Lemma nodes_loop_total intyp X P asc uw bp bpi spv : 2 <= length P -> length X = length P ->
  forall ts hint, 1 <= hint < length P ->
  exists vs, nodes_loop lg intyp X (map to_mb P) asc uw bp bpi spv 0 (targets_of lg ts) hint = Some vs /\ length vs = length ts.
Proof.
  intros H2 L. induction ts as [|t ts IH]; intros hint Hh; [exists []; auto|]. cbn [targets_of map nodes_loop Z.eqb].
  destruct (Qcltb bp (to_mb t)).
  - cbn [bind]. destruct (IH hint Hh) as [vs [E Lv]]. unfold targets_of in E. rewrite E. cbn [bind]. eexists. split; [reflexivity|]. simpl; auto.
  - assert (exists kp, (if uw then walk_down (map to_mb P) (to_mb t) hint else locate_bracketing_level_ordered (to_mb t) (map to_mb P) asc) = Some kp /\ 1 <= kp < length P) as [kp [E B]].
    { destruct uw.
      - destruct (walk_ok (map to_mb P) (to_mb t) hint) as [kp [E [B1 [B2 _]]]]; [rewrite map_length; lia|]. exists kp. split; auto. lia.
      - destruct (locate_bounds (to_mb t) (map to_mb P) asc) as [kp [E B]]; [rewrite map_length; auto|]. rewrite map_length in B. eauto. }
    rewrite E. cbn [bind]. destruct (Nat.ltb_spec kp 1); [lia|].
    destruct (node_value_ok lg intyp X P kp t L B) as [x [y [_ [_ ->]]]]. cbn [bind].
    destruct (IH (if uw then kp else hint)) as [vs [Ev Lv]]; [destruct uw; lia|]. unfold targets_of in Ev. rewrite Ev. cbn [bind].
    eexists. split; [reflexivity|]. simpl; auto.
Qed.
Notation mbs := convert_levels_to_mb.
Notation lls plevo := (build_double_log_levels lg (convert_levels_to_mb plevo)).
Lemma column_nodes_total intyp X a b p0 plevo ps : 2 <= length a -> length a = length b -> length X = length a ->
  exists vs, interpolate_column_nodes lg X a b (to_mb p0) (mbs plevo) (lls plevo) intyp ps spvl 0 = Some vs /\ length vs = length plevo.
Proof.
  intros H1 H2 H3. unfold interpolate_column_nodes.
  assert (C : exists vs, Some (map (fun _ : Qc => Some spvl) (mbs plevo)) = Some vs /\ length vs = length plevo).
  { eexists. split; [reflexivity|]. unfold convert_levels_to_mb. rewrite !map_length. auto. }
  destruct (Qceqb ps spvl); auto. rewrite pressures_mb. set (P := hybrid_pressures a b p0 ps) in *.
  assert (LP : length P = length a) by (apply pressures_length; auto).
  rewrite ascending_eq by (rewrite map_length; lia). cbn [bind]. rewrite ascends_mb by lia.
  rewrite lowest_eq, lowest_pair_eq by lia. cbn [bind]. rewrite rd_bottom by lia. cbn [bind].
  destruct (intyp_known intyp); auto. rewrite targets_combine. apply nodes_loop_total; try lia.
  unfold bottom_pair. destruct (ascends P); lia.
Qed.
Lemma column_nodes_spvl intyp X a b p0 plevo :
  interpolate_column_nodes lg X a b (to_mb p0) (mbs plevo) (lls plevo) intyp spvl spvl 0 = Some (map (fun _ => Some spvl) plevo).
Proof.
  unfold interpolate_column_nodes. destruct (Qceqb_spec spvl spvl); [|congruence]. unfold convert_levels_to_mb. rewrite map_map. auto.
Qed.

(** one target of the ECMWF column *)
Definition ecmwf1 (intyp : Z) (X : list (option Qc)) (P : list Qc) (ps : Qc) (varflg : Z) (tb ph : Qc) (t : Qc) : option (option Qc) :=
  ecmwf_target lg intyp X (map to_mb P) (ascends P) (bottom P) (to_mb ps) spvl 1 varflg tb ph (to_mb t, double_log_pressure lg (to_mb t)).
Lemma ecmwf1_ok intyp X P ps varflg tb ph t : 2 <= length P -> length X = length P -> exists v, ecmwf1 intyp X P ps varflg tb ph t = Some v.
Proof.
  intros H L. unfold ecmwf1, ecmwf_target. rewrite rd_bottom by lia. cbn [bind].
  destruct (Qcltb _ _).
  - destruct (rd_Some X (i := bottom P)) as [v E]; [rewrite L; apply bottom_range; lia|]. rewrite E. cbn [bind]. eauto.
  - destruct (locate_bounds (to_mb t) (map to_mb P) (ascends P)) as [kp [E B]]; [rewrite map_length; auto|]. rewrite map_length in B.
    rewrite E. cbn [bind]. destruct (kp <? 1); [eauto|]. destruct (node_value_ok lg intyp X P kp t L B) as [x [y [_ [_ ->]]]]. eauto.
Qed.
Definition column_ecmwf (intyp : Z) (X : list (option Qc)) (a b : list Qc) (p0 : Qc) (plevo : list Qc) (ps : Qc) (varflg : Z) (tb ph : Qc) :=
  if Qceqb ps spvl then Some (map (fun _ => Some spvl) plevo)
  else if intyp_known intyp then mapM (ecmwf1 intyp X (hybrid_pressures a b p0 ps) ps varflg tb ph) plevo
  else Some (map (fun _ => Some spvl) plevo).
Lemma column_ecmwf_eq intyp X a b p0 plevo ps varflg tb ph : 2 <= length a -> length a = length b ->
  interpolate_column_ecmwf lg X a b (to_mb p0) (mbs plevo) (lls plevo) intyp ps spvl 1 varflg tb ph = column_ecmwf intyp X a b p0 plevo ps varflg tb ph.
Proof.
  intros H1 H2. unfold interpolate_column_ecmwf, column_ecmwf.
  assert (C : map (fun _ : Qc => Some spvl) (mbs plevo) = map (fun _ : Qc => Some spvl) plevo) by (unfold convert_levels_to_mb; rewrite map_map; auto).
  rewrite C. destruct (Qceqb ps spvl); auto. rewrite pressures_mb. set (P := hybrid_pressures a b p0 ps) in *.
  assert (LP : length P = length a) by (apply pressures_length; auto).
  rewrite ascending_eq by (rewrite map_length; lia). cbn [bind]. rewrite ascends_mb by lia.
  rewrite lowest_eq by lia. cbn [bind]. destruct (intyp_known intyp); auto. rewrite targets_combine. unfold targets_of. rewrite mapM_map. reflexivity.
Qed.
Lemma column_ecmwf_total intyp X a b p0 plevo ps varflg tb ph : 2 <= length a -> length a = length b -> length X = length a ->
  exists vs, column_ecmwf intyp X a b p0 plevo ps varflg tb ph = Some vs /\ length vs = length plevo.
Proof.
  intros H1 H2 H3. unfold column_ecmwf. destruct (Qceqb ps spvl). { exists (map (fun _ => Some spvl) plevo). split; auto. apply map_length. }
  destruct (intyp_known intyp); [|exists (map (fun _ => Some spvl) plevo); split; auto; apply map_length].
  destruct (mapM_some _ _ (ecmwf1 intyp X (hybrid_pressures a b p0 ps) ps varflg tb ph) plevo) as [vs E].
  { intros t _. apply ecmwf1_ok; rewrite pressures_length; auto. }
  exists vs. split; auto. eapply mapM_length; eauto.
Qed.
Lemma flat_ecmwf_eq intyp (dati : list (option Qc)) P nouter nlev ninner o i t ps varflg tb ph : length dati = nouter * nlev * ninner -> o < nouter -> i < ninner ->
  length P = nlev -> 2 <= nlev -> intyp_known intyp = true ->
  flat_ecmwf_target lg intyp dati (map to_mb P) (build_flat_level_offsets (o * nlev * ninner) (i + 1) ninner nlev)
    (ascends P) (bottom P) ninner (to_mb ps) spvl 1 varflg tb ph (to_mb t, double_log_pressure lg (to_mb t))
  = ecmwf1 intyp (take_column None dati nlev ninner o i) P ps varflg tb ph t.
Proof.
  intros L Ho Hi LP H2 K. unfold flat_ecmwf_target, ecmwf1, ecmwf_target. pose proof (bottom_range P ltac:(lia)) as BR.
  rewrite rd_bottom by lia. cbn [bind]. rewrite rd_offsets by lia. cbn [bind].
  rewrite (rd_column _ None dati nouter) by (auto; lia).
  destruct (Qcltb _ _); [reflexivity|].
  destruct (locate_bounds (to_mb t) (map to_mb P) (ascends P)) as [kp [E B]]; [rewrite map_length; lia|]. rewrite map_length in B.
  rewrite E. cbn [bind]. destruct (Nat.ltb_spec kp 1); [lia|]. apply (flat_pair lg intyp dati P nouter nlev ninner o i kp t); auto. lia.
Qed.
Lemma flat_store_const (A B : Type) (g : option (option Qc)) ninner (ts : list A) : forall (ts' : list B) idx buf, length ts = length ts' ->
     flat_store (fun _ : A => g) ts idx ninner buf = flat_store (fun _ : B => g) ts' idx ninner buf.
Proof.
  induction ts as [|x ts IH]; intros [|y ts'] idx buf E; simpl in *; try discriminate; auto. destruct g; simpl; auto.
  destruct (wrx buf idx o); simpl; auto.
Qed.
Lemma ecmwf_corder_ok dati empty a b p0 plevo intyp psf varflg tb ph nouter ninner :
  2 <= length a -> length a = length b -> length dati = nouter * length a * ninner ->
  length psf = nouter * ninner -> length tb = nouter * ninner -> length ph = nouter * ninner -> length empty = nouter * length plevo * ninner ->
  exists col out, dvinth2p_ecmwf_nodes_corder lg dati empty a b p0 plevo intyp psf spvl 1 nouter (length a) ninner varflg tb ph = Some out /\
    by_columns nouter (length plevo) ninner col out /\
    forall o i, o < nouter -> i < ninner ->
      column_ecmwf intyp (take_column None dati (length a) ninner o i) a b p0 plevo (nth (o * ninner + i) psf 0%Qc) varflg
        (nth (o * ninner + i) tb 0%Qc) (nth (o * ninner + i) ph 0%Qc) = Some (col o i).
Proof.
  intros H1 H2 Ld Lp Lt Lh Le. set (nlev := length a) in *.
  pose (K := fun o i => column_ecmwf intyp (take_column None dati nlev ninner o i) a b p0 plevo (nth (o * ninner + i) psf 0%Qc) varflg
        (nth (o * ninner + i) tb 0%Qc) (nth (o * ninner + i) ph 0%Qc)).
  assert (exists col, forall o i, K o i = Some (col o i) /\ length (col o i) = length plevo) as [col Hcol].
  { exists (fun o i => match K o i with Some v => v | None => [] end). intros o i. unfold K.
    edestruct (column_ecmwf_total intyp (take_column None dati nlev ninner o i) a b p0 plevo) as [vs [-> L]]; auto.
    apply take_column_length. }
  exists col. unfold dvinth2p_ecmwf_nodes_corder.
  pose (f := fun o i : nat => let ps := nth (o * ninner + i) psf 0%Qc in let P := hybrid_pressures a b p0 ps in
     if Qceqb ps spvl then fun _ : Qc * Qc => Some (Some spvl)
     else if intyp_known intyp then
       flat_ecmwf_target lg intyp dati (map to_mb P) (build_flat_level_offsets (o * nlev * ninner) (i + 1) ninner nlev)
         (ascends P) (bottom P) ninner (to_mb ps) spvl 1 varflg (nth (o * ninner + i) tb 0%Qc) (nth (o * ninner + i) ph 0%Qc)
     else fun _ => Some (Some spvl)).
  destruct (corder_fold _ nouter (length plevo) ninner f (fun _ _ => targets_of lg plevo)
    (fun buf '(outer, inner) =>
    let* ps := rd psf (outer * ninner + inner) in
    let* t := rd tb (outer * ninner + inner) in
    let* h := rd ph (outer * ninner + inner) in
    interpolate_flat_column_ecmwf lg dati buf a b (to_mb p0) (mbs plevo) (lls plevo) intyp ps spvl 1 varflg t h
      (outer * nlev * ninner) (outer * length plevo * ninner) inner ninner nlev) col empty) as [out [E B]]; auto.
  - intros o i buf Ho Hi.
    replace (o * ninner + (i + 1)) with (Datatypes.S (o * ninner + i)) by lia. cbn [rd].
    rewrite (nth_error_nth' psf 0%Qc), (nth_error_nth' tb 0%Qc), (nth_error_nth' ph 0%Qc) by nia. cbn [bind]. unfold f.
    set (ps := nth (o * ninner + i) psf 0%Qc).
    unfold interpolate_flat_column_ecmwf. destruct (Qceqb ps spvl).
    + apply flat_store_const. unfold convert_levels_to_mb, targets_of. rewrite !map_length. auto.
    + rewrite pressures_mb. set (P := hybrid_pressures a b p0 ps) in *.
      assert (LP : length P = nlev) by (apply pressures_length; auto).
      rewrite ascending_eq by (rewrite map_length; lia). cbn [bind]. rewrite ascends_mb by lia.
      rewrite lowest_eq by lia. cbn [bind]. rewrite targets_combine.
      destruct (intyp_known intyp); auto.
      apply flat_store_const. unfold convert_levels_to_mb, targets_of. rewrite !map_length. auto.
  - intros o i Ho Hi. split; [unfold targets_of; apply map_length|]. destruct (Hcol o i) as [<- _]. unfold f, K, column_ecmwf.
    set (ps := nth (o * ninner + i) psf 0%Qc). destruct (Qceqb ps spvl); [unfold targets_of; rewrite mapM_map; apply mapM_const|].
    destruct (intyp_known intyp) eqn:Kn; [|unfold targets_of; rewrite mapM_map; apply mapM_const].
    unfold targets_of. rewrite mapM_map. apply mapM_ext_in. intros t _. apply (flat_ecmwf_eq intyp dati _ nouter); auto.
    apply pressures_length; auto.
  - exists out. split; auto. split; auto. intros o i Ho Hi. apply Hcol.
Qed.

(** ** The driver *)
Definition ps_or_spvl (ps : list (option Qc)) : list Qc := map (fun p => match p with Some p => p | None => spvl end) ps.
Lemma all_finite_spec ps psf : all_finite ps = Some psf -> psf = ps_or_spvl ps /\ ps = map Some psf.
Proof.
  revert psf. induction ps as [|[p|] ps IH]; simpl; intros psf H; [injection H as <-; auto| |discriminate].
  destruct (all_finite ps) as [l|]; simpl in H; [|discriminate]. injection H as <-. destruct (IH l eq_refl) as [-> E].
  split; auto. simpl. f_equal. auto.
Qed.
Lemma ps_nth ps j p : nth_error ps j = Some p -> nth j (ps_or_spvl ps) 0%Qc = match p with Some p => p | None => spvl end.
Proof. intros H. apply nth_error_nth. unfold ps_or_spvl. rewrite nth_error_map, H. reflexivity. Qed.
Lemma restore_spvl : restore_nan (Some spvl) = None.
Proof. unfold restore_nan. destruct (Qceqb_spec spvl spvl); congruence. Qed.

(** the result of either path, by columns; [walks] says the fallback ran *)
Lemma hybrid_result contiguous dati ps a b p0 plevo intyp nouter ninner empty :
  2 <= length a -> length a = length b -> length dati = nouter * length a * ninner ->
  length ps = nouter * ninner -> length empty = nouter * length plevo * ninner ->
  exists col out, interp_hybrid_to_pressure lg contiguous dati ps a b p0 plevo intyp None nouter ninner empty = Some out /\
    by_columns nouter (length plevo) ninner (fun o i => map restore_nan (col o i)) out /\
    forall o i, o < nouter -> i < ninner ->
      let X := take_column None dati (length a) ninner o i in
      let p := nth (o * ninner + i) (ps_or_spvl ps) 0%Qc in
      Some (col o i) = (if contiguous && match all_finite ps with Some _ => true | None => false end then column_search lg intyp X a b p0 plevo p
                        else interpolate_column_nodes lg X a b (to_mb p0) (mbs plevo) (lls plevo) intyp p spvl 0).
Proof.
  intros H1 H2 Ld Lp Le. unfold interp_hybrid_to_pressure.
  assert (FB : forall flag : bool, flag = false -> exists col out, hybrid_fallback lg dati ps a b p0 plevo intyp None nouter ninner = Some out /\
    by_columns nouter (length plevo) ninner (fun o i => map restore_nan (col o i)) out /\
    forall o i, o < nouter -> i < ninner ->
      let X := take_column None dati (length a) ninner o i in
      let p := nth (o * ninner + i) (ps_or_spvl ps) 0%Qc in
      Some (col o i) = (if flag then column_search lg intyp X a b p0 plevo p
                        else interpolate_column_nodes lg X a b (to_mb p0) (mbs plevo) (lls plevo) intyp p spvl 0)).
  { intros flag ->.
    pose (kern := fun X p => interpolate_column_nodes lg X a b (to_mb p0) (mbs plevo) (lls plevo) intyp p spvl 0).
    pose (col := fun o i => match kern (take_column None dati (length a) ninner o i) (nth (o * ninner + i) (ps_or_spvl ps) 0%Qc) with Some v => v | None => [] end).
    assert (Hcol : forall o i, kern (take_column None dati (length a) ninner o i) (nth (o * ninner + i) (ps_or_spvl ps) 0%Qc) = Some (col o i) /\ length (col o i) = length plevo).
    { intros o i. unfold col, kern.
      edestruct (column_nodes_total intyp (take_column None dati (length a) ninner o i) a b p0 plevo) as [vs [E L]]; auto; [apply take_column_length|].
      rewrite E. auto. }
    destruct (fallback_columns _ dati nouter (length a) (length plevo) ninner (ps_or_spvl ps) 0%Qc kern col) as [out [E B]]; auto.
    { unfold ps_or_spvl. rewrite map_length. auto. }
    exists col, (map restore_nan out). split; [|split].
    - unfold hybrid_fallback, dvinth2p_nodes. fold (ps_or_spvl ps). destruct (data_columns dati nouter (length a) ninner) as [cols|]; cbn [bind] in *; [|discriminate].
      change (fun '(col0, p) => interpolate_column_nodes lg col0 a b (to_mb p0) (mbs plevo) (lls plevo) intyp p spvl 0) with (fun '(c, x) => kern c x).
      destruct (mapM _ _) as [o|]; cbn [bind] in *; [|discriminate]. rewrite E. reflexivity.
    - apply by_columns_map; auto.
    - intros o i Ho Hi. cbv zeta. symmetry. apply Hcol. }
  destruct contiguous; [|apply (FB false); auto]. cbn [andb]. unfold hybrid_corder.
  destruct (all_finite ps) as [psf|] eqn:AF; cbn [bind]; [|apply (FB false); auto].
  destruct (all_finite_spec _ _ AF) as [Ep Es].
  destruct (nodes_corder_ok lg dati empty a b p0 plevo intyp psf nouter ninner) as [col [out [E [B C]]]]; auto.
  { rewrite Ep. unfold ps_or_spvl. rewrite map_length. auto. }
  exists col, (map restore_nan out). rewrite E. split; auto. split; [apply by_columns_map; auto|].
  intros o i Ho Hi. cbv zeta. rewrite <- Ep. symmetry. apply C; auto.
Qed.
Lemma hybrid_result_ecmwf contiguous dati ps a b p0 plevo intyp varflg tb ph nouter ninner empty :
  2 <= length a -> length a = length b -> length dati = nouter * length a * ninner ->
  length ps = nouter * ninner -> length tb = nouter * ninner -> length ph = nouter * ninner -> length empty = nouter * length plevo * ninner ->
  exists col out, interp_hybrid_to_pressure lg contiguous dati ps a b p0 plevo intyp (Some (varflg, (tb, ph))) nouter ninner empty = Some out /\
    by_columns nouter (length plevo) ninner (fun o i => map restore_nan (col o i)) out /\
    forall o i, o < nouter -> i < ninner ->
      Some (col o i) = column_ecmwf intyp (take_column None dati (length a) ninner o i) a b p0 plevo (nth (o * ninner + i) (ps_or_spvl ps) 0%Qc)
         varflg (nth (o * ninner + i) tb 0%Qc) (nth (o * ninner + i) ph 0%Qc).
Proof.
  intros H1 H2 Ld Lp Lt Lh Le. unfold interp_hybrid_to_pressure.
  set (G := exists col out, _).
  assert (FB : exists col out, hybrid_fallback lg dati ps a b p0 plevo intyp (Some (varflg, (tb, ph))) nouter ninner = Some out /\
    by_columns nouter (length plevo) ninner (fun o i => map restore_nan (col o i)) out /\
    forall o i, o < nouter -> i < ninner ->
      Some (col o i) = column_ecmwf intyp (take_column None dati (length a) ninner o i) a b p0 plevo (nth (o * ninner + i) (ps_or_spvl ps) 0%Qc)
         varflg (nth (o * ninner + i) tb 0%Qc) (nth (o * ninner + i) ph 0%Qc)).
  { pose (kern := fun X '((p, (t, h)) : Qc * (Qc * Qc)) => interpolate_column_ecmwf lg X a b (to_mb p0) (mbs plevo) (lls plevo) intyp p spvl 1 varflg t h).
    pose (par := combine (ps_or_spvl ps) (combine tb ph)).
    assert (Lpar : length par = nouter * ninner). { unfold par, ps_or_spvl. rewrite !combine_length, map_length. lia. }
    assert (Hpar : forall j, j < nouter * ninner -> nth j par (0%Qc, (0%Qc, 0%Qc)) = (nth j (ps_or_spvl ps) 0%Qc, (nth j tb 0%Qc, nth j ph 0%Qc))).
    { intros j Hj. apply nth_error_nth. unfold par. repeat apply nth_combine; apply nth_error_nth'; unfold ps_or_spvl; rewrite ?map_length; lia. }
    pose (col := fun o i => match kern (take_column None dati (length a) ninner o i) (nth (o * ninner + i) par (0%Qc, (0%Qc, 0%Qc))) with Some v => v | None => [] end).
    assert (Hcol : forall o i, o < nouter -> i < ninner -> kern (take_column None dati (length a) ninner o i) (nth (o * ninner + i) par (0%Qc, (0%Qc, 0%Qc))) = Some (col o i) /\ length (col o i) = length plevo).
    { intros o i Ho Hi. unfold col. rewrite Hpar by nia. unfold kern. rewrite column_ecmwf_eq by auto.
      edestruct (column_ecmwf_total intyp (take_column None dati (length a) ninner o i) a b p0 plevo) as [vs [E L]]; auto; [apply take_column_length|].
      rewrite E. auto. }
    destruct (fallback_columns _ dati nouter (length a) (length plevo) ninner par (0%Qc, (0%Qc, 0%Qc)) kern col) as [out [E B]]; auto.
    exists col, (map restore_nan out). split; [|split].
    - unfold hybrid_fallback, dvinth2p_ecmwf_nodes. fold (ps_or_spvl ps). fold par. destruct (data_columns dati nouter (length a) ninner) as [cols|]; cbn [bind] in *; [|discriminate].
      erewrite mapM_ext_in with (g := fun '(c, x) => kern c x).
      2:{ intros [c [p [t h]]] _. reflexivity. }
      destruct (mapM _ _) as [o|]; cbn [bind] in *; [|discriminate]. rewrite E. reflexivity.
    - apply by_columns_map; auto.
    - intros o i Ho Hi. rewrite <- column_ecmwf_eq by auto. destruct (Hcol o i Ho Hi) as [E1 _]. rewrite Hpar in E1 by nia. symmetry. exact E1. }
  subst G. destruct contiguous; [|auto]. unfold hybrid_corder.
  destruct (all_finite ps) as [psf|] eqn:AF; cbn [bind]; [|auto].
  destruct (all_finite_spec _ _ AF) as [Ep Es].
  destruct (ecmwf_corder_ok dati empty a b p0 plevo intyp psf varflg tb ph nouter ninner) as [col [out [E [B C]]]]; auto.
  { rewrite Ep. unfold ps_or_spvl. rewrite map_length. auto. }
  exists col, (map restore_nan out). rewrite E. split; auto. split; [apply by_columns_map; auto|].
  intros o i Ho Hi. rewrite <- Ep. symmetry. apply C; auto.
Qed.
End Drive.
