(** The two paths of the hybrid driver, and the values of one column. *)
From Verif Require Import Base Buffer Loops I2P_Model I2P_Proofs VH_Model VH_Spec VH_Proofs VH_Proofs2 VH_Proofs3.
Local Open Scope nat_scope.
Local Opaque spvl.

(** ** Proportions *)
Section Parts.
Variable lg : Qc -> Qc.
Local Notation usable := (usable lg).
Lemma Qc_ratio_unit a b : (0 < a)%Qc -> (a < b)%Qc -> (0 < a / b)%Qc /\ (a / b < 1)%Qc.
Proof.
  intros H1 H2. assert (H3 : (0 < b)%Qc) by (eapply Qclt_trans; eauto). pose proof (Qcinv_pos H3) as I. pose proof (Qcpos_neq H3) as N.
  assert (E : (b * / b = 1)%Qc) by (apply Qcmult_inv_r; auto). split.
  - unfold Qcdiv. apply Qcmul_pos; auto.
  - rewrite <- E. unfold Qcdiv. apply Qcmult_lt_compat_r; auto.
Qed.
Lemma Qc_div_opp a b : ((- a) / (- b) = a / b)%Qc.
Proof.
  assert (M : forall x, (- x = x * (0 - 1))%Qc) by (intros; ring). rewrite (M a), (M b). apply Qc_scale. intros E. apply this_eq_Qc in E. discriminate.
Qed.
Lemma Qc_ratio_unit_neg a b : (a < 0)%Qc -> (b < a)%Qc -> (0 < a / b)%Qc /\ (a / b < 1)%Qc.
Proof. intros H1 H2. rewrite <- Qc_div_opp. apply Qc_ratio_unit; qclra. Qed.
Lemma Qcdiv_self a : (a <> 0)%Qc -> (a / a = 1)%Qc.
Proof. intros H. unfold Qcdiv. apply Qcmult_inv_r; auto. Qed.
Lemma Qcdiv_0 a : (0 / a = 0)%Qc.
Proof. unfold Qcdiv. ring. Qed.
Lemma loglog_lt p q : log_like lg -> (0 < p)%Qc -> (p < q)%Qc -> (loglog lg p < loglog lg q)%Qc.
Proof.
  intros [L0 L] H1 H2. unfold loglog. set (c := (qz 1 / qz 100)%Qc). set (d := (qz 272 / qz 100)%Qc).
  assert (Hc : (0 < c)%Qc) by (vm_compute; reflexivity). assert (Hd : (1 < d)%Qc) by (vm_compute; reflexivity). clearbody c d.
  assert (E1 : (p * c < q * c)%Qc) by (apply Qcmult_lt_compat_r; auto). assert (E0 : (0 < p * c)%Qc) by (apply Qcmul_pos; auto).
  apply L; [|apply L; qclra]. rewrite <- L0. apply L; [reflexivity|qclra].
Qed.
Lemma log_ratio_lt p q r : log_like lg -> (0 < p)%Qc -> (0 < q)%Qc -> (q < r)%Qc -> (lg (q / p) < lg (r / p))%Qc.
Proof.
  intros [L0 L] Hp H1 H2. pose proof (Qcinv_pos Hp) as I. apply L; unfold Qcdiv; [apply Qcmul_pos; auto|apply Qcmult_lt_compat_r; auto].
Qed.
Lemma log_self p : log_like lg -> (0 < p)%Qc -> lg (p / p) = 0%Qc.
Proof. intros [L0 L] H. rewrite Qcdiv_self; auto. apply Qcpos_neq; auto. Qed.
(** an increasing coordinate turns "between" into a proportion between 0 and 1 *)
Lemma part_unit intyp P t p q : usable intyp P -> In p P -> In q P -> strictly_between t p q ->
  (0 < part lg intyp t p q)%Qc /\ (part lg intyp t p q < 1)%Qc.
Proof.
  intros U Hp Hq B. unfold part.
  destruct (Z.eqb_spec intyp 1) as [->|N1].
  - unfold linear_part. destruct B as [[B1 B2]|[B1 B2]]; [apply Qc_ratio_unit|apply Qc_ratio_unit_neg]; qclra.
  - destruct U as [U|[L A]]; [congruence|]. pose proof (A _ Hp) as Pp. pose proof (A _ Hq) as Pq.
    assert (Pt : (0 < t)%Qc) by (destruct B as [[B1 B2]|[B1 B2]]; qclra).
    destruct (Z.eqb_spec intyp 2) as [->|N2].
    + unfold log_part. pose proof (log_self p L Pp) as Z. destruct B as [[B1 B2]|[B1 B2]].
      * apply Qc_ratio_unit; [rewrite <- Z|]; apply log_ratio_lt; auto.
      * apply Qc_ratio_unit_neg; [rewrite <- Z|]; apply log_ratio_lt; auto.
    + unfold loglog_part. destruct B as [[B1 B2]|[B1 B2]].
      * pose proof (loglog_lt p t L Pp B1). pose proof (loglog_lt t q L Pt B2). apply Qc_ratio_unit; qclra.
      * pose proof (loglog_lt q t L Pq B1). pose proof (loglog_lt t p L Pt B2). apply Qc_ratio_unit_neg; qclra.
Qed.
Lemma part_ok_usable intyp P : usable intyp P -> part_ok lg intyp P.
Proof.
  intros U p q Hp Hq N. unfold part.
  assert (D : ((q - p)%Qc <> 0)%Qc) by (intros E; apply N; symmetry; replace q with (q - p + p)%Qc by ring; rewrite E; ring).
  destruct (Z.eqb_spec intyp 1) as [->|N1].
  - unfold linear_part. split; [|apply Qcdiv_self; auto]. replace (p - p)%Qc with 0%Qc by ring. apply Qcdiv_0.
  - destruct U as [U|[L A]]; [congruence|]. pose proof (A _ Hp) as Pp. pose proof (A _ Hq) as Pq.
    destruct (Z.eqb_spec intyp 2) as [->|N2].
    + unfold log_part. rewrite (log_self p L Pp). split; [apply Qcdiv_0|]. apply Qcdiv_self. intros E.
      destruct (Qc_dec p q) as [[O|O]|O]; [| |auto].
      * pose proof (log_ratio_lt p p q L Pp Pp O) as X. rewrite (log_self p L Pp), E in X. destruct (Qclt_not_eq _ _ X eq_refl).
      * pose proof (log_ratio_lt p q p L Pp Pq O) as X. rewrite (log_self p L Pp), E in X. destruct (Qclt_not_eq _ _ X eq_refl).
    + unfold loglog_part. split; [replace (loglog lg p - loglog lg p)%Qc with 0%Qc by ring; apply Qcdiv_0|]. apply Qcdiv_self. intros E.
      destruct (Qc_dec p q) as [[O|O]|O]; [| |auto].
      * pose proof (loglog_lt p q L Pp O). qclra.
      * pose proof (loglog_lt q p L Pq O). qclra.
Qed.
End Parts.

(** ** One column without the walk *)
Section Column.
Variable lg : Qc -> Qc.
Definition targets_of (plevo : list Qc) : list (Qc * Qc) := map (fun t => (to_mb t, double_log_pressure lg (to_mb t))) plevo.
Lemma targets_combine plevo : combine (convert_levels_to_mb plevo) (build_double_log_levels lg (convert_levels_to_mb plevo)) = targets_of plevo.
Proof. unfold convert_levels_to_mb, build_double_log_levels, targets_of. induction plevo; simpl; auto. f_equal. auto. Qed.
Definition ascends (P : list Qc) : bool := Qcleb (get P 1) (get P (length P)).
Definition bottom (P : list Qc) : nat := if ascends P then length P else 1.
Definition bottom_pair (P : list Qc) : nat := if ascends P then length P - 1 else 1.
Lemma ascends_mb P : 1 <= length P -> ascends (map to_mb P) = ascends P.
Proof.
  intros H. unfold ascends. rewrite map_length, !get_mb by lia.
  destruct (Qcleb_spec (to_mb (get P 1)) (to_mb (get P (length P)))) as [A|A], (Qcleb_spec (get P 1) (get P (length P))) as [B|B]; auto.
  - destruct B. apply mb_le; auto. - destruct A. apply mb_le; auto.
Qed.
Lemma ascending_eq P : 1 <= length P -> levels_ascending P = Some (ascends P).
Proof. intros H. unfold levels_ascending. rewrite !rd_get by lia. reflexivity. Qed.
Lemma lowest_eq P : 1 <= length P -> lowest_model_level_index (map to_mb P) = Some (bottom P).
Proof. intros H. unfold lowest_model_level_index. rewrite ascending_eq by (rewrite map_length; auto). cbn [bind]. rewrite ascends_mb, map_length by auto. reflexivity. Qed.
Lemma lowest_pair_eq P : 1 <= length P -> lowest_bracketing_level_index (map to_mb P) = Some (bottom_pair P).
Proof. intros H. unfold lowest_bracketing_level_index. rewrite ascending_eq by (rewrite map_length; auto). cbn [bind]. rewrite ascends_mb, map_length by auto. reflexivity. Qed.
Lemma bottom_range P : 1 <= length P -> 1 <= bottom P <= length P.
Proof. intros H. unfold bottom. destruct (ascends P); lia. Qed.
Lemma rd_bottom P : 1 <= length P -> rd (map to_mb P) (bottom P) = Some (to_mb (get P (bottom P))).
Proof. intros H. rewrite rd_map, rd_get by (apply bottom_range; auto). reflexivity. Qed.

Definition search1 (intyp : Z) (X : list (option Qc)) (P : list Qc) : Qc -> option (option Qc) :=
  fun t => search_target lg intyp X (map to_mb P) (ascends P) (to_mb (get P (bottom P))) (bottom_pair P) spvl 0
             (to_mb t, double_log_pressure lg (to_mb t)).
Definition column_search (intyp : Z) (X : list (option Qc)) (a b : list Qc) (p0 : Qc) (plevo : list Qc) (ps : Qc) : option (list (option Qc)) :=
  if Qceqb ps spvl then Some (map (fun _ => Some spvl) plevo)
  else if intyp_known intyp then mapM (search1 intyp X (hybrid_pressures a b p0 ps)) plevo
  else Some (map (fun _ => Some spvl) plevo).
Lemma search1_ok intyp X P t : 2 <= length P -> length X = length P ->
  exists v, search1 intyp X P t = Some v.
Proof.
  intros H L. unfold search1, search_target; cbv beta iota. destruct (Qcltb _ _); [exists (Some spvl); reflexivity|].
  destruct (locate_bounds (to_mb t) (map to_mb P) (ascends P)) as [kp [E B]]; [rewrite map_length; auto|].
  rewrite E. cbn [bind]. rewrite map_length in B. destruct (kp <? 1); [eauto|].
  destruct (node_value_ok lg intyp X P kp t L B) as [x [y [_ [_ ->]]]]. eauto.
Qed.
Lemma column_search_ok intyp X a b p0 plevo ps : 2 <= length a -> length a = length b -> length X = length a ->
  exists vs, column_search intyp X a b p0 plevo ps = Some vs /\ length vs = length plevo.
Proof.
  intros H1 H2 H3. unfold column_search. destruct (Qceqb ps spvl). { exists (map (fun _ => Some spvl) plevo). split; auto. apply map_length. }
  destruct (intyp_known intyp); [|exists (map (fun _ => Some spvl) plevo); split; auto; apply map_length].
  destruct (mapM_some _ _ (search1 intyp X (hybrid_pressures a b p0 ps)) plevo) as [vs E].
  { intros t _. apply search1_ok; rewrite pressures_length; auto. }
  exists vs. split; auto. eapply mapM_length; eauto.
Qed.

(** the column kernel with the walk is the search *)
Lemma goes_up_ascends P : 2 <= length P -> goes_up P -> ascends P = true.
Proof. intros H U. unfold ascends. destruct (Qcleb_spec (get P 1) (get P (length P))) as [|C]; auto. destruct C. apply up_le; auto; lia. Qed.
Lemma goes_down_ascends P : 2 <= length P -> goes_down P -> ascends P = false.
Proof. intros H U. unfold ascends. destruct (Qcleb_spec (get P 1) (get P (length P))) as [C|]; auto. exfalso.
  apply (Qcle_not_lt _ _ C). apply down_lt; auto; lia. Qed.
Lemma column_nodes_search intyp X a b p0 plevo ps : 2 <= length a -> length a = length b -> length X = length a ->
  usable lg intyp (hybrid_pressures a b p0 ps) -> strictly_monotone (hybrid_pressures a b p0 ps) ->
  (no_nan X \/ forall t, In t plevo -> ~ In t (hybrid_pressures a b p0 ps)) ->
  interpolate_column_nodes lg X a b (to_mb p0) (convert_levels_to_mb plevo) (build_double_log_levels lg (convert_levels_to_mb plevo)) intyp ps spvl 0
  = column_search intyp X a b p0 plevo ps.
Proof.
  intros H1 H2 H3 U M D. unfold interpolate_column_nodes, column_search, convert_levels_to_mb.
  destruct (Qceqb ps spvl); [rewrite map_map; auto|]. rewrite pressures_mb. set (P := hybrid_pressures a b p0 ps) in *.
  assert (LP : length P = length a) by (apply pressures_length; auto).
  rewrite ascending_eq by (rewrite map_length; lia). cbn [bind]. rewrite ascends_mb by lia.
  rewrite lowest_eq, lowest_pair_eq by lia. cbn [bind]. rewrite rd_bottom by lia. cbn [bind].
  destruct (intyp_known intyp) eqn:K; [|rewrite map_map; auto].
  change (combine _ _) with (combine (convert_levels_to_mb plevo) (build_double_log_levels lg (convert_levels_to_mb plevo))).
  rewrite targets_combine. unfold targets_of.
  assert (S : mapM (search1 intyp X P) plevo = mapM (search_target lg intyp X (map to_mb P) (ascends P) (to_mb (get P (bottom P))) (bottom_pair P) spvl 0)
     (map (fun t => (to_mb t, double_log_pressure lg (to_mb t))) plevo)) by (rewrite mapM_map; reflexivity).
  rewrite S. clear S. destruct (ascends P && never_up (map to_mb plevo)) eqn:W.
  - apply andb_true_iff in W. destruct W as [W1 W2]. unfold bottom, bottom_pair. rewrite !W1.
    assert (G : goes_up P). { destruct M as [M|M]; auto. rewrite goes_down_ascends in W1; auto; [discriminate|lia]. }
    apply nodes_loop_walk; auto; try lia.
    apply part_ok_usable; auto.
  - apply nodes_loop_search.
Qed.
(** when the levels run downwards no condition on NaN is needed *)
Lemma column_nodes_search_down intyp X a b p0 plevo ps : 2 <= length a -> length a = length b -> length X = length a ->
  goes_down (hybrid_pressures a b p0 ps) ->
  interpolate_column_nodes lg X a b (to_mb p0) (convert_levels_to_mb plevo) (build_double_log_levels lg (convert_levels_to_mb plevo)) intyp ps spvl 0
  = column_search intyp X a b p0 plevo ps.
Proof.
  intros H1 H2 H3 M. unfold interpolate_column_nodes, column_search, convert_levels_to_mb.
  destruct (Qceqb ps spvl); [rewrite map_map; auto|]. rewrite pressures_mb. set (P := hybrid_pressures a b p0 ps) in *.
  assert (LP : length P = length a) by (apply pressures_length; auto).
  rewrite ascending_eq by (rewrite map_length; lia). cbn [bind]. rewrite ascends_mb by lia.
  rewrite lowest_eq, lowest_pair_eq by lia. cbn [bind]. rewrite rd_bottom by lia. cbn [bind].
  destruct (intyp_known intyp) eqn:K; [|rewrite map_map; auto].
  change (combine _ _) with (combine (convert_levels_to_mb plevo) (build_double_log_levels lg (convert_levels_to_mb plevo))).
  rewrite targets_combine. unfold targets_of. rewrite (goes_down_ascends P) by (auto; lia). cbn [andb].
  rewrite nodes_loop_search, mapM_map. unfold search1. rewrite (goes_down_ascends P) by (auto; lia). reflexivity.
Qed.

(** ** The flat kernel is the search on the column it addresses *)
Lemma rd_den (l : list Qc) : forall kp, 1 <= kp < length l ->
  rd (build_double_log_interval_denominators l) kp = Some (get l (kp + 1) - get l kp)%Qc.
Proof.
  induction l as [|x l IH]; simpl; intros kp H; [lia|]. destruct l as [|y l]; [simpl in H; lia|].
  destruct kp as [|[|kp]]; [lia|reflexivity|].
  specialize (IH (Datatypes.S kp) ltac:(simpl in *; lia)).
  change (rd (build_double_log_interval_denominators (y :: l)) (Datatypes.S kp) = Some (get (x :: y :: l) (Datatypes.S (Datatypes.S kp) + 1) - get (x :: y :: l) (Datatypes.S (Datatypes.S kp)))%Qc).
  rewrite IH. unfold get. rewrite !Nat.add_sub, !Nat.sub_succ, !Nat.sub_0_r. reflexivity.
Qed.
Lemma flat_pair intyp (dati : list (option Qc)) P nouter nlev ninner o i kp t : length dati = nouter * nlev * ninner -> o < nouter -> i < ninner ->
  length P = nlev -> 1 <= kp < nlev -> intyp_known intyp = true ->
  (let* input_idx := rd (build_flat_level_offsets (o * nlev * ninner) (i + 1) ninner nlev) kp in
   let* lower := rd dati input_idx in
   let* upper := rd dati (input_idx + ninner) in
   if (intyp =? 3)%Z then
      let* l := rd (build_double_log_levels lg (map to_mb P)) kp in
      let* d := rd (build_double_log_interval_denominators (build_double_log_levels lg (map to_mb P))) kp in
      Some (interpolate_value_loglog_precomputed lower upper (double_log_pressure lg (to_mb t)) l d)
   else
      let* pl := rd (map to_mb P) kp in
      let* pu := rd (map to_mb P) (kp + 1) in
      Some (if (intyp =? 1)%Z then interpolate_value_linear lower upper (to_mb t) pl pu
            else interpolate_value_log lg lower upper (to_mb t) pl pu))
  = node_value lg intyp (take_column None dati nlev ninner o i) (map to_mb P) kp (to_mb t) (double_log_pressure lg (to_mb t)).
Proof.
  intros L Ho Hi LP Hk K. rewrite rd_offsets by lia. cbn [bind].
  rewrite (rd_column _ None dati nouter) by (auto; lia).
  replace (o * nlev * ninner + (i + 1) + (kp - 1) * ninner + ninner) with (o * nlev * ninner + (i + 1) + (kp + 1 - 1) * ninner) by nia.
  rewrite (rd_column _ None dati nouter) by (auto; lia). unfold node_value.
  destruct (rd (take_column None dati nlev ninner o i) kp) as [lower|]; cbn [bind]; auto.
  destruct (rd (take_column None dati nlev ninner o i) (kp + 1)) as [upper|]; cbn [bind]; auto.
  unfold build_double_log_levels.
  rewrite rd_den by (rewrite !map_length; lia). rewrite !rd_get by (rewrite ?map_length; lia). cbn [bind].
  rewrite !(get_map (double_log_pressure lg)) by (rewrite map_length; lia).
  destruct (Z.eqb_spec intyp 3) as [->|N3]; [reflexivity|]. destruct (Z.eqb_spec intyp 1) as [->|N1]; [reflexivity|].
  destruct (Z.eqb_spec intyp 2) as [->|N2]; [reflexivity|].
  exfalso. unfold intyp_known in K. apply Z.eqb_neq in N1, N2, N3. rewrite N1, N2, N3 in K. discriminate.
Qed.
Lemma flat_nodes_eq intyp (dati : list (option Qc)) P nouter nlev ninner o i t : length dati = nouter * nlev * ninner -> o < nouter -> i < ninner ->
  length P = nlev -> 2 <= nlev -> intyp_known intyp = true ->
  flat_nodes_target lg intyp dati (map to_mb P) (build_flat_level_offsets (o * nlev * ninner) (i + 1) ninner nlev)
    (ascends P) (to_mb (get P (bottom P))) (bottom_pair P) ninner spvl 0 (to_mb t, double_log_pressure lg (to_mb t))
  = search1 intyp (take_column None dati nlev ninner o i) P t.
Proof.
  intros L Ho Hi LP H2 K. unfold flat_nodes_target, search1, search_target; cbv beta iota zeta.
  destruct (Qcltb _ _); [reflexivity|].
  destruct (locate_bounds (to_mb t) (map to_mb P) (ascends P)) as [kp [E B]]; [rewrite map_length; lia|]. rewrite map_length in B.
  rewrite E. cbn [bind]. destruct (Nat.ltb_spec kp 1); [lia|]. apply (flat_pair intyp dati P nouter nlev ninner o i kp t); auto. lia.
Qed.
Lemma mapM_const (A B : Type) (v : B) (l : list A) : mapM (fun _ => Some v) l = Some (map (fun _ => v) l).
Proof. induction l; simpl; auto. rewrite IHl. auto. Qed.

Lemma nodes_corder_ok dati empty a b p0 plevo intyp psf nouter ninner :
  2 <= length a -> length a = length b -> length dati = nouter * length a * ninner ->
  length psf = nouter * ninner -> length empty = nouter * length plevo * ninner ->
  exists col out, dvinth2p_nodes_corder lg dati empty a b p0 plevo intyp psf spvl 0 nouter (length a) ninner = Some out /\
    by_columns nouter (length plevo) ninner col out /\
    forall o i, o < nouter -> i < ninner ->
      column_search intyp (take_column None dati (length a) ninner o i) a b p0 plevo (nth (o * ninner + i) psf 0%Qc) = Some (col o i).
Proof.
  intros H1 H2 Ld Lp Le. set (nlev := length a) in *.
  assert (exists col, forall o i, column_search intyp (take_column None dati nlev ninner o i) a b p0 plevo (nth (o * ninner + i) psf 0%Qc) = Some (col o i) /\ length (col o i) = length plevo) as [col Hcol].
  { exists (fun o i => match column_search intyp (take_column None dati nlev ninner o i) a b p0 plevo (nth (o * ninner + i) psf 0%Qc) with Some v => v | None => [] end).
    intros o i. destruct (column_search_ok intyp (take_column None dati nlev ninner o i) a b p0 plevo (nth (o * ninner + i) psf 0%Qc)) as [vs [-> L]]; auto.
    apply take_column_length. }
  exists col. unfold dvinth2p_nodes_corder.
  pose (f := fun o i : nat => let ps := nth (o * ninner + i) psf 0%Qc in let P := hybrid_pressures a b p0 ps in
     if Qceqb ps spvl then fun _ : Qc * Qc => Some (Some spvl)
     else if intyp_known intyp then
       flat_nodes_target lg intyp dati (map to_mb P) (build_flat_level_offsets (o * nlev * ninner) (i + 1) ninner nlev)
         (ascends P) (to_mb (get P (bottom P))) (bottom_pair P) ninner spvl 0
     else fun _ => Some (Some spvl)).
  assert (FC : forall (g : option (option Qc)) (ts : list Qc) idx buf, flat_store (fun _ : Qc => g) ts idx ninner buf = flat_store (fun _ : Qc * Qc => g) (map (fun t => (t, t)) ts) idx ninner buf).
  { intros g. induction ts; intros idx buf; simpl; auto. destruct g; simpl; auto. destruct (wrx buf idx o); simpl; auto. }
  assert (FM : forall (A B : Type) (g : option (option Qc)) (ts : list A) (ts' : list B) idx buf, length ts = length ts' ->
     flat_store (fun _ : A => g) ts idx ninner buf = flat_store (fun _ : B => g) ts' idx ninner buf).
  { intros A B g. induction ts as [|x ts IH]; intros [|y ts'] idx buf E; simpl in *; try discriminate; auto. destruct g; simpl; auto.
    destruct (wrx buf idx o); simpl; auto. }
  destruct (corder_fold _ nouter (length plevo) ninner f (fun _ _ => targets_of plevo)
    (fun buf '(outer, inner) =>
    let* ps := rd psf (outer * ninner + inner) in
    interpolate_flat_column_nodes lg dati buf a b (to_mb p0) (convert_levels_to_mb plevo) (build_double_log_levels lg (convert_levels_to_mb plevo)) intyp ps spvl 0
      (outer * nlev * ninner) (outer * length plevo * ninner) inner ninner nlev) col empty) as [out [E B]]; auto.
  - intros o i buf Ho Hi.
    replace (o * ninner + (i + 1)) with (Datatypes.S (o * ninner + i)) by lia. cbn [rd].
    rewrite (nth_error_nth' psf 0%Qc) by (rewrite Lp; nia). cbn [bind]. unfold f. set (ps := nth (o * ninner + i) psf 0%Qc).
    unfold interpolate_flat_column_nodes. destruct (Qceqb ps spvl).
    + apply FM. unfold convert_levels_to_mb, targets_of. rewrite !map_length. auto.
    + rewrite pressures_mb. set (P := hybrid_pressures a b p0 ps) in *.
      assert (LP : length P = nlev) by (apply pressures_length; auto).
      rewrite ascending_eq by (rewrite map_length; lia). cbn [bind]. rewrite ascends_mb by lia.
      rewrite lowest_eq, lowest_pair_eq by lia. cbn [bind]. rewrite rd_bottom by lia. cbn [bind]. rewrite targets_combine.
      destruct (intyp_known intyp); auto.
      apply FM. unfold convert_levels_to_mb, targets_of. rewrite !map_length. auto.
  - intros o i Ho Hi. split; [unfold targets_of; apply map_length|]. destruct (Hcol o i) as [<- _]. unfold f, column_search.
    set (ps := nth (o * ninner + i) psf 0%Qc). destruct (Qceqb ps spvl); [unfold targets_of; rewrite mapM_map; apply mapM_const|].
    destruct (intyp_known intyp) eqn:K; [|unfold targets_of; rewrite mapM_map; apply mapM_const].
    unfold targets_of. rewrite mapM_map. apply mapM_ext_in. intros t _. apply (flat_nodes_eq intyp dati _ nouter); auto.
    apply pressures_length; auto.
  - exists out. split; auto. split; auto. intros o i Ho Hi. apply Hcol.
Qed.

Lemma data_columns_nth dati nouter nlev ninner cols o i : length dati = nouter * nlev * ninner -> data_columns dati nouter nlev ninner = Some cols ->
  o < nouter -> i < ninner -> nth_error cols (o * ninner + i) = Some (take_column None dati nlev ninner o i).
Proof.
  intros L E Ho Hi. rewrite data_columns_ok in E by auto. injection E as <-. rewrite nth_error_map, seq_nth_error by nia. cbn [option_map].
  rewrite Nat.div_add_l, Nat.div_small, Nat.add_0_r by lia. rewrite Nat.add_comm, Nat.mod_add, Nat.mod_small by lia. reflexivity.
Qed.
Lemma mapM_nth_inv (A B : Type) (f : A -> option B) l r k y : mapM f l = Some r -> nth_error r k = Some y -> exists x, nth_error l k = Some x /\ f x = Some y.
Proof.
  intros M H. destruct (nth_error l k) as [x|] eqn:E.
  - destruct (mapM_nth _ _ _ _ _ _ _ M E) as [y' [E1 E2]]. exists x. split; congruence.
  - apply nth_error_None in E. rewrite <- (mapM_length _ _ _ _ _ M) in E. apply nth_error_None in E. congruence.
Qed.

(** any column kernel that is total on the columns gives the fallback by columns *)
Lemma fallback_columns (A : Type) dati nouter nlev nlevo ninner (par : list A) (d : A) (kernel : list (option Qc) -> A -> option (list (option Qc))) col :
  length dati = nouter * nlev * ninner -> length par = nouter * ninner ->
  (forall o i, o < nouter -> i < ninner -> kernel (take_column None dati nlev ninner o i) (nth (o * ninner + i) par d) = Some (col o i) /\ length (col o i) = nlevo) ->
  exists out, (let* cols := data_columns dati nouter nlev ninner in
    let* out := mapM (fun '(c, x) => kernel c x) (combine cols par) in
    columns_to_corder out nouter nlevo ninner) = Some out /\ by_columns nouter nlevo ninner col out.
Proof.
  intros L Lp H. rewrite data_columns_ok by auto. cbn [bind].
  assert (E := data_columns_ok dati nouter nlev ninner L). set (cols := map _ _) in *.
  assert (Lc : length cols = nouter * ninner) by (unfold cols; rewrite map_length, seq_length; auto).
  assert (Hn : forall o i, o < nouter -> i < ninner -> nth_error (combine cols par) (o * ninner + i) = Some (take_column None dati nlev ninner o i, nth (o * ninner + i) par d)).
  { intros o i Ho Hi. apply nth_combine; [eapply data_columns_nth; eauto|]. apply nth_error_nth'. nia. }
  destruct (mapM_some _ _ (fun '(c, x) => kernel c x) (combine cols par)) as [outc Eo].
  { intros x Hx. apply In_nth_error in Hx. destruct Hx as [q Hq].
    assert (Q : q < length (combine cols par)) by (apply nth_error_Some; congruence). rewrite combine_length in Q.
    assert (N0 : ninner <> 0) by nia.
    pose proof (Nat.div_mod q ninner N0). pose proof (Nat.mod_upper_bound q ninner N0).
    assert (q / ninner < nouter) by (apply Nat.div_lt_upper_bound; auto; nia).
    specialize (Hn (q / ninner) (q mod ninner) ltac:(auto) ltac:(auto)).
    replace (q / ninner * ninner + q mod ninner) with q in Hn by lia. rewrite Hn in Hq. injection Hq as <-.
    destruct (H (q / ninner) (q mod ninner) ltac:(auto) ltac:(auto)) as [E1 _].
    replace (q / ninner * ninner + q mod ninner) with q in E1 by lia. eauto. }
  rewrite Eo. cbn [bind]. apply columns_to_corder_ok. intros o i Ho Hi. split; [|apply H; auto].
  destruct (mapM_nth _ _ _ _ _ _ _ Eo (Hn o i Ho Hi)) as [y [E1 E2]]. rewrite (proj1 (H o i Ho Hi)) in E1. congruence.
Qed.
End Column.
