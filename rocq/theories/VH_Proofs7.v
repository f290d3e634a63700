(** Sigma to hybrid, and geopotential height. *)
From Verif Require Import Base Buffer Loops I2P_Model I2P_Proofs VH_Model VH_Spec VH_Proofs VH_Proofs2 VH_Proofs3 VH_Proofs4 VH_Proofs5 VH_Proofs6.
Local Open Scope nat_scope.
Local Opaque spvl.

Section Sigma.
Variable lg : Qc -> Qc.
Definition sigma_of (ab : Qc * Qc) (p0 ps : Qc) : Qc := (fst ab * p0 / ps + snd ab)%Qc.
Lemma sigma_target_total X sig asc intyp s : 2 <= length sig -> length X = length sig -> exists v, sigma_target lg X sig asc intyp spvl s = Some v.
Proof.
  intros H L. unfold sigma_target. rewrite !rd_get by lia. cbn [bind]. destruct (if asc then _ else _); [eauto|].
  destruct (locate_bounds s sig asc H) as [kp [E B]]. rewrite E. cbn [bind]. destruct (kp <? 1); [eauto|].
  rewrite !rd_get by lia. cbn [bind]. destruct (_ && _); [eauto|].
  destruct (rd_Some X (i := kp)) as [x ->]; [lia|]. destruct (rd_Some X (i := kp + 1)) as [y ->]; [lia|]. cbn [bind]. eauto.
Qed.
Lemma flat_sigma_eq (dati : list (option Qc)) sig asc p0 ps intyp nouter ninner o i ab : length dati = nouter * length sig * ninner -> o < nouter -> i < ninner ->
  2 <= length sig ->
  flat_sigma_target lg dati sig asc p0 ps intyp spvl (o * length sig * ninner) (i + 1) ninner ab
  = sigma_target lg (take_column None dati (length sig) ninner o i) sig asc intyp spvl (sigma_of ab p0 ps).
Proof.
  intros L Ho Hi H. destruct ab as [a b]. unfold flat_sigma_target, sigma_target, sigma_of. cbn [fst snd]. set (s := (a * p0 / ps + b)%Qc).
  rewrite !(rd_get sig) by lia. cbn [bind].
  match goal with |- (if ?c then _ else _) = _ => destruct c; [reflexivity|] end.
  destruct (locate_bounds s sig asc H) as [kp [E B]]. rewrite E. cbn [bind]. destruct (Nat.ltb_spec kp 1); [lia|].
  rewrite !(rd_get sig) by lia. cbn [bind].
  match goal with |- (if ?c then _ else _) = _ => destruct c; [reflexivity|] end.
  replace (o * length sig * ninner + (kp - 1) * ninner + (i + 1)) with (o * length sig * ninner + (i + 1) + (kp - 1) * ninner) by lia.
  rewrite (rd_column _ None dati nouter) by (auto; lia).
  replace (o * length sig * ninner + (i + 1) + (kp - 1) * ninner + ninner) with (o * length sig * ninner + (i + 1) + (kp + 1 - 1) * ninner) by nia.
  rewrite (rd_column _ None dati nouter) by (auto; lia). reflexivity.
Qed.
Definition column_sigma (X : list (option Qc)) (sig hyam hybm : list Qc) (p0 ps : Qc) (intyp : Z) : option (list (option Qc)) :=
  mapM (fun ab => sigma_target lg X sig (ascends sig) intyp spvl (sigma_of ab p0 ps)) (combine hyam hybm).
Lemma sigma_result contiguous dati sig ps hyam hybm p0 intyp nouter ninner empty :
  2 <= length sig -> sigma_monotone sig = true -> length hyam = length hybm -> length dati = nouter * length sig * ninner ->
  length ps = nouter * ninner -> length empty = nouter * length hyam * ninner ->
  exists col out, interp_sigma_to_hybrid lg contiguous dati sig ps hyam hybm p0 intyp nouter ninner empty = Some out /\
    by_columns nouter (length hyam) ninner (fun o i => map restore_nan (col o i)) out /\
    forall o i, Some (col o i) = column_sigma (take_column None dati (length sig) ninner o i) sig hyam hybm p0 (nth (o * ninner + i) ps 0%Qc) intyp.
Proof.
  intros H M Lh Ld Lp Le. unfold interp_sigma_to_hybrid. rewrite M. cbn [negb].
  pose (K := fun o i => column_sigma (take_column None dati (length sig) ninner o i) sig hyam hybm p0 (nth (o * ninner + i) ps 0%Qc) intyp).
  pose (col := fun o i => match K o i with Some v => v | None => [] end).
  assert (Lc : length (combine hyam hybm) = length hyam) by (rewrite combine_length; lia).
  assert (Hcol : forall o i, K o i = Some (col o i) /\ length (col o i) = length hyam).
  { intros o i. unfold col. destruct (K o i) as [vs|] eqn:E.
    - split; auto. unfold K, column_sigma in E. rewrite (mapM_length _ _ _ _ _ E). auto.
    - exfalso. unfold K, column_sigma in E.
      destruct (mapM_some _ _ (fun ab => sigma_target lg (take_column None dati (length sig) ninner o i) sig (ascends sig) intyp spvl (sigma_of ab p0 (nth (o * ninner + i) ps 0%Qc))) (combine hyam hybm)) as [r Er].
      { intros ab _. apply sigma_target_total; auto. apply take_column_length. }
      congruence. }
  exists col. destruct contiguous.
  - destruct (corder_fold _ nouter (length hyam) ninner
      (fun o i => flat_sigma_target lg dati sig (ascends sig) p0 (nth (o * ninner + i) ps 0%Qc) intyp spvl (o * length sig * ninner) (i + 1) ninner)
      (fun _ _ => combine hyam hybm)
      (fun buf '(outer, inner) => let* p := rd ps (outer * ninner + inner) in
        interpolate_flat_column_sigma lg dati buf sig hyam hybm p0 p intyp spvl (outer * length sig * ninner) (outer * length hyam * ninner) inner ninner)
      col empty) as [out [E B]]; auto.
    + intros o i b Ho Hi. replace (o * ninner + (i + 1)) with (Datatypes.S (o * ninner + i)) by lia. cbn [rd].
      rewrite (nth_error_nth' ps 0%Qc) by nia. cbn [bind]. unfold interpolate_flat_column_sigma. rewrite ascending_eq by lia. reflexivity.
    + intros o i Ho Hi. split; auto. destruct (Hcol o i) as [<- _]. unfold K, column_sigma. apply mapM_ext_in. intros ab _. eapply flat_sigma_eq; eauto.
    + exists (map restore_nan out). unfold dsigma2hybrid_nodes_corder. rewrite E. split; auto. split; [apply by_columns_map; auto|]. intros o i. symmetry. apply Hcol.
  - pose (kern := fun X so => interpolate_column_sigma lg X sig so intyp spvl).
    pose (tgt := fun p => map (fun '(a, b) => (a * p0 / p + b)%Qc) (combine hyam hybm)).
    assert (Ht : forall j, j < nouter * ninner -> nth j (map tgt ps) [] = tgt (nth j ps 0%Qc)).
    { intros j Hj. apply nth_error_nth. rewrite nth_error_map, (nth_error_nth' ps 0%Qc) by lia. reflexivity. }
    destruct (fallback_columns _ dati nouter (length sig) (length hyam) ninner (map tgt ps) [] kern col) as [out [E B]]; auto.
    + rewrite map_length; auto.
    + intros o i Ho Hi. rewrite Ht by nia. destruct (Hcol o i) as [<- Lq]. split; auto. unfold kern, interpolate_column_sigma, K, column_sigma, tgt.
      destruct (Nat.ltb_spec (length sig) 2); [lia|]. rewrite ascending_eq by lia. cbn [bind]. rewrite mapM_map. apply mapM_ext_in. intros [a b] _. reflexivity.
    + exists (map restore_nan out). split; [|split; [apply by_columns_map; auto|intros o i; symmetry; apply Hcol]].
      unfold dsigma2hybrid_nodes. destruct (data_columns dati nouter (length sig) ninner) as [cols|]; cbn [bind] in *; [|discriminate].
      change (fun '(col0, so) => interpolate_column_sigma lg col0 sig so intyp spvl) with (fun '(c, x) => kern c x).
      change (map (fun p : Qc => map (fun '(a, b) => (a * p0 / p + b)%Qc) (combine hyam hybm)) ps) with (map tgt ps).
      destruct (mapM _ _) as [r|]; cbn [bind] in *; [|discriminate]. rewrite E. reflexivity.
Qed.

(** ** Values *)
(** the proportion used on sigma, which is not scaled by 1/100 *)
Definition sigma_part (intyp : Z) : Qc -> Qc -> Qc -> Qc :=
  if (intyp =? 1)%Z then linear_part else log_part lg.
Lemma never_down_up P : 2 <= length P -> goes_up P -> sigma_monotone P = true.
Proof.
  intros _ U. unfold sigma_monotone. replace (never_down P) with true; auto. symmetry.
  induction P as [|x P IH]; auto. destruct P as [|y P]; auto. cbn [never_down]. apply andb_true_iff. split.
  - destruct (Qcleb_spec x y) as [|C]; auto. destruct C. apply Qclt_le_weak. apply (U 0 1); auto.
  - apply IH. intros i j p q Hij Hi Hj. apply (U (Datatypes.S i) (Datatypes.S j)); auto. lia.
Qed.
Lemma never_up_down P : 2 <= length P -> goes_down P -> sigma_monotone P = true.
Proof.
  intros _ U. unfold sigma_monotone. replace (never_up P) with true; [destruct (never_down P); auto|]. symmetry.
  induction P as [|x P IH]; auto. destruct P as [|y P]; auto. cbn [never_up]. apply andb_true_iff. split.
  - destruct (Qcltb_spec x y) as [C|]; auto. exfalso. apply (Qcle_not_lt y x); auto. apply Qclt_le_weak. apply (U 0 1 x y); auto.
  - apply IH. intros i j p q Hij Hi Hj. apply (U (Datatypes.S i) (Datatypes.S j)); auto. lia.
Qed.
Lemma sigma_value P Y s intyp : 2 <= length P -> strictly_monotone P -> length Y = length P -> intyp = 1%Z \/ intyp = 2%Z /\ log_like lg /\ all_positive P ->
  exists w, sigma_target lg (map Some Y) P (ascends P) intyp spvl s = Some (Some (match w with Some x => x | None => spvl end)) /\
    ((w = None /\ ((forall p, In p P -> (s < p)%Qc) \/ (forall p, In p P -> (p < s)%Qc))) \/
     ((exists p q, In p P /\ In q P /\ (p <= s)%Qc /\ (s <= q)%Qc) /\ exists x, w = Some x /\ column_value (sigma_part intyp) P Y None s (Some x))).
Proof.
  intros H M LY U. assert (Us : usable lg intyp P) by (destruct U as [->|[-> [U1 U2]]]; [left; auto|right; auto]).
  assert (EP : part lg intyp = sigma_part intyp) by (destruct U as [->|[-> _]]; reflexivity).
  unfold sigma_target. rewrite !(rd_get P) by lia. cbn [bind].
  assert (E : exists kp, locate_bracketing_level_ordered s P (ascends P) = Some kp /\
    (goes_up P /\ ascends P = true /\ brk Qcle P s kp \/ goes_down P /\ ascends P = false /\ brk Qcge' P s kp)).
  { destruct M as [G|G].
    - rewrite (goes_up_ascends P H G). destruct (locate_up s P H G) as [kp [E B]]. exists kp. split; auto.
    - rewrite (goes_down_ascends P H G). destruct (locate_down s P H G) as [kp [E B]]. exists kp. split; auto. }
  destruct E as [kp [E B]]. rewrite E. cbn [bind].
  assert (R : 1 <= kp < length P) by (destruct B as [[_ [_ [B _]]]|[_ [_ [B _]]]]; auto).
  destruct (if ascends P then Qcltb s (get P 1) || Qcltb (get P (length P)) s else Qcltb (get P 1) s || Qcltb s (get P (length P))) eqn:C.
  - exists None. split; auto. left. split; auto.
    destruct M as [G|G]; [rewrite (goes_up_ascends P H G) in C|rewrite (goes_down_ascends P H G) in C]; apply orb_true_iff in C; destruct C as [C|C].
    + left. intros p Hp. destruct (in_get P p Hp) as [j [Hj <-]]. destruct (Qcltb_spec s (get P 1)); [|discriminate]. apply Qclt_le_trans with (get P 1); auto. apply up_le; auto; lia.
    + right. intros p Hp. destruct (in_get P p Hp) as [j [Hj <-]]. destruct (Qcltb_spec (get P (length P)) s); [|discriminate]. apply Qcle_lt_trans with (get P (length P)); auto. apply up_le; auto; lia.
    + right. intros p Hp. destruct (in_get P p Hp) as [j [Hj <-]]. destruct (Qcltb_spec (get P 1) s); [|discriminate]. apply Qcle_lt_trans with (get P 1); auto. apply down_le; auto; lia.
    + left. intros p Hp. destruct (in_get P p Hp) as [j [Hj <-]]. destruct (Qcltb_spec s (get P (length P))); [|discriminate]. apply Qclt_le_trans with (get P (length P)); auto. apply down_le; auto; lia.
  - assert (IN : exists p q, In p P /\ In q P /\ (p <= s)%Qc /\ (s <= q)%Qc).
    { destruct (ascends P); apply orb_false_iff in C; destruct C as [C1 C2].
      - exists (get P 1), (get P (length P)). destruct (Qcltb_spec s (get P 1)); [discriminate|]. destruct (Qcltb_spec (get P (length P)) s); [discriminate|].
        repeat split; try (apply get_in; lia); apply Qcnot_lt_le; auto.
      - exists (get P (length P)), (get P 1). destruct (Qcltb_spec (get P 1) s); [discriminate|]. destruct (Qcltb_spec s (get P (length P))); [discriminate|].
        repeat split; try (apply get_in; lia); apply Qcnot_lt_le; auto. }
    assert (T : (s <= get P (bottom P))%Qc). { destruct IN as [p [q [_ [Hq [_ Hs]]]]]. apply Qcle_trans with q; auto. apply bottom_max; auto. }
    destruct (Nat.ltb_spec kp 1); [lia|]. rewrite !(rd_get P) by lia. cbn [bind].
    destruct (pair_value lg intyp P Y s None kp H M LY Us T B) as [w [E1 V]].
    destruct (node_value_ok lg intyp (map Some Y) P kp s ltac:(rewrite map_length; auto) R) as [x [y [Ex [Ey E2]]]].
    rewrite E2 in E1. rewrite Ex, Ey. cbn [bind].
    exists (Some w). rewrite <- EP. split; [|right; split; auto; exists w; auto].
    assert (NP : (intyp =? 2)%Z && (Qcleb s 0 || Qcleb (get P kp) 0 || Qcleb (get P (kp + 1)) 0) = false).
    { destruct U as [->|[-> [U1 U2]]]; [reflexivity|]. cbn [Z.eqb andb].
      destruct IN as [p [q [Hp [Hq [Q1 Q2]]]]]. pose proof (U2 _ Hp).
      assert (A : forall z, (0 < z)%Qc -> Qcleb z 0 = false) by (intros z Hz; destruct (Qcleb_spec z 0) as [Cz|]; auto; destruct (Qcle_not_lt _ _ Cz Hz)).
      rewrite !A; auto; try (apply U2; apply get_in; lia). eapply Qclt_le_trans; eauto. }
    rewrite NP. f_equal. injection E1 as E1. rewrite <- E1. unfold interpolate_value.
    destruct U as [->|[-> _]]; cbn [Z.eqb]; unfold interpolate_value_linear, interpolate_value_log; apply lerp_lerp'.
Qed.
End Sigma.

(** ** Geopotential height *)
Section Geo.
Variable lg : Qc -> Qc.
Lemma geo_column_total p_half temp q : forall k phi acc, k + 1 <= length p_half -> k <= length temp -> k <= length q ->
  exists z, geo_column lg k p_half temp q phi acc = Some (z ++ acc) /\ length z = k.
Proof.
  induction k as [|k IH]; intros phi acc H1 H2 H3; [exists []; auto|]. cbn [geo_column].
  rewrite (rd_get p_half), (rd_get p_half), (rd_get temp), (rd_get q) by lia. cbn [bind].
  destruct (geo_step _ _ _ _ _ _ _) as [z phi'] eqn:E. destruct (IH phi' (z :: acc)) as [zs [Ez Lz]]; try lia.
  exists (zs ++ [z]). rewrite Ez, <- app_assoc. split; auto. rewrite app_length. simpl. lia.
Qed.
Lemma geo_flat_ok p_half (temp q T Q : list Qc) base ninner n : 0 < ninner ->
  forall k phi acc z3 z, k + 1 <= length p_half -> k <= length T -> k <= length Q -> length z3 = n -> 1 <= base ->
  (forall j, 1 <= j <= k -> rd temp (base + (j - 1) * ninner) = rd T j /\ rd q (base + (j - 1) * ninner) = rd Q j) ->
  base + (k - 1) * ninner <= n ->
  geo_column lg k p_half T Q phi acc = Some (z ++ acc) -> length z = k ->
  exists z3', geo_flat lg k p_half temp q phi (base + (k - 1) * ninner) (base + (k - 1) * ninner) ninner z3 = Some z3' /\ length z3' = n /\
    (forall j v, j < k -> nth_error z j = Some v -> rd z3' (base + j * ninner) = Some v) /\
    (forall i, ~ In i (map (fun j => base + j * ninner) (seq 0 k)) -> rd z3' i = rd z3 i).
Proof.
  intros Hn. induction k as [|k IH]; intros phi acc z3 z H1 H2 H3 Lz Hb Hr Hub E Lk.
  - exists z3. split; auto. split; auto. split; [lia|auto].
  - cbn [geo_column] in E. cbn [geo_flat]. destruct (Hr (Datatypes.S k) ltac:(lia)) as [R1 R2]. rewrite R1, R2.
    rewrite (rd_get p_half), (rd_get p_half), (rd_get T), (rd_get Q) in * by lia. cbn [bind] in *.
    destruct (geo_step _ _ _ _ _ _ _) as [zk phi'].
    rewrite wrx_ok by lia. cbn [bind].
    destruct (geo_column_total p_half T Q k phi' (zk :: acc)) as [zs [Ez Ls]]; try lia.
    assert (z = zs ++ [zk]). { rewrite Ez in E. injection E as E. rewrite (app_assoc zs [zk] acc : zs ++ zk :: acc = _) in E. apply app_inv_tail in E. auto. }
    subst z. assert (AK : base + (Datatypes.S k - 1) * ninner = base + k * ninner) by (f_equal; f_equal; lia). rewrite AK in *.
    remember (base + k * ninner) as at_k eqn:AE.
    destruct (Nat.eq_dec k 0) as [->|K0].
    { cbn [geo_flat]. exists (wr z3 at_k zk). split; auto. split; [rewrite wr_length; auto|]. destruct zs; [|discriminate]. split.
      - intros [|j] v Hj Hv; [|lia]. simpl in Hv. injection Hv as <-. replace (base + 0 * ninner) with at_k by lia. apply rd_wr_eq. lia.
      - intros i Hi. apply rd_wr_neq. intros ->. apply Hi. left. lia. }
    assert (KN : k * ninner = (k - 1) * ninner + ninner) by (destruct k; [lia|simpl; rewrite Nat.sub_0_r; lia]).
    destruct (IH phi' (zk :: acc) (wr z3 at_k zk) zs) as [z3' [E3 [L3 [W K]]]]; auto; try lia.
    { rewrite wr_length; auto. }
    { intros j Hj. apply Hr. lia. }
    replace (at_k - ninner) with (base + (k - 1) * ninner) by (rewrite AE, KN; clear; set (m := (k - 1) * ninner); clearbody m; lia).
    exists z3'. split; auto. split; auto. split.
    + intros j v Hj Hv. destruct (Nat.eq_dec j k) as [->|Nj].
      * rewrite nth_error_app2 in Hv by lia. rewrite Ls, Nat.sub_diag in Hv. simpl in Hv. injection Hv as <-. rewrite K.
        -- rewrite <- AE. apply rd_wr_eq. lia.
        -- rewrite in_map_iff. intros [j' [Ej Hj']]. apply in_seq in Hj'. nia.
      * rewrite nth_error_app1 in Hv by lia. apply W; auto. lia.
    + intros i Hi. rewrite seq_S, map_app, in_app_iff in Hi. rewrite K by tauto. apply rd_wr_neq. intros ->. apply Hi. right. left. simpl. auto.
Qed.
Lemma geo_corder_ok temp q z3 psfc phis hyai hybi p0 nouter nlev ninner :
  length temp = nouter * nlev * ninner -> length q = nouter * nlev * ninner -> length z3 = nouter * nlev * ninner ->
  length psfc = nouter * ninner -> length phis = nouter * ninner -> length hyai = nlev + 1 -> length hybi = nlev + 1 ->
  exists col out, dgeopotential_height_corder lg temp q z3 psfc phis hyai hybi p0 nouter nlev ninner = Some out /\
    by_columns nouter nlev ninner col out /\
    forall o i, o < nouter -> i < ninner ->
      geopotential_height_column lg (take_column 0%Qc temp nlev ninner o i) (take_column 0%Qc q nlev ninner o i)
        (nth (o * ninner + i) psfc 0%Qc) (nth (o * ninner + i) phis 0%Qc) hyai hybi p0 nlev = Some (col o i).
Proof.
  intros Lt Lq Lz Lp Lh La Lb.
  pose (K := fun o i => geopotential_height_column lg (take_column 0%Qc temp nlev ninner o i) (take_column 0%Qc q nlev ninner o i)
        (nth (o * ninner + i) psfc 0%Qc) (nth (o * ninner + i) phis 0%Qc) hyai hybi p0 nlev).
  pose (col := fun o i => match K o i with Some v => v | None => [] end).
  assert (LH : forall ps, length (half_pressures hyai hybi p0 ps) = nlev + 1) by (intros ps; unfold half_pressures; rewrite map_length, combine_length; lia).
  assert (Hcol : forall o i, K o i = Some (col o i) /\ length (col o i) = nlev).
  { intros o i. unfold col, K, geopotential_height_column.
    edestruct (geo_column_total (half_pressures hyai hybi p0 (nth (o * ninner + i) psfc 0%Qc)) (take_column 0%Qc temp nlev ninner o i) (take_column 0%Qc q nlev ninner o i) nlev) as [z [E L]];
      rewrite ?LH, ?take_column_length; auto. rewrite E, app_nil_r. auto. }
  pose (cells := fun oi : nat * nat => strided (fst oi * nlev * ninner + snd oi) ninner (col (fst oi) (snd oi - 1))).
  unfold dgeopotential_height_corder. set (step := fun (z3 : list Qc) '(outer, inner) => _).
  destruct (foldM_cells _ _ step cells (nouter * nlev * ninner) (columns_in_order nouter ninner) z3) as [out [E [L [W _]]]]; auto.
  - intros [o i1] Hin b Lb'. apply in_columns in Hin. destruct Hin as [H1 H2]. unfold step.
    assert (exists i, i1 = i + 1) as [i ->] by (exists (i1 - 1); lia).
    assert (J : o * ninner + i < nouter * ninner) by nia.
    replace (o * ninner + (i + 1)) with (Datatypes.S (o * ninner + i)) by lia. cbn [rd].
    rewrite (nth_error_nth' psfc 0%Qc), (nth_error_nth' phis 0%Qc) by lia. cbn [bind].
    destruct (Hcol o i) as [EK LK]. unfold K, geopotential_height_column in EK.
    destruct (Nat.eq_dec nlev 0) as [N0|N0].
    { rewrite N0 in *. cbn [geo_flat]. exists b. split; auto. split; [lia|]. unfold cells. cbn [fst snd]. rewrite Nat.add_sub.
      destruct (col o i); [|discriminate]. simpl. split; [tauto|auto]. }
    destruct (geo_flat_ok (half_pressures hyai hybi p0 (nth (o * ninner + i) psfc 0%Qc)) temp q (take_column 0%Qc temp nlev ninner o i) (take_column 0%Qc q nlev ninner o i)
       (o * nlev * ninner + (i + 1)) ninner (nouter * nlev * ninner) ltac:(lia) nlev (nth (o * ninner + i) phis 0%Qc) [] b (col o i)) as [z3' [E3 [L3 [W3 K3]]]];
      rewrite ?LH, ?take_column_length; auto; try lia.
    { intros j Hj. split; apply (rd_column _ 0%Qc _ nouter); auto; lia. }
    { pose proof (flat_index_lt nouter nlev ninner o (nlev - 1) i H1 ltac:(lia) ltac:(lia)) as B. unfold flat_index in B. rewrite Nat.mul_add_distr_r in B. lia. }
    { rewrite app_nil_r. auto. }
    exists z3'. split; [exact E3|]. split; auto. unfold cells. cbn [fst snd]. rewrite Nat.add_sub. split.
    + intros a v Ha. assert (exists k, nth_error (col o i) k = Some v /\ a = o * nlev * ninner + (i + 1) + k * ninner) as [k [Ek ->]].
      { clear - Ha. revert Ha. generalize (o * nlev * ninner + (i + 1)). induction (col o i) as [|x l IH]; simpl; intros m Ha; [tauto|]. destruct Ha as [Ha|Ha].
        - injection Ha as <- <-. exists 0. split; [auto|lia].
        - destruct (IH _ Ha) as [k [E ->]]. exists (Datatypes.S k). split; auto. lia. }
      apply W3; auto. rewrite <- LK. apply nth_error_Some. congruence.
    + intros a Ha. apply K3. rewrite strided_fst, LK in Ha. auto.
  - rewrite flat_map_concat_map. erewrite map_ext_in; [rewrite <- flat_map_concat_map; apply (addresses_NoDup nouter nlev ninner)|].
    intros [o i1] Hin. apply in_columns in Hin. unfold cells. cbn [fst snd]. rewrite strided_fst, (proj2 (Hcol _ _)).
    unfold build_flat_level_offsets. rewrite offsets_map. auto.
  - exists col, out. split; auto. split; [|intros o i _ _; apply Hcol]. split; auto. intros o k i H1 H2 H3.
    destruct (nth_error (col o i) k) as [v|] eqn:En; [|apply nth_error_None in En; rewrite (proj2 (Hcol o i)) in En; lia].
    assert (X := W (o, i + 1) (o * nlev * ninner + (i + 1) + k * ninner) v).
    rewrite in_columns in X. specialize (X ltac:(lia)). unfold cells in X. cbn [fst snd] in X. rewrite Nat.add_sub in X.
    specialize (X (strided_in _ ninner _ _ k v En)).
    unfold elt3, flat_index. replace (o * nlev * ninner + (i + 1) + k * ninner) with (Datatypes.S ((o * nlev + k) * ninner + i)) in X by nia.
    simpl in X. auto.
Qed.
End Geo.
