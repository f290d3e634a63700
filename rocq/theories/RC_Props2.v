(** Bilinear fields, targets outside the grid, wrappers, and the refuted parts of
    claims C62-C68 *)
From Verif Require Import Base Buffer Loops VH_Model VH_Proofs LM_Model LM_Spec TG_Model TG_Proofs RC_Model RC_Spec RC_Proofs RC_Proofs2 RC_Proofs3 RC_Proofs4 RC_Proofs5 RC_Proofs6 RC_Proofs7 RC_Proofs8 RC_Grids RC_Props.
Local Open Scope nat_scope.

(** * C66 *)
Lemma half_open_index x v a b : ascending x -> 2 <= length x -> rd x 1 = Some a -> rd x (length x) = Some b -> (a <= v)%Qc -> (v < b)%Qc ->
  exists i, 1 <= i <= length x - 1 /\ (get x i <= v)%Qc /\ (v < get x (i + 1))%Qc.
Proof.
  intros A L Ha Hb V1 V2. destruct (lower_bracket_ok x v A L) as (i & _ & I & B1 & B2). exists i. split; [lia|]. split.
  - destruct (le_lt_dec 2 i). { apply (B1 i); auto. apply rd_get. lia. } replace i with 1 by lia. rewrite (get_rd _ _ Ha). auto.
  - destruct (Nat.eq_dec (i + 1) (length x)) as [E|E]. { rewrite E, (get_rd _ _ Hb). auto. } apply (B2 (i + 1)); try lia. apply rd_get. lia.
Qed.
Theorem rgrid2rcm_bilinear : forall xi yi ngrd fi dist huge xmsg ncrit nyo nxo yo xo out,
  spaced tol_regular xi -> spaced tol_regular yi ->
  drgrid2rcm xi yi ngrd fi dist huge xmsg ncrit nyo nxo yo xo = Some (Some out) ->
  forall g a b c d, (forall ix iy x y, rd xi ix = Some x -> rd yi iy = Some y -> fi ix iy g = (a + b * x + c * y + d * x * y)%Qc /\ fi ix iy g <> xmsg) ->
  forall i j v x0 xn y0 yn, rd xi 1 = Some x0 -> rd xi (length xi) = Some xn -> rd yi 1 = Some y0 -> rd yi (length yi) = Some yn ->
  (x0 <= xo i j)%Qc -> (xo i j < xn)%Qc -> (y0 <= yo i j)%Qc -> (yo i j < yn)%Qc ->
  (forall ix iy, ~ near_node tol_regular xi yi (xo i j) (yo i j) ix iy) ->
  entry out j i g = Some v -> v = (a + b * xo i j + c * yo i j + d * xo i j * yo i j)%Qc.
Proof.
  intros * SX SY H * F * X0 XN Y0 YN B1 B2 B3 B4 NN E. destruct (drgrid2rcm_sizes _ _ _ _ _ _ _ _ _ _ _ _ _ H) as (H1 & H2 & _).
  rewrite (drgrid2rcm_spaced _ _ _ _ _ _ _ _ _ _ _ _ _ _ _ _ _ SX SY H E). rewrite <- tol_regular_eq in *.
  pose proof (spaced_ascending _ _ eps_regular_nonneg SX) as AX. pose proof (spaced_ascending _ _ eps_regular_nonneg SY) as AY. set (x := xo i j) in *. set (y := yo i j) in *. clearbody x y.
  assert (RE : re_full xi yi x y = None).
  { destruct (re_full xi yi x y) as [[ix iy]|] eqn:Q; auto. apply find2_some in Q as (Q1 & Q2 & Q3). cbn [fst snd] in *. apply near_node_pe in Q3; try lia; auto. exfalso. eapply NN; eauto. }
  destruct (half_open_index xi x x0 xn) as (ix & IX & P1 & P2); auto. destruct (half_open_index yi y y0 yn) as (iy & IY & P3 & P4); auto.
  assert (RC : exists p, rc_full xi yi x y = Some p).
  { destruct (rc_full xi yi x y) as [p|] eqn:Q; eauto. exfalso. pose proof (find2_none _ _ _ Q ix iy) as K. assert (pr xi yi x y ix iy = false) by (apply K; apply in_rng; auto).
    unfold pr in H0. destruct (Qcleb_spec (get xi ix) x), (Qcltb_spec x (get xi (ix + 1))), (Qcleb_spec (get yi iy) y), (Qcltb_spec y (get yi (iy + 1))); try discriminate; tauto. }
  destruct RC as ([cx cy] & RC). unfold rres. rewrite RE, RC. cbn [node_of]. destruct (Qceqb_spec xmsg xmsg); [|congruence].
  apply find2_some in RC as (C1 & C2 & C3). cbn [fst snd] in *. clear ix iy IX IY P1 P2 P3 P4. unfold pr in C3.
  destruct (Qcleb_spec (get xi cx) x) as [P1|], (Qcltb_spec x (get xi (cx + 1))) as [P2|], (Qcleb_spec (get yi cy) y) as [P3|], (Qcltb_spec y (get yi (cy + 1))) as [P4|]; try discriminate.
  assert (FV : forall p q, 1 <= p <= length xi -> 1 <= q <= length yi -> fi p q g = (a + b * get xi p + c * get yi q + d * get xi p * get yi q)%Qc /\ fi p q g <> xmsg) by (intros; apply F; apply rd_get; auto).
  unfold reg_val. replace (all_present _ _) with true.
  2:{ symmetry. apply all_present_forall. repeat constructor; apply FV; lia. }
  rewrite !(fun p q Hp Hq => proj1 (FV p q Hp Hq)) by lia. rewrite bilinear_eq by qclra. unfold bilinear_at.
  field. split; intro Z.
  - assert (get yi (cy + 1) = get yi cy) by (transitivity (get yi (cy + 1) - get yi cy + get yi cy)%Qc; [ring|rewrite Z; ring]). rewrite H0 in P4. qclra.
  - assert (get xi (cx + 1) = get xi cx) by (transitivity (get xi (cx + 1) - get xi cx + get xi cx)%Qc; [ring|rewrite Z; ring]). rewrite H0 in P2. qclra.
Qed.
(** 1 + x + 10 y at (3/2, 1/2) *)
Example rgrid2rcm_bilinear_case : spaced tol_regular ax3 /\
  (forall ix iy x y, rd ax3 ix = Some x -> rd ax3 iy = Some y -> plane ix iy 1 = (1 + 1 * x + qz 10 * y + 0 * x * y)%Qc /\ plane ix iy 1 <> miss) /\
  (forall ix iy, ~ near_node tol_regular ax3 ax3 (Q2Qc (3 # 2)) (Q2Qc (1 # 2)) ix iy) /\
  shown (drgrid2rcm ax3 ax3 1 plane taxi big miss 1 2 2 (fun _ _ => Q2Qc (1 # 2)) (fun _ _ => Q2Qc (3 # 2)))
  = Some (Some [[(15 # 2) :: nil; (15 # 2) :: nil]; [(15 # 2) :: nil; (15 # 2) :: nil]])%Q.
Proof.
  split; [apply spacedb_spaced; vm_compute; reflexivity|]. split; [|split; [|vm_compute; reflexivity]].
  - intros ix iy x y X Y. pose proof (rd_Some_bounds _ _ X) as BX. pose proof (rd_Some_bounds _ _ Y) as BY. destruct ix as [|[|[|[|ix]]]]; try (cbn in BX; lia); destruct iy as [|[|[|[|iy]]]]; try (cbn in BY; lia); inversion X; inversion Y; subst;
    (split; [apply Qc_is_canon; reflexivity|intros C; apply (f_equal this) in C; vm_compute in C; discriminate]).
  - intros ix iy (a & b & X & Y & (W1 & W2) & _). pose proof (rd_Some_bounds _ _ X) as BX. destruct ix as [|[|[|[|ix]]]]; try (cbn in BX; lia); inversion X; subst; (apply W1; vm_compute; reflexivity) || (apply W2; vm_compute; reflexivity).
Qed.

(** * C67 *)
Theorem rcm2rgrid_outside : forall nxi nyi ngrd xi yi fi dist huge xmsg ncrit yo xo out, ascending xo ->
  drcm2rgrid nxi nyi ngrd xi yi fi dist huge xmsg ncrit yo xo = Some (Some out) ->
  forall g i j x y v, rd xo i = Some x -> rd yo j = Some y -> beyond tol_curv nxi nyi xi yi x y -> entry out g j i = Some v -> v = xmsg.
Proof.
  intros * AO H * X Y B E. destruct (drcm2rgrid_sizes _ _ _ _ _ _ _ _ _ _ _ _ _ H) as (H1 & H2 & _).
  destruct (entry_filled _ _ _ _ _ _ _ _ _ _ _ _ _ _ _ _ _ _ _ H X Y E) as (pre & (L & P) & F). pose proof (rd_Some_bounds _ _ X) as BI.
  assert (OUT : forall q xq, rd xo q = Some xq -> beyond tol_curv nxi nyi xi yi xq y -> nth_error pre (q - 1) = Some xmsg).
  { intros q xq XQ BQ. destruct (P _ _ XQ) as (e & c & S & V). apply rd_nth in V as [_ V]. rewrite V. f_equal. unfold beyond in BQ. rewrite <- tol_curv_eq in BQ. apply (res_outside nxi nyi xi yi fi dist huge xmsg xo yo); auto. }
  destruct B as [B|[B|[B|B]]].
  - apply (filled_leading pre xmsg (i - 1)); auto. intros q Q. destruct (rd_Some xo (i := S q)) as [xq XQ]; [lia|]. replace q with (S q - 1) by lia. apply (OUT _ _ XQ). left.
    intros ix iy IX IY. specialize (B ix iy IX IY). cbn beta in *. destruct (Nat.eq_dec (S q) i) as [<-|N]. { rewrite X in XQ. inversion XQ; subst. auto. } pose proof (AO (S q) i xq x ltac:(lia) XQ X). qclra.
  - apply (filled_trailing pre xmsg (i - 1)); auto; [|lia]. intros q Q. destruct (rd_Some xo (i := S q)) as [xq XQ]; [lia|]. replace q with (S q - 1) by lia. apply (OUT _ _ XQ). right. left.
    intros ix iy IX IY. specialize (B ix iy IX IY). cbn beta in *. destruct (Nat.eq_dec (S q) i) as [<-|N]. { rewrite X in XQ. inversion XQ; subst. auto. } pose proof (AO i (S q) x xq ltac:(lia) X XQ). qclra.
  - apply (filled_leading pre xmsg (i - 1)); auto. intros q Q. destruct (rd_Some xo (i := S q)) as [xq XQ]; [lia|]. replace q with (S q - 1) by lia. apply (OUT _ _ XQ). right. right. left. auto.
  - apply (filled_leading pre xmsg (i - 1)); auto. intros q Q. destruct (rd_Some xo (i := S q)) as [xq XQ]; [lia|]. replace q with (S q - 1) by lia. apply (OUT _ _ XQ). right. right. right. auto.
Qed.
Example rcm2rgrid_outside_case : ascending [qz 1; qz 3; qz 4; qz 7; qz 9] /\ beyond tol_curv 4 4 evenx eveny (qz 9) (qz 4) /\
  option_map (option_map (fun o => option_map this (entry o 1 1 5))) (drcm2rgrid 4 4 2 evenx eveny holed taxi big miss 1 [qz 4; qz 5] [qz 1; qz 3; qz 4; qz 7; qz 9]) = Some (Some (Some (this miss))).
Proof.
  split; [apply increasing_ascending; reflexivity|]. split; [|vm_compute; reflexivity]. right. left. intros ix iy I1 I2. unfold evenx, zn.
  assert (L : (qz (2 * Z.of_nat ix) <= qz 8)%Qc) by (apply qz_le; lia). assert (T : (qz 8 + tol_curv < qz 9)%Qc) by reflexivity. qclra.
Qed.
Theorem rgrid2rcm_outside : forall xi yi ngrd fi dist huge xmsg ncrit nyo nxo yo xo out,
  drgrid2rcm xi yi ngrd fi dist huge xmsg ncrit nyo nxo yo xo = Some (Some out) ->
  forall g i j v, beyond tol_regular (length xi) (length yi) (fun ix _ => get xi ix) (fun _ iy => get yi iy) (xo i j) (yo i j) ->
  entry out j i g = Some v -> v = xmsg.
Proof.
  intros * H * B E. destruct (drgrid2rcm_sizes _ _ _ _ _ _ _ _ _ _ _ _ _ H) as (H1 & H2 & _). destruct (drgrid2rcm_entry _ _ _ _ _ _ _ _ _ _ _ _ _ _ _ _ _ H E) as (p & P & V & G).
  set (x := xo i j) in *. set (y := yo i j) in *. clearbody x y. unfold beyond in B. rewrite <- tol_regular_eq in B. pose proof eps_regular_nonneg as E0.
  destruct (rpoint_ok xi yi ngrd fi dist huge xmsg (rfast xi yi) ncrit x y H1 H2) as (xa & ya & (A1 & A2 & _) & E'). rewrite P in E'. inversion E'; subst p. clear E' P.
  assert (NE : forall lx hx ly hy, 1 <= lx -> hx <= length xi -> 1 <= ly -> hy <= length yi -> find2 (pe (XI xi) (YI yi) eps_regular x y) (rng lx hx) (rng ly hy) = None).
  { intros. destruct (find2 _ _ _) as [q|] eqn:Q; auto. exfalso. apply find2_some in Q as (P1 & P2 & P). apply pe_within in P as ((W1 & W2) & (W3 & W4)). unfold XI, YI in *.
    destruct B as [B|[B|[B|B]]]; specialize (B (fst q) (snd q) ltac:(lia) ltac:(lia)); cbn beta in B; qclra. }
  assert (NC : forall ix iy, 1 <= ix <= length xi - 1 -> 1 <= iy <= length yi - 1 -> pr xi yi x y ix iy = false).
  { intros ix iy I1 I2. destruct (pr xi yi x y ix iy) eqn:Q; auto. exfalso. unfold pr in Q.
    destruct (Qcleb_spec (get xi ix) x) as [P1|], (Qcltb_spec x (get xi (ix + 1))) as [P2|], (Qcleb_spec (get yi iy) y) as [P3|], (Qcltb_spec y (get yi (iy + 1))) as [P4|]; try discriminate.
    destruct B as [B|[B|[B|B]]].
    - specialize (B ix iy ltac:(lia) ltac:(lia)); cbn beta in B; qclra.
    - specialize (B (ix + 1) iy ltac:(lia) ltac:(lia)); cbn beta in B; qclra.
    - specialize (B ix iy ltac:(lia) ltac:(lia)); cbn beta in B; qclra.
    - specialize (B ix (iy + 1) ltac:(lia) ltac:(lia)); cbn beta in B; qclra. }
  assert (FC : rc_full xi yi x y = None).
  { destruct (rc_full xi yi x y) as [q|] eqn:Q; auto. apply find2_some in Q as (Q1 & Q2 & Q3). rewrite NC in Q3 by lia. discriminate. }
  rewrite rd_map_seq in V by auto. inversion V as [V']. unfold re_loc, re_full, rc_loc. rewrite NC, FC by lia. rewrite !NE by lia. destruct (rfast xi yi); cbn [pick_e pick_c]; unfold rres; cbn [node_of]; destruct (Qceqb_spec xmsg xmsg); auto; congruence.
Qed.
Example rgrid2rcm_outside_case : beyond tol_regular 3 3 (fun ix _ => get ax3 ix) (fun _ iy => get ax3 iy) 1 (qz (-1)) /\
  shown (drgrid2rcm ax3 ax3 1 plane taxi big miss 1 2 2 (fun _ _ => qz (-1)) (fun _ _ => 1%Qc)) = Some (Some [[ -999 :: nil; -999 :: nil]; [ -999 :: nil; -999 :: nil]])%Q.
Proof.
  split; [|vm_compute; reflexivity]. right. right. left. intros ix iy I1 I2. assert (D : iy = 1 \/ iy = 2 \/ iy = 3) by lia. destruct D as [->|[->| ->]]; reflexivity.
Qed.

(** * C68 *)
Theorem wrapper_result : forall kernel fi msg_py msg_fort fo,
  kernel (map (fun v => if is_msg msg_py v then Some msg_fort else v) fi) = Some fo ->
  fst (rcm2rgrid_wrapper kernel fi msg_py msg_fort) = Some (map (fun v => if cell_is msg_fort v then msg_py else v) fo).
Proof. intros * H. unfold rcm2rgrid_wrapper. cbn [fst]. unfold py2fort_msg. rewrite H. reflexivity. Qed.
Example wrapper_result_case : option_map (map (option_map this)) (fst (rcm2rgrid_wrapper (fun l => Some l) [Some (qz 1); None] None (qz 999))) = Some [Some 1%Q; None].
Proof. vm_compute. reflexivity. Qed.
(** the caller's array is unchanged exactly when it holds no missing value *)
Theorem rcm2rgrid_input_partial : forall kernel fi msg_py msg_fort, msg_py <> Some msg_fort ->
  (snd (rcm2rgrid_wrapper kernel fi msg_py msg_fort) = fi <-> ~ In msg_py fi).
Proof.
  intros * N. unfold rcm2rgrid_wrapper. cbn [snd]. split.
  - intros H I. apply N. eapply py2fort_id_inv; eauto.
  - apply rewrite_id.
Qed.
Example rcm2rgrid_input_case : ~ In (None : cell) [Some (qz 1); Some (qz 2)] /\ (None : cell) <> Some (qz 999).
Proof. split; [|discriminate]. intros [H|[H|[]]]; discriminate. Qed.
Theorem rcm2rgrid_input_refuted : exists kernel fi msg_py msg_fort,
  map (option_map this) (snd (rcm2rgrid_wrapper kernel fi msg_py msg_fort)) <> map (option_map this) fi.
Proof. exists (fun l => Some l), [Some (qz 1); None], None, (qz 999). vm_compute. discriminate. Qed.
Theorem rcm2points_input_partial : forall kernel fi msg_py msg_fort fo,
  fst (rcm2points_wrapper kernel fi msg_py msg_fort) = Some fo -> ~ In (Some msg_fort) fi ->
  snd (rcm2points_wrapper kernel fi msg_py msg_fort) = fi.
Proof.
  intros * H NI. unfold rcm2points_wrapper in *. cbn zeta in *.
  assert (RR : fort2py_msg (py2fort_msg fi msg_py msg_fort) msg_fort msg_py = fi).
  { rewrite restore_rewrite. rewrite <- (map_id fi) at 2. apply map_ext_in. intros v I. destruct v as [q|]; auto. cbn. destruct (Qceqb_spec q msg_fort) as [->|]; auto. tauto. }
  destruct (match msg_py with None => _ | Some _ => _ end); destruct (kernel _); try discriminate; auto.
Qed.
Example rcm2points_input_case : map (option_map this) (snd (rcm2points_wrapper (fun l => Some l) [Some (qz 1); None] None (qz 999))) = [Some 1%Q; None].
Proof. vm_compute. reflexivity. Qed.
(** a value that equals the sentinel is lost, and an exception in the kernel leaves the array rewritten *)
Theorem rcm2points_input_refuted :
  (exists kernel fi msg_py msg_fort fo, fst (rcm2points_wrapper kernel fi msg_py msg_fort) = Some fo /\
     map (option_map this) (snd (rcm2points_wrapper kernel fi msg_py msg_fort)) <> map (option_map this) fi) /\
  (exists kernel fi msg_py msg_fort, fst (rcm2points_wrapper kernel fi msg_py msg_fort) = None /\
     map (option_map this) (snd (rcm2points_wrapper kernel fi msg_py msg_fort)) <> map (option_map this) fi).
Proof.
  split.
  - exists (fun l => Some l), [Some (qz 999); Some (qz (-1))], (Some (qz (-1))), (qz 999). eexists. split; [reflexivity|]. vm_compute. discriminate.
  - exists (fun l => None), [Some (qz 1); None], None, (qz 999). split; [reflexivity|]. vm_compute. discriminate.
Qed.

(** * Concrete grids *)

(** C63/C64 fail on a sheared grid: the target is the node (6, 6), whose value is
    100, the fast path returns 0, the path for the same target in a list that is not increasing 100 *)
Theorem rcm2rgrid_exact_refuted : exists nxi nyi ngrd xi yi fi dist huge xmsg ncrit yo xo out ix iy v,
  drcm2rgrid nxi nyi ngrd xi yi fi dist huge xmsg ncrit yo xo = Some (Some out) /\
  1 <= ix <= nxi /\ 1 <= iy <= nyi /\ rd xo 1 = Some (xi ix iy) /\ rd yo 1 = Some (yi ix iy) /\ fi ix iy 1 <> xmsg /\
  (forall jx jy, 1 <= jx <= nxi -> 1 <= jy <= nyi -> xi jx jy = xi ix iy -> yi jx jy = yi ix iy -> (jx, jy) = (ix, iy)) /\
  entry out 1 1 1 = Some v /\ v <> fi ix iy 1.
Proof.
  exists 6, 6, 1, shearx, sheary, peak, taxi, big, miss, 1%Z, [qz 6; qz 7], [qz 6; qz 7].
  destruct (drcm2rgrid 6 6 1 shearx sheary peak taxi big miss 1 [qz 6; qz 7] [qz 6; qz 7]) as [[out|]|] eqn:E; try (vm_compute in E; discriminate).
  exists out, 6, 6. destruct (entry out 1 1 1) as [v|] eqn:V.
  2:{ exfalso. assert (T : option_map (fun r => option_map (fun o => option_map this (entry o 1 1 1)) r) (Some (Some out)) = Some (Some (Some 0%Q))) by (rewrite <- E; vm_compute; reflexivity). cbn in T. rewrite V in T. discriminate. }
  exists v. split; auto. split; [lia|]. split; [lia|]. split; [reflexivity|]. split; [reflexivity|]. split. { intro C. apply (f_equal this) in C. vm_compute in C. discriminate. }
  split.
  { intros jx jy J1 J2 X Y. unfold shearx, sheary, iq in *. apply qz_inj in X, Y. unfold zn in *. f_equal; lia. }
  split; auto. assert (T : option_map (fun r => option_map (fun o => option_map this (entry o 1 1 1)) r) (Some (Some out)) = Some (Some (Some 0%Q))) by (rewrite <- E; vm_compute; reflexivity).
  cbn in T. rewrite V in T. cbn in T. inversion T as [T']. intros C. rewrite C in T'. vm_compute in T'. discriminate.
Qed.
Theorem rcm2rgrid_paths_refuted :
  shown (drcm2rgrid 6 6 1 shearx sheary peak taxi big miss 1 [qz 6; qz 7] [qz 6; qz 7]) <> None /\
  option_map (map this) (rcm2rgrid_point 6 6 1 shearx sheary peak taxi big miss false 1 1 1 (qz 6) (qz 6)) = Some (100%Q :: nil) /\
  (let* gx := earliest_stride_candidate (map (fun i => shearx i 1) (seq 1 6)) (qz 6) 2 in
   let* gy := earliest_stride_candidate (map (fun j => sheary 1 j) (seq 1 6)) (qz 6) 2 in
   option_map (map this) (rcm2rgrid_point 6 6 1 shearx sheary peak taxi big miss true 1 gx gy (qz 6) (qz 6))) = Some (0%Q :: nil).
Proof. split; [vm_compute; discriminate|]. split; vm_compute; reflexivity. Qed.

(** C63 fails when two nodes are closer than the tolerance: the first one wins *)
Theorem rcm2rgrid_close_nodes_refuted : exists xi yi fi xo yo out,
  drcm2rgrid 4 3 1 xi yi fi taxi big miss 1 yo xo = Some (Some out) /\
  rd xo 1 = Some (xi 2 1) /\ rd yo 1 = Some (yi 2 1) /\ fi 2 1 1 <> miss /\
  (forall jx jy, 1 <= jx <= 4 -> 1 <= jy <= 3 -> xi jx jy = xi 2 1 -> yi jx jy = yi 2 1 -> (jx, jy) = (2, 1)) /\
  option_map this (entry out 1 1 1) = Some (this (fi 1 1 1)) /\ (this (fi 1 1 1) <> this (fi 2 1 1)).
Proof.
  exists tight, rowy, column, [Q2Qc (1 # 20000); qz 2], [qz 1; qz 2].
  destruct (drcm2rgrid 4 3 1 tight rowy column taxi big miss 1 [qz 1; qz 2] [Q2Qc (1 # 20000); qz 2]) as [[out|]|] eqn:E; try (vm_compute in E; discriminate).
  exists out. split; auto. split; [reflexivity|]. split; [reflexivity|]. split. { intro C. apply (f_equal this) in C. vm_compute in C. discriminate. }
  split.
  { intros jx jy J1 J2 X Y. unfold rowy in Y. apply qz_inj in Y. unfold zn in Y. assert (jy = 1) by lia. subst jy.
    assert (D : jx = 1 \/ jx = 2 \/ jx = 3 \/ jx = 4) by lia. destruct D as [->|[->|[->| ->]]]; auto; apply (f_equal this) in X; vm_compute in X; discriminate. }
  split.
  - assert (T : option_map (fun r => option_map (fun o => option_map this (entry o 1 1 1)) r) (Some (Some out)) = Some (Some (Some (this (column 1 1 1))))) by (rewrite <- E; vm_compute; reflexivity). cbn [option_map] in T. congruence.
  - vm_compute. discriminate.
Qed.

(** a grid with two columns or two rows is accepted, but no cell of it is ever used:
    the centre of a complete 2 x 2 grid stays missing *)
Theorem rcm2rgrid_two_columns_refuted :
  shown (drcm2rgrid 2 2 1 (fun a _ => qz (2 * zn a)) (fun _ b => qz (2 * zn b)) (fun _ _ _ => qz 7) taxi big miss 1 [qz 2; qz 3] [qz 2; qz 3])
  = Some (Some ([[7; -999]; [-999; -999]] :: nil))%Q.
Proof. vm_compute. reflexivity. Qed.

(** C66 fails on the closing edges: (2, 1/2) is on the east edge of [0,2] x [0,2] *)
Theorem rgrid2rcm_closing_edge_refuted :
  shown (drgrid2rcm ax3 ax3 1 plane taxi big miss 1 2 2 (fun _ _ => Q2Qc (1 # 2)) (fun i _ => if i =? 1 then qz 2 else Q2Qc (3 # 2)))
  = Some (Some [[ -999 :: nil; (15 # 2) :: nil]; [ -999 :: nil; (15 # 2) :: nil]])%Q.
Proof. vm_compute. reflexivity. Qed.

(** C65 fails for the threshold of rgrid2rcm: one present corner and ncrit = 4 give a value *)
Theorem rgrid2rcm_ncrit_refuted :
  shown (drgrid2rcm ax3 ax3 1 single taxi big miss 4 2 2 (fun _ _ => Q2Qc (1 # 2)) (fun _ _ => Q2Qc (1 # 2)))
  = Some (Some [[7 :: nil; 7 :: nil]; [7 :: nil; 7 :: nil]])%Q /\
  shown (drcm2rgrid 3 3 1 (fun a _ => get ax3 a) (fun _ b => get ax3 b) single taxi big miss 4 [Q2Qc (1 # 2); qz 9] [Q2Qc (1 # 2); qz 9])
  = Some (Some ([[-999; -999]; [-999; -999]] :: nil))%Q.
Proof. split; vm_compute; reflexivity. Qed.

(** C67 fails for rcm2points: decreasing latitudes are not reported, and a target
    outside every source coordinate receives a value *)
Theorem rcm2points_monotone_refuted :
  ~ ascending (map (fun b => qz (3 - zn b)) (seq 1 3)) /\
  shownp (drcm2points 3 3 1 (fun a _ => qz (zn a)) (fun _ b => qz (3 - zn b)) column taxi miss (qz 556) 1 1 1 (qz 1 :: nil) (qz 2 :: nil))
  = Some (Some ((Some 2 :: nil) :: nil))%Q.
Proof.
  split; [|vm_compute; reflexivity]. intros A. specialize (A 1 2 (qz 2) (qz 1) ltac:(lia) eq_refl eq_refl). vm_compute in A. discriminate.
Qed.
Theorem rcm2points_extrapolation_refuted : exists nxi nyi ngrd xi yi fi dist xmsg dkm opt ncrit kval yo xo,
  ascending (map (fun ix => xi ix 1) (seq 1 nxi)) /\ ascending (map (fun iy => yi 1 iy) (seq 1 nyi)) /\
  (forall x y, rd xo 1 = Some x -> rd yo 1 = Some y -> beyond (qz 100) nxi nyi xi yi x y) /\
  exists p v, option_map (option_map (fun o => rd o 1)) (drcm2points nxi nyi ngrd xi yi fi dist xmsg dkm opt ncrit kval yo xo) = Some (Some (Some p)) /\ rd p 1 = Some (Some v) /\ v <> xmsg.
Proof.
  exists 2, 2, 1, (fun a _ => qz (zn a)), (fun _ b => qz (zn b)), (fun _ _ _ => qz 7), taxi, miss, (qz 556), 1%Z, 1%Z, 1%Z, (qz 1 :: nil), (qz 170 :: nil).
  split. { apply increasing_ascending. vm_compute. reflexivity. } split. { apply increasing_ascending. vm_compute. reflexivity. } split.
  { intros x y X Y. inversion X; inversion Y; subst. right. left. intros ix iy I1 I2. unfold zn. change (qz 170)%Qc with (qz 170). assert (ix = 1 \/ ix = 2) by lia. destruct H as [->| ->]; vm_compute; reflexivity. }
  destruct (drcm2points 2 2 1 (fun a _ => qz (zn a)) (fun _ b => qz (zn b)) (fun _ _ _ => qz 7) taxi miss (qz 556) 1 1 1 (qz 1 :: nil) (qz 170 :: nil)) as [[out|]|] eqn:E; try (vm_compute in E; discriminate).
  assert (T : shownp (Some (Some out)) = Some (Some ((Some 7 :: nil) :: nil))%Q) by (rewrite <- E; vm_compute; reflexivity). cbn in T. inversion T as [T'].
  destruct out as [|p out]; [discriminate|]. cbn in T'. inversion T' as [[T1 T2]]. destruct p as [|c p]; [discriminate|]. cbn in T1. inversion T1 as [[T3 T4]]. destruct c as [v|]; [|discriminate].
  exists (Some v :: p), v. split; [reflexivity|]. split; [reflexivity|]. intros C. subst v. vm_compute in T3. discriminate.
Qed.
(** two nodes at the same place, the first missing: the result is NaN *)
Theorem rcm2points_nan_refuted :
  shownp (drcm2points 3 3 1 twin rowy first_missing taxi miss (qz 556) 1 1 1 (qz 1 :: nil) (0%Qc :: nil)) = Some (Some ((None :: nil) :: nil)).
Proof. vm_compute. reflexivity. Qed.

Print Assumptions rgrid2rcm_bilinear.
Print Assumptions rcm2rgrid_outside.
Print Assumptions rgrid2rcm_outside.
Print Assumptions wrapper_result.
Print Assumptions rcm2rgrid_input_partial.
Print Assumptions rcm2rgrid_input_refuted.
Print Assumptions rcm2points_input_partial.
Print Assumptions rcm2points_input_refuted.
Print Assumptions rcm2rgrid_exact_refuted.
Print Assumptions rcm2rgrid_paths_refuted.
Print Assumptions rcm2rgrid_close_nodes_refuted.
Print Assumptions rcm2rgrid_two_columns_refuted.
Print Assumptions rgrid2rcm_closing_edge_refuted.
Print Assumptions rgrid2rcm_ncrit_refuted.
Print Assumptions rcm2points_monotone_refuted.
Print Assumptions rcm2points_extrapolation_refuted.
Print Assumptions rcm2points_nan_refuted.
