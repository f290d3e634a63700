(** Axis bookkeeping: the property theorems (C20, C41, C44 and the any-rank
    versions of C14, C19), examples and refutations. *)
From Coq Require Import Permutation.
From Verif Require Import Base Loops NdArray OrderSpec GF_Model AX_Model AX_Spec AX_Proofs AX_Proofs2 AX_Proofs3.
Local Close Scope Qc_scope.
Local Open Scope nat_scope.

(** A demonstration array whose elements are their own row-major numbers. *)
Definition numbered (sh : list nat) : nda nat := mk_nda sh (ravel sh).
Definition contents {T} (a : nda T) : list T := map (fun k => nd_elt a (unravel (nd_shape a) k)) (seq 0 (prodn (nd_shape a))).

(** ** C20: gridfill *)
(** _prep_data puts element ix at row ix[y], column ix[x] and slice = row-major
    number of the other coordinates. *)
Theorem gridfill_prep_elements :
  forall T (g : nda T) x y, x < ndim g -> y < ndim g -> x <> y ->
  exists g3 inf, prep_data g x y = Some (g3, inf) /\
  nd_shape g3 = [nthn (nd_shape g) y; nthn (nd_shape g) x; prodn (map (nthn (nd_shape g)) (others (ndim g) x y))] /\
  forall ix, valid ix (nd_shape g) -> nd_elt g3 [nthn ix y; nthn ix x; other_index (nd_shape g) x y ix] = nd_elt g ix.
Proof.
  intros T g x y Hx Hy N. destruct (prep_data_spec T g x y Hx Hy N) as (g3 & inf & E & H1 & _ & H2).
  exists g3, inf. auto.
Qed.
Print Assumptions gridfill_prep_elements.
(** _recover_data brings any processed array of the prepared shape back. *)
Theorem gridfill_recover_elements :
  forall T U (g : nda U) g3 inf (r3 : nda T) x y, prep_data g x y = Some (g3, inf) -> nd_shape r3 = nd_shape g3 ->
  nd_shape (recover_data r3 inf) = nd_shape g /\
  forall ix, valid ix (nd_shape g) ->
    nd_elt (recover_data r3 inf) ix = nd_elt r3 [nthn ix y; nthn ix x; other_index (nd_shape g) x y ix].
Proof.
  intros T U g g3 inf r3 x y E S3.
  assert (D : x < ndim g /\ y < ndim g /\ x <> y).
  { destruct (order_dims_error _ g x y) as [_ K].
    destruct (Nat.lt_decidable x (ndim g)), (Nat.lt_decidable y (ndim g)), (Nat.eq_decidable x y); auto; rewrite K in E by tauto; discriminate. }
  destruct D as (Hx & Hy & N). destruct (prep_data_spec U g x y Hx Hy N) as (g3' & inf' & E' & H1 & H2 & _).
  rewrite E in E'. injection E' as <- <-. subst inf. apply recover_data_spec; auto. congruence.
Qed.
Print Assumptions gridfill_recover_elements.
Theorem gridfill_round_trip :
  forall T (g : nda T) g3 inf x y, prep_data g x y = Some (g3, inf) -> nd_eq (recover_data g3 inf) g.
Proof.
  intros T g g3 inf x y E. destruct (gridfill_recover_elements T T g g3 inf g3 x y E eq_refl) as [H1 H2].
  assert (D : x < ndim g /\ y < ndim g /\ x <> y).
  { destruct (order_dims_error _ g x y) as [_ K].
    destruct (Nat.lt_decidable x (ndim g)), (Nat.lt_decidable y (ndim g)), (Nat.eq_decidable x y); auto; rewrite K in E by tauto; discriminate. }
  destruct D as (Hx & Hy & N). destruct (gridfill_prep_elements T g x y Hx Hy N) as (g3' & inf' & E' & _ & H3).
  rewrite E in E'. injection E' as <- <-. split; auto. intros ix V. rewrite H1 in V. rewrite H2, H3; auto.
Qed.
Print Assumptions gridfill_round_trip.
Theorem gridfill_prep_rejects :
  forall T (g : nda T) x y, prep_data g x y = None <-> ~ (x < ndim g /\ y < ndim g /\ x <> y).
Proof. exact order_dims_error. Qed.
Print Assumptions gridfill_prep_rejects.
(** A 4-D example: axes (time 2, lon 3, level 2, lat 2). *)
Example gridfill_prep_demo :
  option_map (fun r => (nd_shape (fst r), contents (fst r))) (prep_data (numbered [2; 3; 2; 2]) 1 3) =
  Some ([2; 3; 4], [0; 2; 12; 14; 4; 6; 16; 18; 8; 10; 20; 22; 1; 3; 13; 15; 5; 7; 17; 19; 9; 11; 21; 23]).
Proof. vm_compute. reflexivity. Qed.
Example gridfill_round_trip_demo :
  option_map (fun r => contents (recover_data (fst r) (snd r))) (prep_data (numbered [2; 3; 2; 2]) 1 3) = Some (seq 0 24)
  /\ prep_data (numbered [2; 3; 2; 2]) 1 1 = None /\ prep_data (numbered [2; 3; 2; 2]) 4 1 = None.
Proof. vm_compute. repeat split. Qed.

(** ** C14 and C19 for arrays of any rank *)
Theorem fill_any_rank_keeps_observed :
  forall (A : arith) (P : params A) (g : nda (num A * bool)) x y ni0 rm0 out conv,
  fill P g x y ni0 rm0 = Some (out, conv) ->
  nd_shape out = nd_shape g /\
  forall ix, valid ix (nd_shape g) -> snd (nd_elt g ix) = false -> nd_elt out ix = fst (nd_elt g ix).
Proof.
  intros A P g x y ni0 rm0 out conv H. destruct (fill_nd_spec A P g x y ni0 rm0 out conv H) as [H1 H2].
  split; auto. intros ix V. apply (H2 ix V).
Qed.
Print Assumptions fill_any_rank_keeps_observed.
(** Every element is the 2-D fill of the lat-lon slice through it, and the
    convergence flag of that slice sits at the number of its other coordinates. *)
Theorem fill_any_rank_is_slicewise :
  forall (A : arith) (P : params A) (g : nda (num A * bool)) x y ni0 rm0 out conv,
  fill P g x y ni0 rm0 = Some (out, conv) ->
  forall ix, valid ix (nd_shape g) ->
  let '(f, n, r) := poisson_fill A P
      (fun i j => if snd (nd_elt g (at_yx x y ix i j)) then 1%Z else 0%Z)
      (nthn (nd_shape g) y) (nthn (nd_shape g) x)
      (fun i j => let e := nd_elt g (at_yx x y ix i j) in if snd e then amark A else fst e) in
  nd_elt out ix = f (nthn ix y) (nthn ix x) /\
  conv (other_index (nd_shape g) x y ix) = negb (altb A (p_tol A P) r).
Proof. intros A P g x y ni0 rm0 out conv H ix V. apply (fill_nd_spec A P g x y ni0 rm0 out conv H). auto. Qed.
Print Assumptions fill_any_rank_is_slicewise.
Definition demo4 : nda (Qc * bool) :=
  mk_nda [2; 4; 3] (fun ix => (qz (Z.of_nat (ravel [2; 4; 3] ix)), (nthn ix 0 =? 1) && (nthn ix 1 =? 2) && (nthn ix 2 =? 1))).
Example fill_any_rank_demo :
  option_map (fun r => (nd_shape (fst r), map this (contents (fst r)), (snd r 0, snd r 1)))
    (fill (A := QcA) (Build_params QcA (Q2Qc (3 # 5)) (Q2Qc (1 # 100)) 1 true InitConst 0%Qc) demo4 1 2 (fun _ => 0) (fun _ => 0%Qc))
  = Some ([2; 4; 3],
      [0;1;2;3;4;5;6;7;8;9;10;11;12;13;14;15;16;17;18;57#5;20;21;22;23]%Q, (true, false)).
Proof. vm_compute. reflexivity. Qed.

(** ** C20: windspharm *)
(** prep_data/recover_data with distinct labels, lowercase x and y. *)
Theorem windspharm_recover_elements :
  forall T U (data : nda T) (r3 : nda U) o,
  length o = ndim data -> NoDup o -> In ch_x o -> In ch_y o -> ~ In 88 o -> ~ In 89 o ->
  let x := pos ch_x o in let y := pos ch_y o in
  exists g3 winf, ws_prep_data data o = Some (g3, winf) /\
  (forall ix, valid ix (nd_shape data) -> nd_elt g3 [nthn ix y; nthn ix x; other_index (nd_shape data) x y ix] = nd_elt data ix) /\
  (nd_shape r3 = nd_shape g3 ->
   nd_shape (ws_recover_data r3 winf) = nd_shape data /\
   forall ix, valid ix (nd_shape data) ->
     nd_elt (ws_recover_data r3 winf) ix = nd_elt r3 [nthn ix y; nthn ix x; other_index (nd_shape data) x y ix]).
Proof.
  intros T U data r3 o L ND Ix Iy NX NY x y.
  destruct (ws_reduces T data o L ND Ix Iy NX NY) as (g3 & inf & winf & E1 & E2 & N & Hx & Hy & R).
  exists g3, winf. split; auto. destruct (gridfill_prep_elements T data _ _ Hx Hy N) as (g3' & inf' & E' & _ & H3).
  rewrite E2 in E'. injection E' as <- <-. split; [exact H3|].
  intros S3. rewrite R. apply (gridfill_recover_elements U T data g3); auto.
Qed.
Print Assumptions windspharm_recover_elements.
Theorem windspharm_round_trip :
  forall T (data : nda T) o,
  length o = ndim data -> NoDup o -> In ch_x o -> In ch_y o -> ~ In 88 o -> ~ In 89 o ->
  exists g3 winf, ws_prep_data data o = Some (g3, winf) /\ nd_eq (ws_recover_data g3 winf) data.
Proof.
  intros T data o L ND Ix Iy NX NY.
  destruct (ws_reduces T data o L ND Ix Iy NX NY) as (g3 & inf & winf & E1 & E2 & N & Hx & Hy & R).
  exists g3, winf. split; auto. rewrite R. eapply gridfill_round_trip; eauto.
Qed.
Print Assumptions windspharm_round_trip.
(** dim_order "tyzx" *)
Example windspharm_demo : let o := [116; 121; 122; 120] in
  length o = ndim (numbered [2; 2; 2; 3]) /\ NoDup o /\ In ch_x o /\ In ch_y o /\ ~ In 88 o /\ ~ In 89 o /\
  option_map (fun r => (contents (fst r), contents (ws_recover_data (fst r) (snd r)))) (ws_prep_data (numbered [2; 2; 2; 3]) o)
  = Some ([0; 3; 12; 15; 1; 4; 13; 16; 2; 5; 14; 17; 6; 9; 18; 21; 7; 10; 19; 22; 8; 11; 20; 23], seq 0 24).
Proof.
  split; [reflexivity|]. split; [repeat constructor; simpl; intuition discriminate|].
  split; [simpl; auto|]. split; [simpl; auto|]. split; [simpl; intuition discriminate|]. split; [simpl; intuition discriminate|].
  vm_compute. reflexivity.
Qed.
(** With a repeated label ("ttyx") the recovered array has its axes permuted:
    the shape is not even the original one. *)
Theorem windspharm_duplicate_labels_refuted :
  exists (data : nda nat) o g3 winf, length o = ndim data /\ In ch_x o /\ In ch_y o /\
  ws_prep_data data o = Some (g3, winf) /\ nd_shape (ws_recover_data g3 winf) <> nd_shape data.
Proof.
  exists (numbered [2; 3; 2; 4]), [116; 116; 121; 120].
  eexists. eexists. split; [reflexivity|]. split; [simpl; auto|]. split; [simpl; auto|]. split; [reflexivity|].
  vm_compute. discriminate.
Qed.
Print Assumptions windspharm_duplicate_labels_refuted.
(** A capital X in front of x is taken for the longitude axis. *)
Theorem windspharm_capital_label_refuted :
  exists (data : nda nat) o g3 winf, length o = ndim data /\ NoDup o /\ In ch_x o /\ In ch_y o /\
  ws_prep_data data o = Some (g3, winf) /\ nthn (nd_shape g3) 1 <> nthn (nd_shape data) (pos ch_x o).
Proof.
  exists (numbered [2; 3; 4]), [88; 121; 120].
  eexists. eexists. split; [reflexivity|]. split; [repeat constructor; simpl; intuition discriminate|].
  split; [simpl; auto|]. split; [simpl; auto|]. split; [reflexivity|].
  vm_compute. discriminate.
Qed.
Print Assumptions windspharm_capital_label_refuted.

(** ** C41: axis orders and their argsort *)
Theorem transpose_then_argsort_restores :
  forall T (a : nda T) order, Permutation order (seq 0 (ndim a)) ->
  nd_eq (transpose (argsort Nat.leb 0 order) (transpose order a)) a.
Proof. intros T a order P. apply transpose_argsort. apply is_perm_Permutation. auto. Qed.
Print Assumptions transpose_then_argsort_restores.
Example transpose_then_argsort_demo :
  argsort Nat.leb 0 [2; 3; 1; 0] = [3; 2; 0; 1] /\
  nd_shape (transpose [2; 3; 1; 0] (numbered [2; 3; 4; 5])) = [4; 5; 3; 2] /\
  nd_shape (transpose (argsort Nat.leb 0 [2; 3; 1; 0]) (transpose [2; 3; 1; 0] (numbered [2; 3; 4; 5]))) = [2; 3; 4; 5].
Proof. vm_compute. repeat split. Qed.

(** trop_wmo: the result at every horizontal (and time) position is the column
    kernel applied to the column at that position, with pressure and temperature
    put in the same (ascending) order of pressure. *)
Theorem trop_wmo_columns :
  forall T R (F : list Qc -> (nat -> T) -> R) chk p temp xd yd lev td out,
  kernel_local F ->
  trop_wmo F chk p temp xd yd lev td = Some out ->
  (ndim temp = 2 \/ (xd <> None /\ yd <> None) \/ (ndim temp = 3 /\ (xd <> None \/ yd <> None))) ->
  exists idx, Permutation idx (seq 0 (length p)) /\
    (chk = true -> ascending (map (fun i => nth i p 0%Qc) idx)) /\
    (chk = false \/ ascending p -> idx = seq 0 (length p)) /\
    nd_shape out = drop_axis lev (nd_shape temp) /\
    forall ix, valid ix (nd_shape out) ->
      nd_elt out ix = F (map (fun i => nth i p 0%Qc) idx) (fun k => nd_elt temp (insert_at lev (nthn idx k) ix)).
Proof. exact trop_wmo_columns_raw. Qed.
Print Assumptions trop_wmo_columns.
Definition list_kernel (p : list Qc) (c : nat -> nat) : list (Q * nat) := map (fun k => (this (nth k p 0%Qc), c k)) (seq 0 (length p)).
Example list_kernel_local : kernel_local list_kernel.
Proof. intros p c c' H. unfold list_kernel. apply map_ext_in. intros k Hk. apply in_seq in Hk. rewrite H by lia. reflexivity. Qed.
(** (time 2, level 2, lat 2, lon 2), pressures descending *)
Example trop_wmo_demo :
  option_map (fun r => (nd_shape r, contents r))
    (trop_wmo list_kernel true [qz 850; qz 500] (numbered [2; 2; 2; 2]) (Some 3) (Some 2) 1 (Some 0)) =
  Some ([2%nat; 2%nat; 2%nat], [[(500, 4%nat); (850, 0%nat)]; [(500, 5%nat); (850, 1%nat)]; [(500, 6%nat); (850, 2%nat)]; [(500, 7%nat); (850, 3%nat)];
                    [(500, 12%nat); (850, 8%nat)]; [(500, 13%nat); (850, 9%nat)]; [(500, 14%nat); (850, 10%nat)]; [(500, 15%nat); (850, 11%nat)]])%Q.
Proof. vm_compute. reflexivity. Qed.
(** With neither longitude nor latitude named (accepted for a 3-D array) the
    level axis does not end up in the position the kernel reads. *)
Theorem trop_wmo_no_spatial_dim_refuted :
  exists (temp : nda nat) p lev out, trop_wmo list_kernel true p temp None None lev None = Some out /\
  exists ix, valid ix (nd_shape out) /\
  nd_elt out ix <> list_kernel p (fun k => nd_elt temp (insert_at lev k ix)).
Proof.
  exists (numbered [2; 2; 2]), [qz 500; qz 850], 0. eexists. split; [vm_compute; reflexivity|].
  exists [0; 0]. split; [repeat constructor|]. vm_compute. discriminate.
Qed.
Print Assumptions trop_wmo_no_spatial_dim_refuted.
(** A 4-D array with one spatial dimension is accepted and mixed up too. *)
Theorem trop_wmo_one_spatial_dim_refuted :
  exists (temp : nda nat) p xd lev td out, trop_wmo list_kernel true p temp (Some xd) None lev (Some td) = Some out /\
  exists ix, valid ix (nd_shape out) /\
  nd_elt out ix <> list_kernel p (fun k => nd_elt temp (insert_at lev k ix)).
Proof.
  exists (numbered [2; 2; 2; 2]), [qz 500; qz 850], 3, 1, 0. eexists. split; [vm_compute; reflexivity|].
  exists [0; 1; 0]. split; [repeat constructor|]. vm_compute. discriminate.
Qed.
Print Assumptions trop_wmo_one_spatial_dim_refuted.

(** ** C44: latitude ordering helpers *)
Theorem reverse_latdim_involution :
  forall T (u v u' v' : nda T) axis, reverse_latdim u v axis = Some (u', v') ->
  exists u'' v'', reverse_latdim u' v' axis = Some (u'', v'') /\ nd_eq u'' u /\ nd_eq v'' v.
Proof.
  intros T u v u' v' axis H. unfold reverse_latdim in H.
  destruct (list_eqb (nd_shape u) (nd_shape v)) eqn:E; [|discriminate]. cbn [negb] in H.
  destruct (norm_axis axis (ndim u)) as [k|] eqn:EK; [|discriminate]. injection H as <- <-.
  apply list_eqb_spec in E. pose proof (norm_axis_lt _ _ _ EK) as LK.
  exists (flip k (flip k u)), (flip k (flip k v)). split.
  - unfold reverse_latdim. cbn [flip nd_shape]. rewrite (proj2 (list_eqb_spec _ _) E). cbn [negb].
    change (ndim (flip k u)) with (ndim u). rewrite EK. reflexivity.
  - split; apply flip_flip; auto. unfold ndim in *. rewrite <- E. auto.
Qed.
Print Assumptions reverse_latdim_involution.

Lemma hd_nth (l : list Qc) d : l <> [] -> nth 0 l d = hd d l.
Proof. destruct l; auto. Qed.
Lemma last_nth (l : list Qc) d : last l d = nth (length l - 1) l d.
Proof.
  induction l as [|x l IH]; auto. destruct l as [|y l]; auto.
  change (last (x :: y :: l) d) with (last (y :: l) d). rewrite IH. cbn [length]. rewrite !Nat.sub_succ, !Nat.sub_0_r. reflexivity.
Qed.

(** order_latdim: the output pairs every latitude with the same data as the
    input, the first latitude is not south of the last one, monotone latitudes
    come out strictly from north to south, and input whose first latitude is not
    south of the last one is returned as it is. *)
Theorem order_latdim_orders :
  forall T lat (u v : nda T) axis lat' u' v', order_latdim lat u v axis = Some (lat', u', v') ->
  exists k sigma, norm_axis axis (ndim u) = Some k /\ (forall i, i < length lat -> sigma i < length lat) /\
  lat' = map (fun i => nth (sigma i) lat 0%Qc) (seq 0 (length lat)) /\
  nd_shape u' = nd_shape u /\ nd_shape v' = nd_shape v /\
  (forall ix, valid ix (nd_shape u) ->
     nd_elt u' ix = nd_elt u (set_nth k (sigma (nthn ix k)) ix) /\ nd_elt v' ix = nd_elt v (set_nth k (sigma (nthn ix k)) ix)) /\
  (last lat' 0 <= hd 0 lat')%Qc /\
  (north_to_south lat \/ north_to_south (rev lat) -> north_to_south lat') /\
  ((last lat 0 <= hd 0 lat)%Qc -> lat' = lat /\ u' = u /\ v' = v).
Proof.
  intros T lat u v axis lat' u' v' H. unfold order_latdim in H.
  destruct (list_eqb (nd_shape u) (nd_shape v)) eqn:E; [|discriminate]. cbn [negb] in H.
  destruct (norm_axis axis (ndim u)) as [k|] eqn:EK; [|discriminate].
  destruct (Nat.eqb_spec (length lat) (nthn (nd_shape u) k)) as [EL|]; [|discriminate]. cbn [negb] in H.
  destruct lat as [|f rest]; [discriminate|]. set (lat := f :: rest) in *.
  apply list_eqb_spec in E. pose proof (norm_axis_lt _ _ _ EK) as LK.
  assert (NE : lat <> []) by discriminate.
  assert (LL : length lat = S (length rest)) by reflexivity.
  exists k. change f with (hd 0%Qc lat) in H.
  destruct (Qcltb_spec (hd 0%Qc lat) (last lat 0%Qc)) as [C|C].
  - unfold reverse_latdim in H. rewrite (proj2 (list_eqb_spec _ _) E), EK in H. cbn [negb] in H. injection H as <- <- <-.
    change (rev rest ++ [f]) with (rev lat).
    exists (fun i => length lat - 1 - i). split; [auto|]. split; [intros; lia|]. split.
    { apply nth_ext with (d := 0%Qc) (d' := 0%Qc); [rewrite rev_length, map_length, seq_length; auto|].
      intros i Hi. rewrite rev_length in Hi. rewrite rev_nth by auto.
      rewrite nth_indep with (l := map _ _) (d' := nth (length lat - 1 - 0) lat 0%Qc) by (rewrite map_length, seq_length; auto).
      rewrite (map_nth (fun i => nth (length lat - 1 - i) lat 0%Qc)). rewrite seq_nth by auto. f_equal. lia. }
    split; [reflexivity|]. split; [reflexivity|]. split.
    { intros ix V. cbn [flip nd_elt]. rewrite <- E, EL. auto. }
    split.
    { rewrite last_nth, <- hd_nth by (intros R; apply (f_equal (@length Qc)) in R; rewrite rev_length in R; simpl in R; lia).
      rewrite rev_length. rewrite !rev_nth by lia. rewrite <- hd_nth, last_nth in C by auto.
      replace (length lat - S (length lat - 1)) with 0 by lia. replace (length lat - 1) with (length lat - 1) in C by lia.
      apply Qclt_le_weak. exact C. }
    split.
    { intros [D|D]; auto. exfalso. rewrite last_nth, <- hd_nth in C by auto.
      destruct rest as [|g rest']; [simpl in C; qclra|].
      specialize (D 0 (length lat - 1)). assert (0 < length lat - 1 < length lat) by (simpl; lia).
      apply D in H. apply Qclt_not_le in H. apply H. apply Qclt_le_weak. auto. }
    intros K. exfalso. qclra.
  - injection H as <- <- <-. exists (fun i => i).
    assert (C' : (last lat 0 <= hd 0 lat)%Qc) by (apply Qcnot_lt_le; auto).
    split; [auto|]. split; [auto|]. split; [symmetry; apply map_nth_qc_id|].
    split; [auto|]. split; [auto|]. split.
    { intros ix V. pose proof (valid_length _ _ V) as L.
      assert (X : set_nth k (nthn ix k) ix = ix).
      { apply nthn_ext; [apply set_nth_length; unfold ndim in *; lia|]. intros d _.
        rewrite nthn_set_nth by (unfold ndim in *; lia). destruct (Nat.eqb_spec d k); congruence. }
      rewrite X. auto. }
    split; [auto|]. split; [|auto].
    intros [D|D]; auto. destruct rest as [|g rest'].
    + intros i j Hij. simpl in Hij. lia.
    + exfalso. specialize (D 0 (length lat - 1)). rewrite rev_length in D.
      assert (Q : 0 < length lat - 1 < length lat) by (simpl; lia). apply D in Q.
      rewrite !rev_nth in Q by (simpl; lia). replace (length lat - S (length lat - 1)) with 0 in Q by lia.
      rewrite last_nth, <- hd_nth in C by auto. apply C. exact Q.
Qed.
Print Assumptions order_latdim_orders.
Theorem order_latdim_idempotent :
  forall T lat (u v : nda T) axis lat' u' v', order_latdim lat u v axis = Some (lat', u', v') ->
  order_latdim lat' u' v' axis = Some (lat', u', v').
Proof.
  intros T lat u v axis lat' u' v' H.
  destruct (order_latdim_orders T lat u v axis lat' u' v' H) as (k & s & EK & _ & HL & S1 & S2 & _ & HO & _).
  unfold order_latdim in *.
  destruct (list_eqb (nd_shape u) (nd_shape v)) eqn:E; [|discriminate]. apply list_eqb_spec in E.
  rewrite (proj2 (list_eqb_spec (nd_shape u') (nd_shape v'))) by congruence. cbn [negb] in *.
  assert (NDM : ndim u' = ndim u) by (unfold ndim; congruence). rewrite NDM, EK in *.
  destruct (Nat.eqb_spec (length lat) (nthn (nd_shape u) k)) as [EL|]; [|discriminate]. cbn [negb] in *.
  assert (LL : length lat' = length lat) by (rewrite HL, map_length, seq_length; auto).
  rewrite S1, LL, EL, Nat.eqb_refl. cbn [negb].
  destruct lat' as [|f r]; [destruct lat; [discriminate|simpl in LL; discriminate]|].
  destruct (Qcltb_spec f (last (f :: r) 0%Qc)) as [C|C]; auto.
  exfalso. change f with (hd 0%Qc (f :: r)) in C at 1. qclra.
Qed.
Print Assumptions order_latdim_idempotent.
Example order_latdim_demo :
  option_map (fun r => (map this (fst (fst r)), contents (snd (fst r)), contents (snd r)))
    (order_latdim [qz (-30); qz 0; qz 30] (numbered [2; 3]) (numbered [2; 3]) (-1)%Z)
  = Some ([30; 0; -30]%Q, [2; 1; 0; 5; 4; 3], [2; 1; 0; 5; 4; 3]) /\
  order_latdim [qz (-30); qz 0] (numbered [2; 3]) (numbered [2; 3]) 1%Z = None /\
  order_latdim [qz (-30); qz 0; qz 30] (numbered [2; 3]) (numbered [2; 3]) 2%Z = None.
Proof. vm_compute. repeat split. Qed.
(** Only the two end points are inspected: latitudes that are not monotone are
    not put in order. *)
Theorem order_latdim_unsorted_refuted :
  exists lat (u v : nda nat) lat' u' v', order_latdim lat u v 0%Z = Some (lat', u', v') /\ NoDup lat /\ ~ north_to_south lat'.
Proof.
  exists [qz 10; qz 30; qz 0], (numbered [3]), (numbered [3]). eexists. eexists. eexists.
  split; [reflexivity|]. split.
  - apply (NoDup_map_inv this). change (NoDup [10; 30; 0]%Q). repeat constructor; simpl; intuition discriminate.
  - intros H. specialize (H 0 1). simpl in H. assert (Q : 0 < 1 < 3) by lia. specialize (H Q). vm_compute in H. discriminate.
Qed.
Print Assumptions order_latdim_unsorted_refuted.
