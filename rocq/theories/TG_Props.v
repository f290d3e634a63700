(** Properties of grid_to_triple and triple_to_grid (C32, C33, C34, C59). *)
From Verif Require Import Base Buffer Loops VH_Model VH_Proofs LI_Proofs TG_Model TG_Spec TG_Proofs TG_Proofs2 TG_Proofs3 TG_Proofs4 TG_Proofs5 TG_Proofs6 TG_Proofs7.
Local Open Scope nat_scope.

Definition q1 (n d : Z) : Qc := dec n d.
Definition nans : cell := None.

(** ** C32: exactly the valid cells, in row order *)
Theorem grid2triple_values x y z d zmsg : length z = length x * length y -> length d = length x * length y ->
  exists d' ld ier out, grid2triple_impl x y z d zmsg = Some (d', (ld, ier)) /\
    firstn ld d' = out /\ ld = length out /\ length d' = length d /\
    kept (fun o => tz o <> Some zmsg) (cells x y z) out /\
    (ier = (-10)%Z <-> forall o, In o (cells x y z) -> tz o = Some zmsg) /\ (ier = (-10)%Z \/ ier = 0%Z).
Proof.
  intros Lz Ld. destruct (grid2triple_ok x y z zmsg _ Lz (Nat.le_refl _) d Ld) as [d' [ld [ier [out [E [F [G [H [K I]]]]]]]]].
  exists d', ld, ier, out. split; [exact E|]. split; [exact F|]. split; [exact G|]. split; [lia|]. split; [exact K|].
  pose proof (kept_nil_iff _ _ _ _ K) as N. split; [|destruct I as [[-> _]|[-> _]]; auto].
  assert (Q : (forall o, In o (cells x y z) -> tz o = Some zmsg) <-> forall o, In o (cells x y z) -> ~ tz o <> Some zmsg).
  { split; intros W o J; [specialize (W o J); tauto|]. specialize (W o J). destruct (cell_eq_dec (tz o) (Some zmsg)); tauto. }
  rewrite Q, <- N. destruct I as [[-> ->]|[-> NE]]; split; auto; [discriminate|contradiction].
Qed.
Example grid2triple_example :
  grid2triple_impl [q1 0 1; q1 1 1] [q1 5 1; q1 6 1] [Some (q1 1 1); Some (q1 9 1); None; Some (q1 4 1)]
    (repeat (q1 0 1, (q1 0 1, None)) 4) (q1 9 1) =
  Some ([(q1 0 1, (q1 5 1, Some (q1 1 1))); (q1 0 1, (q1 6 1, None)); (q1 1 1, (q1 6 1, Some (q1 4 1))); (q1 0 1, (q1 0 1, None))], (3, 0%Z)).
Proof. vm_compute. reflexivity. Qed.

(** the wrapper also drops the missing value of the caller; a cell that happens to
    hold the sentinel is dropped with it *)
Theorem grid_to_triple_values x y z d msg_py msg_fort : length z = length x * length y -> length d = length x * length y ->
  exists out after, grid_to_triple true x y z d msg_py msg_fort = Some (Some out, after) /\
    kept (fun o => tz o <> msg_py /\ tz o <> Some msg_fort) (cells x y z) out.
Proof. intros A B. destruct (grid_to_triple_run x y z d msg_py msg_fort A B) as [out [E K]]. eauto. Qed.
Example grid_to_triple_example : exists after,
  grid_to_triple true [q1 0 1; q1 1 1] [q1 5 1; q1 6 1] [Some (q1 1 1); Some (q1 7 1); None; Some (q1 4 1)]
    (repeat (q1 0 1, (q1 0 1, None)) 4) None (q1 9 1) =
  Some (Some [(q1 0 1, (q1 5 1, Some (q1 1 1))); (q1 1 1, (q1 5 1, Some (q1 7 1))); (q1 1 1, (q1 6 1, Some (q1 4 1)))], after).
Proof. eexists. vm_compute. reflexivity. Qed.
(** so "every non-missing cell is kept" fails: no rewriting happens here and the
    cell holding the sentinel disappears *)
Theorem grid_to_triple_sentinel_refuted : exists x y z d msg_py msg_fort out after,
  grid_to_triple true x y z d msg_py msg_fort = Some (Some out, after) /\
  ~ kept (fun o => tz o <> msg_py) (cells x y z) out.
Proof.
  exists (q1 0 1 :: nil), (q1 5 1 :: nil), (Some (q1 9 1) :: nil), ((q1 0 1, (q1 0 1, None)) :: nil), None, (q1 9 1). do 2 eexists. split; [vm_compute; reflexivity|].
  intros K. apply (proj2 (kept_In _ _ _ _ (q1 0 1, (q1 5 1, Some (q1 9 1))) K)). split; [vm_compute; auto|discriminate].
Qed.

(** ** C33: the caller's array *)
Theorem grid_to_triple_array convertible x y z d msg_py msg_fort res after :
  grid_to_triple convertible x y z d msg_py msg_fort = Some (res, after) ->
  (after = z <-> match res with
                 | Some _ => msg_py = Some msg_fort \/ ~ In msg_py z \/ ~ In (Some msg_fort) z
                 | None => msg_py = Some msg_fort \/ ~ In msg_py z
                 end).
Proof.
  intros E. unfold grid_to_triple in E. destruct (negb (convertible && (length z =? length x * length y))) eqn:C.
  - injection E as <- <-. destruct (needs_rewrite_spec z msg_py msg_fort) as [[N I]|N].
    + split; [intros H; left; eapply py2fort_id_inv; eauto|intros [H|H]; [congruence|contradiction]].
    + split; auto. intros _. destruct (cell_eq_dec msg_py (Some msg_fort)); tauto.
  - destruct (grid2triple_impl _ _ _ _ _) as [r|] in E; [|discriminate]. cbn [bind] in E. injection E as <- <-. destruct (needs_rewrite_spec z msg_py msg_fort) as [[N I]|N].
    + rewrite restore_rewrite. split.
      * intros H. right. right. intros J. apply N. eapply restore_id_inv; eauto.
      * intros [H|[H|H]]; [congruence|contradiction|]. apply restore_id. tauto.
    + split; auto. intros _. destruct (cell_eq_dec msg_py (Some msg_fort)); tauto.
Qed.
Theorem triple_to_grid_array T convertible x_in y_in data x_out y_out domain gc distmx e1 e2 msg_py msg_fort res after :
  triple_to_grid T convertible x_in y_in data x_out y_out domain gc distmx e1 e2 msg_py msg_fort = Some (res, after) ->
  (after = data <-> match res with
                    | Some _ => msg_py = Some msg_fort \/ ~ In msg_py data \/ ~ In (Some msg_fort) data
                    | None => msg_py = Some msg_fort \/ ~ In msg_py data
                    end).
Proof.
  intros E. unfold triple_to_grid in E. destruct (negb (convertible && (length y_in =? length x_in) && (length data =? length x_in))) eqn:C.
  - injection E as <- <-. destruct (needs_rewrite_spec data msg_py msg_fort) as [[N I]|N].
    + split; [intros H; left; eapply py2fort_id_inv; eauto|intros [H|H]; [congruence|contradiction]].
    + split; auto. intros _. destruct (cell_eq_dec msg_py (Some msg_fort)); tauto.
  - destruct (triple2grid1_impl _ _ _ _ _ _ _ _ _ _) as [r|] in E; [|discriminate]. cbn [bind] in E. destruct (c_flatten _ _ _) as [flat|] in E; [|discriminate]. cbn [bind] in E.
    injection E as <- <-. destruct (needs_rewrite_spec data msg_py msg_fort) as [[N I]|N].
    + rewrite restore_rewrite. split.
      * intros H. right. right. intros J. apply N. eapply restore_id_inv; eauto.
      * intros [H|[H|H]]; [congruence|contradiction|]. apply restore_id. tauto.
    + split; auto. intros _. destruct (cell_eq_dec msg_py (Some msg_fort)); tauto.
Qed.
Example grid_to_triple_array_example : exists out,
  grid_to_triple true [q1 0 1; q1 1 1] (q1 5 1 :: nil) [Some (q1 1 1); None] (repeat (q1 0 1, (q1 0 1, None)) 2) None (q1 9 1) =
  Some (Some out, [Some (q1 1 1); None]).
Proof. eexists. vm_compute. reflexivity. Qed.
(** a value equal to the sentinel comes back as NaN *)
Theorem grid_to_triple_array_refuted : exists x y z d msg_py msg_fort out after,
  grid_to_triple true x y z d msg_py msg_fort = Some (Some out, after) /\ after <> z.
Proof.
  exists [q1 0 1; q1 1 1], (q1 5 1 :: nil), [Some (q1 9 1); None], (repeat (q1 0 1, (q1 0 1, None)) 2), None, (q1 9 1). do 2 eexists. split; [vm_compute; reflexivity|]. intros E. discriminate E.
Qed.
(** an exception leaves the sentinel in the caller's array *)
Theorem grid_to_triple_exception_refuted : exists x y z d msg_py msg_fort after,
  grid_to_triple false x y z d msg_py msg_fort = Some (None, after) /\ ~ In (Some msg_fort) z /\ after <> z.
Proof.
  exists [q1 0 1; q1 1 1], (q1 5 1 :: nil), [Some (q1 1 1); None], (repeat (q1 0 1, (q1 0 1, None)) 2), None, (q1 9 1). eexists. split; [vm_compute; reflexivity|].
  split; [intros [E|[E|[]]]; discriminate E|intros E; discriminate E].
Qed.
(** here two coordinate lists of different lengths *)
Theorem triple_to_grid_exception_refuted : exists x_in y_in data x_out y_out msg_fort after,
  (forall T, triple_to_grid T true x_in y_in data x_out y_out 1 false 0 0 0 None msg_fort = Some (None, after)) /\
  ~ In (Some msg_fort) data /\ after <> data.
Proof.
  exists [q1 0 1; q1 1 1], (q1 5 1 :: nil), [Some (q1 1 1); None], [q1 0 1; q1 1 1; q1 2 1], [q1 0 1; q1 1 1; q1 2 1], (q1 9 1). eexists. split; [intros T; vm_compute; reflexivity|].
  split; [intros [E|[E|[]]]; discriminate E|intros E; discriminate E].
Qed.

(** ** C34: the values on the nodes *)
(** the exhaustive search: last observation on the node, else the nearest one *)
Theorem trip2grd3_values T obs zmsg gx gy mflag nflag (gc : bool) ddcrit : axes_fit (mflag && nflag) gx gy ->
  exists g ier, trip2grd3_impl T obs zmsg gx gy mflag nflag gc ddcrit = Some (g, ier) /\ length g = length gx * length gy /\
   (let all := forall o, In o obs -> exists m n, node gx gy m n (tx o) (ty o) in (all /\ ier = (-11)%Z) \/ (~ all /\ ier = 0%Z)) /\
   forall m n a b, node gx gy m n a b -> exists v, rd g ((n - 1) * length gx + m) = Some v /\
     let dist := if gc then sphere T a b else plane T a b in
     node_rule gx gy (fun o => tz o <> Some zmsg /\ (dist o < far)%Qc /\ (dist o < ddcrit)%Qc) dist obs (Some zmsg) a b v.
Proof. apply third_values. Qed.
(** in the plane: nearest by the squared distance *)
Theorem trip2grd3_nearest T obs zmsg gx gy mflag nflag ddcrit : axes_fit (mflag && nflag) gx gy -> rootlike (sq T) ->
  exists g ier, trip2grd3_impl T obs zmsg gx gy mflag nflag false ddcrit = Some (g, ier) /\
   forall m n a b, node gx gy m n a b -> exists v, rd g ((n - 1) * length gx + m) = Some v /\
     node_rule gx gy (fun o => tz o <> Some zmsg /\ (plane T a b o < far)%Qc /\ (plane T a b o < ddcrit)%Qc) (plane2 a b) obs (Some zmsg) a b v.
Proof.
  intros A R. destruct (third_values T obs zmsg gx gy mflag nflag false ddcrit A) as [g [ier [E [_ [_ H]]]]]. exists g, ier. split; auto.
  intros m n a b N. destruct (H m n a b N) as [v [R' K]]. exists v. split; auto. destruct K as [K|[K1 [K2|[K2 K3]]]]; [left; auto|right; split; auto|right; split; auto; right; split; auto].
  eapply nearest_plane; eauto.
Qed.
(** the other routine: each observation is offered to one node only *)
Theorem trip2grd2_values T obs zmsg gx gy mflag nflag gc ddcrit e1 e2 : axes_fit (mflag && nflag) gx gy ->
  (forall q, (0 <= sq T q)%Qc) -> (forall q, (0 <= ac T q * re T)%Qc) ->
  exists g ier s1 s2, trip2grd2_impl T obs zmsg gx gy mflag nflag gc ddcrit e1 e2 = Some (g, ier) /\ length g = length gx * length gy /\
   (forall o, coordinate mflag gx e1 (tx o) (s1 o) /\ coordinate nflag gy e2 (ty o) (s2 o)) /\
   (let all := forall o, In o obs -> exists m n, node gx gy m n (tx o) (ty o) in (all /\ ier = (-1)%Z) \/ (~ all /\ ier = 0%Z)) /\
   forall m n a b, node gx gy m n a b -> exists v, rd g ((n - 1) * length gx + m) = Some v /\
     second_pass T gc mflag nflag gx gy ddcrit s1 s2 obs (Some zmsg) m n a b v.
Proof. apply second_values. Qed.

(** the entry point without observations outside the grid *)
Theorem triple2grid_inside T obs valid zmsg gx gy domain gc distmx e1 e2 :
  axes_fit false gx gy -> (nearly_equal gx -> nearly_equal gy -> (exists d, equally_spaced gx d) /\ (exists d, equally_spaced gy d)) ->
  (forall q, (0 <= sq T q)%Qc) -> (forall q, (0 <= ac T q * re T)%Qc) ->
  kept (fun o => tz o <> Some zmsg) obs valid -> valid <> [] -> (forall o, In o valid -> in_grid gx gy o) ->
  exists g ier mflag nflag s1 s2, triple2grid1_impl T obs zmsg gx gy domain gc distmx e1 e2 = Some (g, ier) /\ length g = length gx * length gy /\
   (mflag = true <-> nearly_equal gx) /\ (nflag = true <-> nearly_equal gy) /\
   (forall o, coordinate mflag gx e1 (tx o) (s1 o) /\ coordinate nflag gy e2 (ty o) (s2 o)) /\
   forall m n a b, node gx gy m n a b -> exists v, rd g ((n - 1) * length gx + m) = Some v /\
     second_pass T gc mflag nflag gx gy (if Qcleb distmx 0 then far else distmx)%Qc s1 s2 valid (Some zmsg) m n a b v.
Proof.
  intros A EQ B C K NE IN. assert (V : valid = strip obs zmsg) by (eapply kept_unique; [exact K|apply strip_kept]). subst valid.
  destruct (t2g_inside T obs zmsg gx gy domain gc distmx e1 e2 A NE IN) as [mf [nf [M [N E]]]].
  destruct (second_values T (strip obs zmsg) zmsg gx gy mf nf gc (if Qcleb distmx 0 then far else distmx)%Qc e1 e2 (axes_flags _ _ _ _ A M N EQ) B C) as [g [ier [s1 [s2 [E2 [L [F [_ H]]]]]]]].
  exists g, ier, mf, nf, s1, s2. rewrite E, E2. split; [reflexivity|]. split; [exact L|]. split; [exact M|]. split; [exact N|]. split; [exact F|exact H].
Qed.
(** with observations outside: the axes are widened by [domain] steps first *)
Theorem triple2grid_outside T obs valid zmsg gx gy domain gc distmx e1 e2 :
  axes_fit false gx gy -> (0 < domain)%Qc ->
  (nearly_equal gx -> nearly_equal gy -> domain = 1%Qc /\ (exists d, equally_spaced gx d) /\ (exists d, equally_spaced gy d)) ->
  (forall q, (0 <= sq T q)%Qc) -> (forall q, (0 <= ac T q * re T)%Qc) ->
  kept (fun o => tz o <> Some zmsg) obs valid -> (exists o, In o valid /\ ~ in_grid gx gy o) ->
  exists g ier mflag nflag wx wy s1 s2, triple2grid1_impl T obs zmsg gx gy domain gc distmx e1 e2 = Some (g, ier) /\ length g = length gx * length gy /\
   (mflag = true <-> nearly_equal gx) /\ (nflag = true <-> nearly_equal gy) /\ widened gx domain wx /\ widened gy domain wy /\
   (forall o, coordinate mflag wx e1 (tx o) (s1 o) /\ coordinate nflag wy e2 (ty o) (s2 o)) /\
   forall m n a b, node gx gy m n a b -> exists v, rd g ((n - 1) * length gx + m) = Some v /\
     second_pass T gc mflag nflag wx wy (if Qcleb distmx 0 then far else distmx)%Qc s1 s2 valid (Some zmsg) (m + 1) (n + 1) a b v.
Proof.
  intros A D EQ B C K OUT. assert (V : valid = strip obs zmsg) by (eapply kept_unique; [exact K|apply strip_kept]). subst valid.
  destruct (t2g_outside T obs zmsg gx gy domain gc distmx e1 e2 A OUT) as [mf [nf [wx [wy [M [N [Wx [Wy E]]]]]]]].
  destruct (second_values T (strip obs zmsg) zmsg wx wy mf nf gc (if Qcleb distmx 0 then far else distmx)%Qc e1 e2 (widened_fit _ _ _ _ _ _ _ A Wx Wy D M N EQ) B C) as [g [ier [s1 [s2 [E2 [L [F [_ H]]]]]]]].
  rewrite (widened_len _ _ _ Wx), (widened_len _ _ _ Wy) in L. destruct (interior_ok (length gx) (length gy) g L) as [h [E3 [Lh Hh]]].
  exists h, ier, mf, nf, wx, wy, s1, s2. rewrite E, E2. cbn [bind fst snd]. rewrite E3. cbn [bind].
  split; [reflexivity|]. split; [exact Lh|]. split; [exact M|]. split; [exact N|]. split; [exact Wx|]. split; [exact Wy|]. split; [exact F|].
  intros m n a b [Ha Hb]. pose proof (rd_Some_bounds _ _ Ha). pose proof (rd_Some_bounds _ _ Hb).
  destruct (H (m + 1) (n + 1) a b) as [v [R S]]. { split; eapply widened_inner; eauto. }
  exists v. split; [|exact S]. rewrite Hh by lia. rewrite (widened_len _ _ _ Wx) in R. rewrite <- R. f_equal. replace (n + 1 - 1) with n by lia. lia.
Qed.
(** no valid observation: all missing *)
Theorem triple2grid_empty T obs zmsg gx gy domain gc distmx e1 e2 : (forall o, In o obs -> tz o = Some zmsg) ->
  triple2grid1_impl T obs zmsg gx gy domain gc distmx e1 e2 = Some (repeat (Some zmsg) (length gx * length gy), 0%Z).
Proof.
  intros H. unfold triple2grid1_impl. rewrite (proj2 (kept_nil_iff _ _ _ _ (strip_kept obs zmsg))); auto.
Qed.

(** ** the statement as a user reads it fails in several ways; a rational square
    root that is exact on squares serves for the runs below *)
Definition root (q : Qc) : Qc := (qz (Z.sqrt (QArith_base.Qnum q * Z.pos (QArith_base.Qden q))) / qz (Z.pos (QArith_base.Qden q)))%Qc.
Definition T0 : trig := {| sq := root; sn := fun q => q; cs := fun q => q; ac := fun _ => 0%Qc; rad := 1%Qc; re := 1%Qc |}.
Example root_exact : this (root (q1 9 16)) = this (q1 3 4). Proof. reflexivity. Qed.
Definition lay (l : list Z) : list Qc := map qz l.
Definition ob (x y v : Qc) : triple := (x, (y, Some v)).

(** on equally spaced axes an observation lands on the upper neighbour although the
    lower one is nearest *)
Definition uni : list Qc := lay [0; 1; 2; 3]%Z.
Definition obs1 : list triple := (ob (q1 1 10) (q1 1 10) (q1 5 1) :: nil).
Theorem nearest_node_refuted : exists gx gy o g ier, increasing gx /\ increasing gy /\ in_grid gx gy o /\
  triple2grid1_impl T0 (o :: nil) (q1 9 1) gx gy 1 false 0 0 0 = Some (g, ier) /\
  rd g 1 = Some (Some (q1 9 1)) /\ rd g (1 * length gx + 2) = Some (tz o) /\
  exists a b c d, node gx gy 1 1 a b /\ node gx gy 2 2 c d /\ (plane2 a b o < plane2 c d o)%Qc.
Proof.
  exists uni, uni, (ob (q1 1 10) (q1 1 10) (q1 5 1)). do 2 eexists.
  assert (U : increasing uni).
  { apply (equally_increasing _ 1%Qc). split; [reflexivity|]. exists 0%Qc. intros i a R. destruct i as [|[|[|[|[|i]]]]]; simpl in R; try discriminate; try (injection R as <-; apply Qc_is_canon; reflexivity). destruct i; discriminate. }
  split; [exact U|]. split; [exact U|]. split.
  { exists (qz 0), (qz 3), (qz 0), (qz 3). repeat split; try reflexivity; apply (proj2 (Qcle_alt _ _)); vm_compute; discriminate. }
  split; [vm_compute; reflexivity|]. split; [vm_compute; reflexivity|]. split; [vm_compute; reflexivity|].
  exists (qz 0), (qz 0), (qz 1), (qz 1). repeat split; reflexivity.
Qed.
(** [slpx] and [slpy] are not set on equally spaced axes: with a search radius the
    result depends on what the memory held *)
Theorem uninitialised_slope_refuted : exists obs e e' r r',
  triple2grid1_impl T0 obs (q1 9 1) uni uni 1 false 1 e e = Some r /\
  triple2grid1_impl T0 obs (q1 9 1) uni uni 1 false 1 e' e' = Some r' /\ map (option_map this) (fst r) <> map (option_map this) (fst r').
Proof. exists obs1, 0%Qc, (q1 5 1). do 2 eexists. split; [vm_compute; reflexivity|]. split; [vm_compute; reflexivity|]. vm_compute. intros E. discriminate E. Qed.
(** and the first of two observations offered to a node stays, not the nearest *)
Theorem first_not_nearest_refuted : exists o p g ier,
  triple2grid1_impl T0 [o; p] (q1 9 1) uni uni 1 false 0 0 0 = Some (g, ier) /\
  rd g (1 * length uni + 2) = Some (tz o) /\ tz o <> tz p /\ node uni uni 2 2 1%Qc 1%Qc /\ (plane2 1 1 p < plane2 1 1 o)%Qc.
Proof.
  exists (ob (q1 1 10) (q1 1 10) (q1 5 1)), (ob (q1 9 10) (q1 9 10) (q1 6 1)). do 2 eexists. split; [vm_compute; reflexivity|]. split; [vm_compute; reflexivity|].
  split; [intros E; discriminate E|]. split; [split; vm_compute; f_equal; apply Qc_is_canon; reflexivity|reflexivity].
Qed.
(** on unequal axes the rank is the fraction of the way from the lower neighbour, so of
    two observations nearest to the same node the farther one can be kept *)
Definition une : list Qc := lay [0; 1; 3]%Z.
Theorem farther_kept_refuted : exists o p g ier,
  triple2grid1_impl T0 [o; p] (q1 9 1) une une 1 false 0 0 0 = Some (g, ier) /\
  rd g (1 * length une + 2) = Some (tz p) /\ tz o <> tz p /\ node une une 2 2 1%Qc 1%Qc /\ (plane2 1 1 o < plane2 1 1 p)%Qc.
Proof.
  exists (ob (q1 9 10) (q1 1 1) (q1 5 1)), (ob (q1 18 10) (q1 1 1) (q1 6 1)). do 2 eexists. split; [vm_compute; reflexivity|]. split; [vm_compute; reflexivity|].
  split; [intros E; discriminate E|]. split; [split; vm_compute; f_equal; apply Qc_is_canon; reflexivity|reflexivity].
Qed.
(** an axis whose steps differ by less than a thousandth is taken for equally spaced, and
    an observation on a node is lost *)
Definition fine : list Qc := [q1 0 1; q1 10 10000; q1 11 10000].
Theorem exact_node_missed_refuted : exists o g ier m n,
  triple2grid1_impl T0 (o :: nil) (q1 9 1) fine fine 1 false 0 0 0 = Some (g, ier) /\
  node fine fine m n (tx o) (ty o) /\ forall k v, rd g k = Some v -> v = Some (q1 9 1).
Proof.
  exists (ob (q1 10 10000) (q1 10 10000) (q1 5 1)). do 2 eexists. exists 2, 2. split; [vm_compute; reflexivity|]. split; [split; reflexivity|].
  intros k v R. apply rd_In in R. simpl in R. repeat (destruct R as [<-|R]; [vm_compute; reflexivity|]). destruct R.
Qed.
(** widening by other than one step breaks equal spacing, and an observation on the first
    node appears on the third *)
Theorem domain_shift_refuted : exists o p g ier,
  triple2grid1_impl T0 [o; p] (q1 9 1) uni uni (q1 2 1) false 0 0 0 = Some (g, ier) /\
  on_node 0 0 o /\ node uni uni 1 1 0%Qc 0%Qc /\ rd g 1 = Some (Some (q1 9 1)) /\ rd g (2 * length uni + 3) = Some (tz o).
Proof.
  exists (ob 0 0 (q1 5 1)), (ob (q1 4 1) (q1 4 1) (q1 6 1)). do 2 eexists. split; [vm_compute; reflexivity|]. split; [split; reflexivity|].
  split; [split; vm_compute; f_equal; apply Qc_is_canon; reflexivity|]. split; vm_compute; reflexivity.
Qed.
(** an observation on the upper edge is dropped *)
Theorem upper_edge_refuted : exists o g ier, in_grid uni uni o /\
  triple2grid1_impl T0 (o :: nil) (q1 9 1) uni uni 1 false 0 0 0 = Some (g, ier) /\ forall k v, rd g k = Some v -> v = Some (q1 9 1).
Proof.
  exists (ob (q1 4 10) (q1 3 1) (q1 5 1)). do 2 eexists. split.
  { exists (qz 0), (qz 3), (qz 0), (qz 3). repeat split; try reflexivity; apply (proj2 (Qcle_alt _ _)); vm_compute; discriminate. }
  split; [vm_compute; reflexivity|]. intros k v R. apply rd_In in R. simpl in R. repeat (destruct R as [<-|R]; [vm_compute; reflexivity|]). destruct R.
Qed.
(** with two points on an axis the third one is read *)
Theorem two_point_axis_overrun : forall T gx gy o zmsg e, length gx = 2 -> length gy >= 2 -> tz o <> Some zmsg -> in_grid gx gy o ->
  triple2grid1_impl T (o :: nil) zmsg gx gy 1 false 0 e e = None.
Proof.
  intros T gx gy o zmsg e Lx Ly V [x1 [xn [y1 [yn [A [B [C [D [[P1 P2] [P3 P4]]]]]]]]]]. unfold triple2grid1_impl, strip. cbn [filter]. destruct (cell_is_spec zmsg (tz o)); [contradiction|]. cbn [negb].
  rewrite A, B, C, D. cbn [bind]. destruct gx as [|a [|b [|c r]]]; try discriminate Lx.
  destruct (spacing_flag _) as [mf|]; [|reflexivity]. cbn [bind]. destruct (spacing_flag _) as [nf|]; [|reflexivity]. cbn [bind].
  rewrite (proj2 (inside_ok (a :: b :: nil) gy (o :: nil) x1 xn y1 yn A B C D)).
  - cbn [negb]. reflexivity.
  - intros q [<-|[]]. exists x1, xn, y1, yn. auto 10.
Qed.
Example two_point_axis_example : triple2grid1_impl T0 (ob (q1 1 2) (q1 1 2) (q1 5 1) :: nil) (q1 9 1) (lay [0; 1]%Z) uni 1 false 0 0 0 = None.
Proof. vm_compute. reflexivity. Qed.

(** ** C59: the layout of the result *)
Theorem triple_to_grid_layout T x_in y_in data x_out y_out domain gc distmx e1 e2 msg_py msg_fort g ier :
  length y_in = length x_in -> length data = length x_in ->
  triple2grid1_impl T (combine x_in (combine y_in (if needs_rewrite data msg_py msg_fort then py2fort_msg data msg_py msg_fort else data)))
    msg_fort x_out y_out domain gc distmx e1 e2 = Some (g, ier) -> length g = length x_out * length y_out ->
  exists flat after, triple_to_grid T true x_in y_in data x_out y_out domain gc distmx e1 e2 msg_py msg_fort = Some (Some flat, after) /\ length flat = length x_out * length y_out /\ forall i j, i < length y_out -> j < length x_out ->
      let q := i * length x_out + j in
      nth_error flat q = option_map (fun v => if cell_is msg_fort v then msg_py else v) (grid_entry (length x_out) g (q mod length y_out) (q / length y_out)).
Proof.
  intros A B E L. rewrite triple_to_grid_eq by auto. rewrite E. cbn [bind fst]. destruct (flat_entry _ _ g L) as [r [E2 [Lr H]]]. rewrite E2. cbn [bind].
  do 2 eexists. split; [reflexivity|]. split; [rewrite map_length; exact Lr|]. intros i j Hi Hj. cbv zeta. rewrite map_nth_error_opt, H; auto.
Qed.
(** so a square grid comes back transposed *)
Theorem triple_to_grid_transposed T x_in y_in data x_out y_out domain gc distmx e1 e2 msg_py msg_fort g ier :
  length y_in = length x_in -> length data = length x_in -> length y_out = length x_out ->
  triple2grid1_impl T (combine x_in (combine y_in (if needs_rewrite data msg_py msg_fort then py2fort_msg data msg_py msg_fort else data)))
    msg_fort x_out y_out domain gc distmx e1 e2 = Some (g, ier) -> length g = length x_out * length y_out ->
  exists flat after, triple_to_grid T true x_in y_in data x_out y_out domain gc distmx e1 e2 msg_py msg_fort = Some (Some flat, after) /\ forall i j, i < length y_out -> j < length x_out ->
      nth_error flat (i * length x_out + j) = option_map (fun v => if cell_is msg_fort v then msg_py else v) (grid_entry (length x_out) g j i).
Proof.
  intros A B Sq E L. destruct (triple_to_grid_layout T x_in y_in data x_out y_out domain gc distmx e1 e2 msg_py msg_fort g ier A B E L) as [flat [after [E2 [_ H]]]].
  exists flat, after. split; auto. intros i j Hi Hj. rewrite H by auto. cbv zeta. rewrite <- Sq.
  replace ((i * length y_out + j) mod length y_out) with j; [|symmetry; rewrite Nat.add_comm, Nat.mod_add by lia; apply Nat.mod_small; lia].
  replace ((i * length y_out + j) / length y_out) with i; [reflexivity|]. rewrite Nat.add_comm, Nat.div_add by lia. rewrite Nat.div_small by lia. reflexivity.
Qed.
(** triples taken from a grid do not give the grid back: values 0..11 on a grid of three
    rows and four columns *)
Definition rows3 : list Qc := lay [0; 1; 2]%Z.
Theorem round_trip_refuted : exists z d out after flat after', length z = length uni * length rows3 /\ grid_to_triple true uni rows3 z d None (q1 99 1) = Some (Some out, after) /\ triple_to_grid T0 true (map tx out) (map ty out) (map tz out) uni rows3 1 false 0 0 0 None (q1 99 1) = Some (Some flat, after') /\ map (option_map this) flat <> map (option_map this) z /\ nth_error flat (0 * length uni + 1) = nth_error z (1 * length uni + 0).
Proof.
  exists (map (fun v => Some (qz v)) [0; 1; 2; 3; 4; 5; 6; 7; 8; 9; 10; 11]%Z), (repeat (q1 0 1, (q1 0 1, None)) 12). do 4 eexists.
  split; [reflexivity|]. split; [vm_compute; reflexivity|]. split; [vm_compute; reflexivity|]. split; [vm_compute; intros E; discriminate E|vm_compute; reflexivity].
Qed.

(** ** the hypotheses are met *)
Lemma uni_spaced : equally_spaced uni 1.
Proof. split; [reflexivity|]. exists 0%Qc. intros i a R. destruct i as [|[|[|[|[|i]]]]]; simpl in R; try discriminate; try (injection R as <-; apply Qc_is_canon; reflexivity). destruct i; discriminate. Qed.
Example axes_fit_example : axes_fit true uni uni.
Proof.
  split; [simpl; lia|]. split; [simpl; lia|]. split; [apply (equally_increasing _ _ uni_spaced)|]. split; [apply (equally_increasing _ _ uni_spaced)|].
  intros _. split; exists 1%Qc; apply uni_spaced.
Qed.
Example trip2grd3_example : exists g, trip2grd3_impl T0 [ob (q1 1 10) 0 (q1 5 1); ob 0 (q1 1 1) (q1 6 1); ob (q1 18 10) 0 (q1 7 1)] (q1 9 1) uni uni true true false far = Some (g, 0%Z) /\ map (option_map this) (firstn 5 g) = map (fun v => Some (this (qz v))) [5; 7; 7; 7; 6]%Z.
Proof. eexists. split; vm_compute; reflexivity. Qed.
Example trip2grd2_example : exists g, trip2grd2_impl T0 [ob (q1 1 10) 0 (q1 5 1); ob 0 (q1 1 1) (q1 6 1)] (q1 9 1) une une false false false far 0 0 = Some (g, 0%Z) /\ map (option_map this) (firstn 5 g) = map (fun v => Some (this (qz v))) [5; 9; 9; 6; 9]%Z.
Proof. eexists. split; vm_compute; reflexivity. Qed.
Example T0_nonneg : (forall q, (0 <= sq T0 q)%Qc) /\ (forall q, (0 <= ac T0 q * re T0)%Qc).
Proof.
  split; intros q; [|apply (proj2 (Qcle_alt _ _)); vm_compute; discriminate]. simpl. unfold root, Qcdiv.
  apply Qcmul_nonneg; [rewrite <- qz_0; apply (proj2 (qz_le _ _)); apply Z.sqrt_nonneg|].
  apply Qclt_le_weak. apply Qcinv_pos. rewrite <- qz_0. apply (proj2 (qz_lt _ _)). lia.
Qed.
Example rootlike_example : rootlike (fun q => q).
Proof. split; auto. Qed.
(** the same observations through the entry point, inside and outside *)
Example triple2grid_outside_example : exists g, triple2grid1_impl T0 [ob 0 0 (q1 5 1); ob (q1 35 10) (q1 1 1) (q1 6 1)] (q1 9 1) une une 1 false 0 0 0 = Some (g, 0%Z) /\ map (option_map this) (firstn 6 g) = map (fun v => Some (this (qz v))) [5; 9; 9; 9; 9; 6]%Z.
Proof. eexists. split; vm_compute; reflexivity. Qed.

Print Assumptions grid2triple_values.
Print Assumptions grid_to_triple_values.
Print Assumptions grid_to_triple_sentinel_refuted.
Print Assumptions grid_to_triple_array.
Print Assumptions triple_to_grid_array.
Print Assumptions grid_to_triple_array_refuted.
Print Assumptions grid_to_triple_exception_refuted.
Print Assumptions triple_to_grid_exception_refuted.
Print Assumptions trip2grd3_values.
Print Assumptions trip2grd3_nearest.
Print Assumptions trip2grd2_values.
Print Assumptions triple2grid_inside.
Print Assumptions triple2grid_outside.
Print Assumptions triple2grid_empty.
Print Assumptions nearest_node_refuted.
Print Assumptions uninitialised_slope_refuted.
Print Assumptions first_not_nearest_refuted.
Print Assumptions farther_kept_refuted.
Print Assumptions exact_node_missed_refuted.
Print Assumptions domain_shift_refuted.
Print Assumptions upper_edge_refuted.
Print Assumptions two_point_axis_overrun.
Print Assumptions triple_to_grid_layout.
Print Assumptions triple_to_grid_transposed.
Print Assumptions round_trip_refuted.
