(** Properties of regridding (C35, C36, C37, C38, C60). *)
From Verif Require Import Base Buffer Loops VH_Model VH_Proofs VH_Proofs3 LI_Proofs TG_Model RG_Model RG_Spec RG_Proofs RG_Proofs2 RG_Proofs3 RG_Proofs4 RG_Proofs5 RG_Proofs6 RG_Proofs7 RG_Proofs8 RG_Proofs9.
Local Open Scope nat_scope.

Definition qn (n : Z) : Qc := qz n.
Definition full (l : list Qc) : list cell := map Some l.
Definition shown (r : raising (list (list cell))) : option (option (list (list (option Q)))) :=
  option_map (option_map (map (map (option_map this)))) r.
Lemma Ascending l : is_strictly_increasing l = true -> ascending l.
Proof. apply increasing_ok. Qed.

(** ** C35: bilinear *)
Theorem bilinear_values field xs ys tx ty F : 0 < length xs -> 0 < length ys -> ascending xs -> ascending ys -> holds (length xs) (length ys) field F ->
  exists rows, bilinear_2d field xs ys tx ty = Some (Some rows) /\ shaped rows (length tx) (length ty) /\
    forall i j x y, nth_error tx i = Some x -> nth_error ty j = Some y -> exists v, entry rows i j = Some (Some v) /\ bilinear_at xs ys F x y v.
Proof. apply regrid_2d_ok. Qed.
Example bilinear_values_example :
  shown (bilinear_2d (full [qn 1; qn 3; qn 5; qn 11]) [qn 0; qn 10] [qn 0; qn 4] [qn 5; qn 20] [qn 1; qn 4]) =
  Some (Some [[Some 4%Q; Some 7%Q]; [Some (13 # 2)%Q; Some 11%Q]]).
Proof. vm_compute. reflexivity. Qed.
Example holds_example : holds 2 2 (full [qn 1; qn 3; qn 5; qn 11]) (fun i j => nth (i * 2 + j) [qn 1; qn 3; qn 5; qn 11] 0%Qc).
Proof. split; auto. intros [|[|i]] [|[|j]] Hi Hj; try lia; reflexivity. Qed.
Example ascending_example : ascending [qn 0; qn 10].
Proof. apply Ascending. reflexivity. Qed.
(** the interpolant is a function of the data and the target position *)
Theorem bilinear_determined xs ys F x y v v' : ascending xs -> ascending ys -> bilinear_at xs ys F x y v -> bilinear_at xs ys F x y v' -> v = v'.
Proof. apply bilinear_fun. Qed.
Theorem bilinear_at_node xs ys F i j x y v : ascending xs -> ascending ys -> nth_error xs i = Some x -> nth_error ys j = Some y -> bilinear_at xs ys F x y v -> v = F i j.
Proof. apply bilinear_node. Qed.
Theorem bilinear_field_exact xs ys F x y v a b c d : ascending xs -> ascending ys ->
  (forall i j X Y, nth_error xs i = Some X -> nth_error ys j = Some Y -> F i j = (a + b * X + c * Y + d * (X * Y))%Qc) ->
  bilinear_at xs ys F x y v -> exists X Y, into_range xs x X /\ into_range ys y Y /\ v = (a + b * X + c * Y + d * (X * Y))%Qc.
Proof. apply bilinear_plane. Qed.
Theorem bilinear_in_range xs ys F x y v lo hi : ascending xs -> ascending ys -> (forall i j, i < length xs -> j < length ys -> (lo <= F i j <= hi)%Qc) -> bilinear_at xs ys F x y v -> (lo <= v <= hi)%Qc.
Proof. apply bilinear_range. Qed.
Example bilinear_at_example : bilinear_at [qn 0; qn 10] [qn 0; qn 4] (fun i j => nth (i * 2 + j) [qn 1; qn 3; qn 5; qn 11] 0%Qc) (qn 5) (qn 1) (qn 4).
Proof.
  exists 0, (dec 1 2), 0, (dec 1 4). split; [|split; [|vm_compute; apply Qc_is_canon; reflexivity]].
  - right. exists (qn 0), (qn 10). split; auto. split; auto. right. right. split; [discriminate|]. split; [reflexivity|]. apply Qc_is_canon. reflexivity.
  - right. exists (qn 0), (qn 4). split; auto. split; auto. right. right. split; [discriminate|]. split; [reflexivity|]. apply Qc_is_canon. reflexivity.
Qed.
(** regridding onto the same grid changes nothing *)
Theorem bilinear_identity field xs ys F : 0 < length xs -> 0 < length ys -> ascending xs -> ascending ys -> holds (length xs) (length ys) field F ->
  exists rows, bilinear_2d field xs ys xs ys = Some (Some rows) /\ shaped rows (length xs) (length ys) /\
    forall i j, i < length xs -> j < length ys -> entry rows i j = nth_error field (i * length ys + j).
Proof.
  intros Lx Ly Ax Ay H. destruct (regrid_2d_ok field xs ys xs ys F Lx Ly Ax Ay H) as [rows [E [S K]]]. exists rows. split; auto. split; auto. intros i j I J.
  destruct (nth_some _ xs i I) as [x X]. destruct (nth_some _ ys j J) as [y Y]. destruct (K i j x y X Y) as [v [Ev V]]. rewrite Ev. destruct H as [_ H]. rewrite (H i j I J). do 2 f_equal. apply (bilinear_node xs ys F i j x y); auto.
Qed.
(** the compiled and the numpy path agree for fields without NaN *)
Theorem bilinear_paths_agree field xs ys tx ty F : 0 < length xs -> 0 < length ys -> 0 < length tx -> 0 < length ty -> ascending xs -> ascending ys -> ascending tx -> ascending ty -> holds (length xs) (length ys) field F ->
  exists rows, bilinear_regrid field xs ys tx ty = Some (Some rows) /\ bilinear_fallback field xs ys tx ty = Some rows.
Proof.
  intros a b c d A B C D H. rewrite native_core; auto; [|apply H].
  destruct (core_ok field xs ys tx ty F a b A B H) as [r [E [S K]]]. destruct (fallback_ok field xs ys tx ty F a b A B H) as [r' [E' [S' K']]].
  exists r. split; auto. rewrite E'. f_equal. apply (rows_equal _ _ _ _ _ S' S). intros i j I J. destruct (nth_some _ tx i I) as [x X]. destruct (nth_some _ ty j J) as [y Y].
  destruct (K i j x y X Y) as [v [Ev V]]. destruct (K' i j x y X Y) as [v' [Ev' V']]. rewrite Ev, Ev'. do 2 f_equal. apply (bilinear_fun xs ys F x y); auto.
Qed.
Example bilinear_paths_example :
  shown (bilinear_regrid (full [qn 1; qn 3; qn 5; qn 11]) [qn 0; qn 10] [qn 0; qn 4] [qn 5; qn 20] [qn 1; qn 4]) =
  shown (ok (bilinear_fallback (full [qn 1; qn 3; qn 5; qn 11]) [qn 0; qn 10] [qn 0; qn 4] [qn 5; qn 20] [qn 1; qn 4])) /\
  shown (bilinear_regrid (full [qn 1; qn 3; qn 5; qn 11]) [qn 0; qn 10] [qn 0; qn 4] [qn 5; qn 20] [qn 1; qn 4]) <> None.
Proof. split; [vm_compute; reflexivity|vm_compute; discriminate]. Qed.
(** with NaN in the field, the compiled result is NaN exactly where one of the samples around the
    target position is NaN, even where that sample has weight 0 *)
Theorem bilinear_nan_rule field xs ys tx ty : 0 < length xs -> 0 < length ys -> 0 < length tx -> 0 < length ty -> ascending xs -> ascending ys -> ascending tx -> ascending ty -> length field = length xs * length ys ->
  exists rows, bilinear_regrid field xs ys tx ty = Some (Some rows) /\ shaped rows (length tx) (length ty) /\
    forall i j x y k f l g, nth_error tx i = Some x -> nth_error ty j = Some y -> position xs x k f -> position ys y l g ->
      exists c, entry rows i j = Some c /\
        (c = None <-> exists p q, (p = k \/ p = k + 1 /\ p < length xs) /\ (q = l \/ q = l + 1 /\ q < length ys) /\ nth_error field (p * length ys + q) = Some None).
Proof. intros a b c d A B C D L. rewrite native_core; auto. apply core_nan; auto. Qed.
Definition nan_field : list cell := [Some (qn 1); Some (qn 2); Some (qn 3); None].
(** so the identity fails next to a NaN *)
Theorem bilinear_nan_identity_refuted : exists field xs ys rows, ascending xs /\ ascending ys /\ length field = length xs * length ys /\
  bilinear_2d field xs ys xs ys = Some (Some rows) /\ exists i j v, nth_error field (i * length ys + j) = Some (Some v) /\ entry rows i j = Some None.
Proof.
  exists nan_field, [qn 0; qn 1], [qn 0; qn 1]. eexists. split; [apply Ascending; reflexivity|]. split; [apply Ascending; reflexivity|]. split; auto. split; [vm_compute; reflexivity|].
  exists 0, 0, (qn 1). split; reflexivity.
Qed.
(** and the value at a target position depends on the order of the other targets: targets in descending
    order take the numpy path, which keeps the sample *)
Theorem bilinear_target_order_refuted : exists field xs ys tx ty rows rows', ascending xs /\ ascending ys /\
  bilinear_2d field xs ys tx ty = Some (Some rows) /\ bilinear_2d field xs ys tx (rev ty) = Some (Some rows') /\
  entry rows 0 0 = Some None /\ exists v, entry rows' 0 (length ty - 1) = Some (Some v).
Proof.
  exists nan_field, [qn 0; qn 1], [qn 0; qn 1], [qn 0; qn 1], [qn 0; qn 1]. do 2 eexists. split; [apply Ascending; reflexivity|]. split; [apply Ascending; reflexivity|].
  split; [vm_compute; reflexivity|]. split; [vm_compute; reflexivity|]. split; [reflexivity|]. eexists. reflexivity.
Qed.
(** there is no wrap in longitude: 355 lies half way between 350 and 360 = 0, but takes the value of 350 *)
Theorem bilinear_seam_refuted : exists field xs ys F x rows v, ascending xs /\ ascending ys /\ holds (length xs) (length ys) field F /\
  nth_error xs 0 = Some 0%Qc /\ nth_error xs (length xs - 1) = Some (qn 350) /\ x = qn 355 /\
  bilinear_2d field xs ys (x :: nil) ys = Some (Some rows) /\ entry rows 0 0 = Some (Some v) /\ v = F (length xs - 1) 0 /\ v <> ((F 0%nat 0%nat + F (length xs - 1)%nat 0%nat) / qz 2)%Qc.
Proof.
  exists (full [qn 0; qn 0; qn 8; qn 8]), [qn 0; qn 350], [qn 0; qn 1], (fun i _ => if i =? 0 then qn 0 else qn 8), (qn 355). do 2 eexists.
  split; [apply Ascending; reflexivity|]. split; [apply Ascending; reflexivity|]. split; [split; auto; intros [|[|i]] [|[|j]] Hi Hj; simpl in Hi, Hj; try lia; reflexivity|].
  split; [simpl; f_equal; apply Qc_is_canon; reflexivity|]. split; auto. split; auto. split; [vm_compute; reflexivity|]. split; [vm_compute; reflexivity|]. split; [apply Qc_is_canon; reflexivity|].
  intros E. apply (f_equal this) in E. vm_compute in E. discriminate.
Qed.
(** the planes of an n-dimensional array are regridded one by one *)
Theorem bilinear_planes planes xs ys tx ty out : bilinear_regrid_nd planes xs ys tx ty = Some (Some out) ->
  length out = length planes /\ forall i field, nth_error planes i = Some field -> exists rows, nth_error out i = Some rows /\ bilinear_regrid field xs ys tx ty = Some (Some rows).
Proof.
  unfold bilinear_regrid_nd. revert out. induction planes as [|p planes IH]; intros out E; cbn [emap] in E.
  - injection E as <-. split; auto. intros [|i] f H; discriminate.
  - destruct (bilinear_regrid p xs ys tx ty) as [[r|]|] eqn:Ep; cbn [ebind] in E; try discriminate. destruct (emap _ planes) as [[rs|]|] eqn:Er; cbn [ebind] in E; try discriminate. injection E as <-.
    destruct (IH rs eq_refl) as [L K]. split; [simpl; auto|]. intros [|i] f H; [injection H as <-; exists r; split; [reflexivity|exact Ep]|]. apply K. auto.
Qed.
Example bilinear_planes_example :
  option_map (option_map (@length _)) (bilinear_regrid_nd [full [qn 1; qn 3; qn 5; qn 11]; full [qn 0; qn 0; qn 0; qn 0]] [qn 0; qn 10] [qn 0; qn 4] [qn 5; qn 20] [qn 1; qn 4]) = Some (Some 2).
Proof. vm_compute. reflexivity. Qed.

(** ** C36: latitude weights *)
Theorem latitude_weights_values sn h s t : lat_grid h s -> lat_grid h t -> exists W, conservative_latitude_weights sn h s t = Some W /\ shaped W (length t) (length s) /\
  forall i j, i < length t -> j < length s ->
    ((tiny < lat_area sn h t i)%Qc -> entry W i j = Some (common_area sn (lat_lower h t i) (lat_upper h t i) (lat_lower h s j) (lat_upper h s j) / lat_area sn h t i)%Qc) /\
    ((lat_area sn h t i <= tiny)%Qc -> entry W i j = Some (1 / qz (Z.of_nat (length s)))%Qc).
Proof.
  intros Gs Gt. destruct (latitude_ok sn h s t Gs Gt) as [W [E [S K]]]. exists W. split; auto. split; auto. intros i j I J. rewrite (K i j I J). unfold lat_weight.
  destruct (Qcltb_spec tiny (lat_area sn h t i)) as [L|L]; split; intros H; auto; [|contradiction]. exfalso. revert L. apply Qcle_not_lt. auto.
Qed.
Theorem latitude_weights_rows sn h s t W : lat_grid h s -> lat_grid h t -> conservative_latitude_weights sn h s t = Some W -> forall i, i < length t ->
  sum (length s) (at_ W i) = 1%Qc /\ (nondecreasing_on (- h) h sn -> forall j, j < length s -> (0 <= at_ W i j)%Qc).
Proof.
  intros Gs Gt EW i I. destruct (latitude_ok sn h s t Gs Gt) as [W' [E [S K]]]. rewrite EW in E. injection E as <-. split.
  - rewrite <- (lat_row_sum sn h s t i Gs Gt I). apply sum_ext. intros j J. unfold at_. rewrite (K i j I J). auto.
  - intros M j J. unfold at_. rewrite (K i j I J). apply lat_weight_nonneg; auto.
Qed.
Theorem latitude_weights_conserve sn h s t W f : lat_grid h s -> lat_grid h t -> (forall i, i < length t -> (tiny < lat_area sn h t i)%Qc) -> conservative_latitude_weights sn h s t = Some W ->
  sum (length t) (fun i => (lat_area sn h t i * sum (length s) (fun j => at_ W i j * f j))%Qc) = sum (length s) (fun j => (lat_area sn h s j * f j)%Qc).
Proof.
  intros Gs Gt H EW. destruct (latitude_ok sn h s t Gs Gt) as [W' [E [S K]]]. rewrite EW in E. injection E as <-. rewrite <- (lat_conserve sn h s t f Gs Gt H).
  apply sum_ext. intros i I. f_equal. apply sum_ext. intros j J. unfold at_. rewrite (K i j I J). auto.
Qed.
Theorem latitude_weights_same_grid sn h s W i j : lat_grid h s -> (forall i, i < length s -> (tiny < lat_area sn h s i)%Qc) -> conservative_latitude_weights sn h s s = Some W -> i < length s -> j < length s ->
  at_ W i j = if i =? j then 1%Qc else 0%Qc.
Proof.
  intros Gs H EW I J. destruct (latitude_ok sn h s s Gs Gs) as [W' [E [S K]]]. rewrite EW in E. injection E as <-. unfold at_. rewrite (K i j I J). apply lat_same; auto.
Qed.
Lemma lat_grid_of h l : (0 < h)%Qc -> l <> [] -> is_strictly_increasing l = true -> forallb (fun x => Qcleb (- h)%Qc x && Qcleb x h) l = true -> lat_grid h l.
Proof.
  intros H N A B. split; auto. split; [destruct l; [contradiction|simpl; lia]|]. split; [apply Ascending; auto|]. rewrite forallb_forall in B. intros x I. specialize (B x I). apply andb_true_iff in B.
  destruct (Qcleb_spec (- h)%Qc x), (Qcleb_spec x h); destruct B; try discriminate; auto.
Qed.
(** a concave stand-in for the sine on [-90, 90]: x (270 - |x|)/10000, increasing there *)
Definition bump (x : Qc) : Qc := (x * (qn 270 - qcabs x) / qn 10000)%Qc.
Example lat_grid_example : lat_grid (qn 90) [qn (-60); qn 0; qn 60] /\ lat_grid (qn 90) [qn (-30); qn 30].
Proof. split; apply lat_grid_of; try reflexivity; discriminate. Qed.
Example latitude_weights_example : option_map (map (map this)) (conservative_latitude_weights bump (qn 90) [qn (-60); qn 0; qn 60] [qn (-30); qn 30]) =
  Some [[5 # 9; 4 # 9; 0]; [0; 4 # 9; 5 # 9]]%Q.
Proof. vm_compute. reflexivity. Qed.
Example latitude_area_example : map (fun i => this (lat_area bump (qn 90) [qn (-30); qn 30] i)) [0; 1] = [81 # 50; 81 # 50]%Q.
Proof. vm_compute. reflexivity. Qed.

(** ** C37: longitude weights *)
Theorem longitude_weights_rows P s t W : conservative_longitude_weights P s t = Some (Some W) -> forall r, In r W -> length r = length s /\ qsum r = 1%Qc /\ forall w, In w r -> (0 <= w)%Qc.
Proof. apply longitude_rows. Qed.
Theorem longitude_weights_values P s t : (0 < P)%Qc -> global P s -> global P t -> narrow P s t ->
  exists W, conservative_longitude_weights P s t = Some (Some W) /\ shaped W (length t) (length s) /\
    forall i j, i < length t -> j < length s -> exists v, circle_common P (lon_lower P t i) (lon_upper P t i) (lon_lower P s j) (lon_upper P s j) v /\
      ((tiny < lon_width P t i)%Qc -> entry W i j = Some (v / lon_width P t i)%Qc) /\ ((lon_width P t i <= tiny)%Qc -> entry W i j = Some (1 / qz (Z.of_nat (length s)))%Qc).
Proof.
  intros H Gs Gt N. destruct (longitude_ok P s t H Gs Gt N) as [W [v [E [S [C K]]]]]. exists W. split; auto. split; auto. intros i j I J. exists (v i j). split; auto. rewrite (K i j I J).
  destruct (Qcltb_spec tiny (lon_width P t i)) as [L|L]; split; intros X; auto; [|contradiction]. exfalso. revert L. apply Qcle_not_lt. auto.
Qed.
(** the length in common on the circle is well defined *)
Theorem circle_common_determined P a b c d v w : circle_common P a b c d v -> circle_common P a b c d w -> v = w.
Proof. apply circle_unique. Qed.
Theorem longitude_weights_conserve P s t W f : (0 < P)%Qc -> global P s -> global P t -> narrow P s t -> (forall i, i < length t -> (tiny < lon_width P t i)%Qc) -> conservative_longitude_weights P s t = Some (Some W) ->
  sum (length t) (fun i => (lon_width P t i * sum (length s) (fun j => at_ W i j * f j))%Qc) = sum (length s) (fun j => (lon_width P s j * f j)%Qc).
Proof.
  intros H Gs Gt N Hw EW. destruct (longitude_ok P s t H Gs Gt N) as [W' [v [E [S [C K]]]]]. rewrite EW in E. injection E as <-. rewrite <- (lon_conserve P s t v f H Gs Gt C Hw).
  apply sum_ext. intros i I. f_equal. apply sum_ext. intros j J. unfold at_. rewrite (K i j I J). auto.
Qed.
Theorem longitude_weights_same_grid P s W i j : (0 < P)%Qc -> global P s -> narrow P s s -> (forall i, i < length s -> (tiny < lon_width P s i)%Qc) -> conservative_longitude_weights P s s = Some (Some W) -> i < length s -> j < length s ->
  at_ W i j = if i =? j then 1%Qc else 0%Qc.
Proof.
  intros H Gs N Hw EW I J. destruct (longitude_ok P s s H Gs Gs N) as [W' [v [E [S [C K]]]]]. rewrite EW in E. injection E as <-. unfold at_. rewrite (K i j I J). rewrite (lon_same P s v i j H Gs C I J).
  specialize (Hw i I). destruct (Qcltb_spec tiny (lon_width P s i)) as [L|L]; [|contradiction]. destruct (i =? j); [|unfold Qcdiv; ring]. apply Qcmult_inv_r. apply Qcpos_neq. apply Qclt_trans with tiny; auto. reflexivity.
Qed.
Definition eight : list Qc := [qn 0; qn 45; qn 90; qn 135; qn 180; qn 225; qn 270; qn 315].
Definition eight_shifted : list Qc := [qn (-10); qn 35; qn 80; qn 125; qn 170; qn 215; qn 260; qn 305].
Lemma global_of P l : l <> [] -> is_strictly_increasing l = true -> forallb (fun i => Qcltb 0%Qc (lon_next P l i - nth i l 0)%Qc && Qcltb (lon_next P l i - nth i l 0)%Qc (P / qz 2)%Qc) (seq 0 (length l)) = true -> global P l.
Proof.
  intros N A B. split; [destruct l; [contradiction|simpl; lia]|]. split; [apply Ascending; auto|]. rewrite forallb_forall in B. intros i I. specialize (B i). rewrite in_seq in B. assert (X : 0 <= i < 0 + length l) by lia. specialize (B X). apply andb_true_iff in B.
  destruct (Qcltb_spec 0%Qc (lon_next P l i - nth i l 0)%Qc), (Qcltb_spec (lon_next P l i - nth i l 0)%Qc (P / qz 2)%Qc); destruct B; try discriminate; auto.
Qed.
Example global_example : global (qn 360) eight /\ global (qn 360) eight_shifted.
Proof. split; apply global_of; try reflexivity; discriminate. Qed.
Example narrow_example : narrow (qn 360) eight eight_shifted.
Proof.
  intros i j I J. change (i < 8) in I. change (j < 8) in J. assert (B : forallb (fun i => forallb (fun j => Qcleb (lon_width (qn 360) eight_shifted i + lon_width (qn 360) eight j)%Qc (qn 360 / qz 2)%Qc) (seq 0 8)) (seq 0 8) = true) by (vm_compute; reflexivity).
  rewrite forallb_forall in B. specialize (B i ltac:(apply in_seq; lia)). rewrite forallb_forall in B. specialize (B j ltac:(apply in_seq; lia)).
  destruct (Qcleb_spec (lon_width (qn 360) eight_shifted i + lon_width (qn 360) eight j)%Qc (qn 360 / qz 2)%Qc); auto. discriminate.
Qed.
Example longitude_weights_example : option_map (option_map (fun W => (map this (nth 0 W []), map this (nth 1 W [])))) (conservative_longitude_weights (qn 360) eight eight_shifted) =
  Some (Some ([7 # 9; 0; 0; 0; 0; 0; 0; 2 # 9], [2 # 9; 7 # 9; 0; 0; 0; 0; 0; 0])%Q).
Proof. vm_compute. reflexivity. Qed.
(** without the bound on the widths it fails: three cells of 120 degrees onto three cells moved by 40
    degrees gives the identity, and the third of the first target cell in the second source cell is lost *)
Definition three : list Qc := [qn 0; qn 120; qn 240].
Definition three_shifted : list Qc := [qn 40; qn 160; qn 280].
Theorem longitude_weights_wide_refuted : exists P s t W v, (0 < P)%Qc /\ global P s /\ global P t /\ conservative_longitude_weights P s t = Some (Some W) /\
  (tiny < lon_width P t 0)%Qc /\ circle_common P (lon_lower P t 0) (lon_upper P t 0) (lon_lower P s 1) (lon_upper P s 1) v /\ (0 < v)%Qc /\ at_ W 0 1 = 0%Qc.
Proof.
  exists (qn 360), three, three_shifted. eexists. exists (qn 40). split; [reflexivity|]. split; [apply global_of; try reflexivity; discriminate|]. split; [apply global_of; try reflexivity; discriminate|].
  split; [vm_compute; reflexivity|]. split; [reflexivity|]. split; [|split; [reflexivity|apply Qc_is_canon; reflexivity]].
  apply one_turn with 0%Z; [|apply Qc_is_canon; reflexivity]. intros k N. destruct (Z.lt_total k 0) as [L|[L|L]]; [|contradiction|].
  - apply far_above with 0%Z; auto; [reflexivity|vm_compute; discriminate|vm_compute; discriminate].
  - apply far_below with 0%Z; auto; [reflexivity|vm_compute; discriminate|vm_compute; discriminate].
Qed.
(** and a regional grid is not kept by the identity: its end cells are laid around the whole circle, come out
    with negative width, and get equal weights *)
Theorem longitude_weights_regional_refuted : exists s W, ascending s /\ conservative_longitude_weights (qn 360) s s = Some (Some W) /\
  map this (nth 0 W []) = [1 # 4; 1 # 4; 1 # 4; 1 # 4]%Q.
Proof.
  exists [qn 0; qn 10; qn 20; qn 30]. eexists. split; [apply Ascending; reflexivity|]. split; vm_compute; reflexivity.
Qed.
(** so is a global grid of two points *)
Theorem longitude_weights_two_refuted : exists s W, ascending s /\ conservative_longitude_weights (qn 360) s s = Some (Some W) /\ map this (nth 0 W []) = [1 # 2; 1 # 2]%Q.
Proof. exists [qn 0; qn 180]. eexists. split; [apply Ascending; reflexivity|]. split; vm_compute; reflexivity. Qed.

(** ** C38: the weighted mean *)
Theorem conservative_values nlon nlat planes lonw latw : nonneg_rows lonw nlon -> nonneg_rows latw nlat -> (forall f, In f planes -> length f = nlon * nlat) ->
  exists out, conservative_regrid nlon nlat planes lonw latw = Some (Some out) /\ length out = length planes /\
    forall p field, nth_error planes p = Some field -> exists rows, nth_error out p = Some rows /\ shaped rows (length lonw) (length latw) /\
      forall i j a b, nth_error lonw i = Some a -> nth_error latw j = Some b -> exists r, entry rows i j = Some r /\ mean_at nlon nlat field (fun c => nth c a 0%Qc) (fun d => nth d b 0%Qc) r.
Proof.
  intros Na Nb L. unfold conservative_regrid.
  assert (X : forallb (fun r => length r =? nlon) lonw = true). { apply forallb_forall. intros r I. apply Nat.eqb_eq. apply Na. auto. }
  assert (Y : forallb (fun r => length r =? nlat) latw = true). { apply forallb_forall. intros r I. apply Nat.eqb_eq. apply Nb. auto. }
  rewrite X, Y. cbn [andb negb].
  destruct (mapM_okR _ _ (fun field => regrid_plane nlon nlat field lonw latw) (fun field rows => shaped rows (length lonw) (length latw) /\
      forall i j a b, nth_error lonw i = Some a -> nth_error latw j = Some b -> exists r, entry rows i j = Some r /\ mean_at nlon nlat field (fun c => nth c a 0%Qc) (fun d => nth d b 0%Qc) r) planes) as [out [E [Lo K]]].
  - intros f I. destruct (plane_mean nlon nlat f lonw latw (L f I) Na Nb) as [rows [E [S K]]]. eauto.
  - exists out. rewrite E. split; auto.
Qed.
Theorem mean_at_determined nlon nlat field a b r r' : mean_at nlon nlat field a b r -> mean_at nlon nlat field a b r' -> r = r'.
Proof. apply mean_unique. Qed.
Theorem mean_at_in_range nlon nlat field a b r lo hi : (forall c, (0 <= a c)%Qc) -> (forall d, (0 <= b d)%Qc) -> (forall c d v, c < nlon -> d < nlat -> present field (c * nlat + d) v -> (lo <= v <= hi)%Qc) ->
  mean_at nlon nlat field a b (Some r) -> (lo <= r <= hi)%Qc.
Proof. apply mean_range. Qed.
Theorem mean_at_missing nlon nlat field a b r : (forall c, (0 <= a c)%Qc) -> (forall d, (0 <= b d)%Qc) -> mean_at nlon nlat field a b r ->
  (r = None <-> forall c d v, c < nlon -> d < nlat -> present field (c * nlat + d) v -> (a c * b d)%Qc = 0%Qc).
Proof. apply mean_missing. Qed.
(** the numpy path computes the same *)
Theorem conservative_paths_agree nlon nlat planes lonw latw : nonneg_rows lonw nlon -> nonneg_rows latw nlat -> (forall f, In f planes -> length f = nlon * nlat) ->
  conservative_regrid nlon nlat planes lonw latw = Some (Some (map (fun f => python_nanmean nlon nlat f lonw latw) planes)).
Proof.
  intros Na Nb L. destruct (conservative_values nlon nlat planes lonw latw Na Nb L) as [out [E [Lo K]]]. rewrite E. do 2 f_equal. apply nth_ext_all. intros p. rewrite nth_error_map.
  destruct (nth_error planes p) as [f|] eqn:Ef; [|simpl; apply nth_error_None; rewrite Lo; apply nth_error_None; auto]. destruct (K p f Ef) as [rows [Er [S Kr]]]. rewrite Er. simpl. f_equal.
  apply (rows_equal _ _ _ (length lonw) (length latw)); auto.
  - unfold python_nanmean. apply shaped_map. intros. apply map_length.
  - intros i j I J. destruct (nth_some _ lonw i I) as [a A]. destruct (nth_some _ latw j J) as [b B]. destruct (Kr i j a b A B) as [r [E1 M1]]. destruct (python_mean nlon nlat f lonw latw i j a b Na Nb A B) as [r' [E2 M2]].
    rewrite E1, E2. f_equal. eapply mean_unique; eauto.
Qed.
Definition half_rows : list (list Qc) := [[dec 1 2; dec 1 2]; [qn 0; qn 1]].
Example nonneg_rows_example : nonneg_rows half_rows 2.
Proof. intros r [<-|[<-|[]]]; (split; [reflexivity|]); intros w [<-|[<-|[]]]; discriminate. Qed.
Example conservative_example : option_map (option_map (map (map (map (option_map this))))) (conservative_regrid 2 2 [[Some (qn 1); Some (qn 2); Some (qn 4); None]] half_rows half_rows) =
  Some (Some ([[Some (7 # 3)%Q; Some 2%Q]; [Some 4%Q; None]] :: nil)).
Proof. vm_compute. reflexivity. Qed.
(** totals over the sphere are conserved for fields without NaN *)
Theorem conservative_total sn h P slon slat tlon tlat lonw latw field F : (0 < P)%Qc -> global P slon -> global P tlon -> narrow P slon tlon -> lat_grid h slat -> lat_grid h tlat -> nondecreasing_on (- h) h sn ->
  (forall i, i < length tlon -> (tiny < lon_width P tlon i)%Qc) -> (forall j, j < length tlat -> (tiny < lat_area sn h tlat j)%Qc) ->
  conservative_longitude_weights P slon tlon = Some (Some lonw) -> conservative_latitude_weights sn h slat tlat = Some latw -> holds (length slon) (length slat) field F ->
  exists rows G, conservative_regrid (length slon) (length slat) (field :: nil) lonw latw = Some (Some (rows :: nil)) /\ shaped rows (length tlon) (length tlat) /\
    (forall i j, i < length tlon -> j < length tlat -> entry rows i j = Some (Some (G i j))) /\
    sum (length tlon) (fun i => sum (length tlat) (fun j => (lon_width P tlon i * lat_area sn h tlat j * G i j)%Qc)) =
    sum (length slon) (fun c => sum (length slat) (fun d => (lon_width P slon c * lat_area sn h slat d * F c d)%Qc)).
Proof.
  intros H Gs Gt N Hs Ht M W1 W2 E1 E2 Hf.
  destruct (longitude_ok P slon tlon H Gs Gt N) as [A [v [EA [SA [CA KA]]]]]. rewrite E1 in EA. injection EA as <-.
  destruct (latitude_ok sn h slat tlat Hs Ht) as [B [EB [SB KB]]]. rewrite E2 in EB. injection EB as <-.
  assert (RA : forall r, In r lonw -> length r = length slon /\ qsum r = 1%Qc /\ forall w, In w r -> (0 <= w)%Qc) by (apply (longitude_rows P slon tlon); auto).
  assert (Na : nonneg_rows lonw (length slon)) by (intros r I; destruct (RA r I) as [a [_ b]]; auto).
  assert (AT : forall (Wm : list (list Qc)) n m i r, shaped Wm n m -> nth_error Wm i = Some r -> forall j, j < m -> nth j r 0%Qc = at_ Wm i j).
  { intros Wm n m i r S Er j J. unfold at_, entry. rewrite Er. destruct (nth_error r j) as [w|] eqn:Ew; [apply nth_error_nth; auto|]. apply nth_error_None in Ew. destruct S as [_ S]. rewrite (S r (nth_error_In _ _ Er)) in Ew. lia. }
  assert (Nb : nonneg_rows latw (length slat)).
  { intros r I. split; [apply SB; auto|]. intros w Iw. apply In_nth_error in I. destruct I as [i Ei]. apply In_nth_error in Iw. destruct Iw as [j Ej].
    assert (I' : i < length tlat) by (destruct SB as [<- _]; apply (nth_bound _ _ _ _ Ei)). assert (J' : j < length slat) by (destruct SB as [_ SB]; rewrite <- (SB r (nth_error_In _ _ Ei)); apply (nth_bound _ _ _ _ Ej)).
    assert (X : entry latw i j = Some w) by (unfold entry; rewrite Ei; auto). rewrite (KB i j I' J') in X. injection X as <-. apply lat_weight_nonneg; auto. }
  destruct (conservative_values (length slon) (length slat) (field :: nil) lonw latw Na Nb) as [out [Eo [Lo K]]]. { intros f [<-|[]]. apply Hf. }
  destruct (K 0 field eq_refl) as [rows [Er [S Kr]]]. assert (out = rows :: nil) by (destruct out as [|o [|? ?]]; try discriminate; simpl in Er; congruence). subst out.
  set (G := fun i j => sum (length slon) (fun c => (at_ lonw i c * sum (length slat) (fun d => at_ latw j d * F c d))%Qc)). exists rows, G.
  split; auto. destruct SA as [LA SA']. destruct SB as [LB SB']. rewrite LA, LB in S. split; auto. split.
  - intros i j I J. destruct (nth_some _ lonw i) as [a Ea]; [lia|]. destruct (nth_some _ latw j) as [b Eb]; [lia|]. destruct (Kr i j a b Ea Eb) as [r [E M']]. rewrite E. f_equal.
    assert (La : length a = length slon) by (apply SA'; apply (nth_error_In _ _ Ea)). assert (Lb : length b = length slat) by (apply SB'; apply (nth_error_In _ _ Eb)).
    assert (Sa : sum (length slon) (fun c => nth c a 0%Qc) = 1%Qc) by (rewrite <- La, <- qsum_nth; apply RA, (nth_error_In _ _ Ea)).
    assert (Sb : sum (length slat) (fun c => nth c b 0%Qc) = 1%Qc). { rewrite <- (lat_row_sum sn h slat tlat j Hs Ht J). apply sum_ext. intros d D. rewrite (AT latw (length tlat) (length slat) j b (conj LB SB') Eb d D). unfold at_. rewrite KB; auto. }
    rewrite (mean_full _ _ _ F _ _ r Hf Sa Sb M'). f_equal. unfold G. apply sum_ext. intros c C. rewrite (AT lonw (length tlon) (length slon) i a (conj LA SA') Ea c C). f_equal. apply sum_ext. intros d D. rewrite (AT latw (length tlat) (length slat) j b (conj LB SB') Eb d D). auto.
  - unfold G. rewrite (sum_ext (length tlon) _ (fun i => (lon_width P tlon i * sum (length slon) (fun c => at_ lonw i c * sum (length slat) (fun d => lat_area sn h slat d * F c d)))%Qc)).
    + rewrite (longitude_weights_conserve P slon tlon lonw (fun c => sum (length slat) (fun d => (lat_area sn h slat d * F c d)%Qc)) H Gs Gt N W1 E1). apply sum_ext. intros c C. rewrite <- sum_scale. apply sum_ext. intros d D. ring.
    + intros i I. rewrite (sum_ext _ _ (fun j => (lon_width P tlon i * sum (length slon) (fun c => at_ lonw i c * (lat_area sn h tlat j * sum (length slat) (fun d => at_ latw j d * F c d))))%Qc)).
      * rewrite sum_scale. f_equal. rewrite sum_swap. apply sum_ext. intros c C. rewrite sum_scale. f_equal. apply (latitude_weights_conserve sn h slat tlat latw (F c) Hs Ht W2 E2).
      * intros j J. rewrite (sum_ext (length slon) (fun c => (at_ lonw i c * (lat_area sn h tlat j * sum (length slat) (fun d => at_ latw j d * F c d)))%Qc) (fun c => (lat_area sn h tlat j * (at_ lonw i c * sum (length slat) (fun d => at_ latw j d * F c d)))%Qc)) by (intros; ring). rewrite sum_scale. ring.
Qed.
Lemma bump_nondecreasing : nondecreasing_on (- qn 90) (qn 90) bump.
Proof.
  intros x y Hx Hxy Hy. unfold bump. apply Qcmult_le_compat_r; [|discriminate]. unfold qcabs, qn in *. change (qz 270) with (qz (90 + 90 + 90)). rewrite !qz_add. set (n := qz 90) in *. assert (0 < n)%Qc by reflexivity. clearbody n.
  destruct (Qcleb_spec 0%Qc x) as [a|a], (Qcleb_spec 0%Qc y) as [b|b]; try apply Qcnot_le_lt in a; try apply Qcnot_le_lt in b.
  - qcnra.
  - exfalso. qclra.
  - qcnra.
  - qcnra.
Qed.
Example conservative_total_example : forall i j, i < 2 -> j < 8 -> (tiny < lat_area bump (qn 90) [qn (-30); qn 30] i)%Qc /\ (tiny < lon_width (qn 360) eight_shifted j)%Qc.
Proof. intros [|[|i]] [|[|[|[|[|[|[|[|j]]]]]]]] Hi Hj; try lia; split; reflexivity. Qed.

(** ** C60: nearest neighbour search and gather *)
Theorem nearest_first_best nlon nlat score : 0 < nlon -> 0 < nlat -> (forall i j, i < nlon -> j < nlat -> (- qz 2 < score i j)%Qc) ->
  exists i j, i < nlon /\ j < nlat /\ nearest_index_of nlon nlat score = i * nlat + j /\
    forall i' j', i' < nlon -> j' < nlat -> (score i' j' <= score i j)%Qc /\ (i' * nlat + j' < i * nlat + j -> (score i' j' < score i j)%Qc).
Proof. apply nearest_ok. Qed.
Example nearest_example : nearest_index_of 2 2 (fun i j => nth (i * 2 + j) [dec 1 2; dec 3 4; dec 3 4; dec (-1) 2] 0%Qc) = 1.
Proof. vm_compute. reflexivity. Qed.
Theorem nearest_gather (A : Type) (plane : list A) ntgt indices :
  (length indices = ntgt /\ Forall (fun i => (0 <= i < Z.of_nat (length plane))%Z) indices ->
     exists out, nearest_apply plane ntgt indices = Some (Some out) /\ length out = ntgt /\ forall k i, nth_error indices k = Some i -> nth_error out k = nth_error plane (Z.to_nat i)) /\
  (~ (length indices = ntgt /\ Forall (fun i => (0 <= i < Z.of_nat (length plane))%Z) indices) -> nearest_apply plane ntgt indices = Some None).
Proof.
  unfold nearest_apply. split.
  - intros [L B]. rewrite L, Nat.eqb_refl. cbn [negb]. rewrite Forall_forall in B.
    assert (X : existsb (fun i => (i <? 0)%Z || (Z.of_nat (length plane) <=? i)%Z) indices = false). { apply not_true_is_false. intros X. apply existsb_exists in X. destruct X as [i [I X]]. specialize (B i I). apply orb_true_iff in X. lia. }
    rewrite X. destruct (mapM_okR _ _ (fun i => nth_error plane (Z.to_nat i)) (fun i b => nth_error plane (Z.to_nat i) = Some b) indices) as [out [E [Lo K]]].
    + intros i I. specialize (B i I). destruct (nth_some _ plane (Z.to_nat i)) as [b Eb]; [lia|]. eauto.
    + exists out. rewrite E. split; auto. split; [lia|]. intros k i Ei. destruct (K k i Ei) as [b [E1 E2]]. congruence.
  - intros H. destruct (Nat.eqb_spec (length indices) ntgt) as [L|L]; auto. cbn [negb]. destruct (existsb _ indices) eqn:X; auto. exfalso. apply H. split; auto. apply Forall_forall. intros i I.
    assert (Y : (i <? 0)%Z || (Z.of_nat (length plane) <=? i)%Z = false). { apply not_true_is_false. intros Y. assert (existsb (fun i => (i <? 0)%Z || (Z.of_nat (length plane) <=? i)%Z) indices = true) by (apply existsb_exists; eauto). congruence. }
    apply orb_false_iff in Y. lia.
Qed.
Example nearest_gather_example : nearest_apply [7; 8; 9] 2 [2; 0]%Z = Some (Some [9; 7]) /\ nearest_apply [7; 8; 9] 2 [3; 0]%Z = Some None.
Proof. split; reflexivity. Qed.

Print Assumptions bilinear_values.
Print Assumptions bilinear_determined.
Print Assumptions bilinear_at_node.
Print Assumptions bilinear_field_exact.
Print Assumptions bilinear_in_range.
Print Assumptions bilinear_identity.
Print Assumptions bilinear_paths_agree.
Print Assumptions bilinear_nan_rule.
Print Assumptions bilinear_nan_identity_refuted.
Print Assumptions bilinear_target_order_refuted.
Print Assumptions bilinear_seam_refuted.
Print Assumptions bilinear_planes.
Print Assumptions latitude_weights_values.
Print Assumptions latitude_weights_rows.
Print Assumptions latitude_weights_conserve.
Print Assumptions latitude_weights_same_grid.
Print Assumptions longitude_weights_rows.
Print Assumptions longitude_weights_values.
Print Assumptions circle_common_determined.
Print Assumptions longitude_weights_conserve.
Print Assumptions longitude_weights_same_grid.
Print Assumptions longitude_weights_wide_refuted.
Print Assumptions longitude_weights_regional_refuted.
Print Assumptions longitude_weights_two_refuted.
Print Assumptions conservative_values.
Print Assumptions mean_at_determined.
Print Assumptions mean_at_in_range.
Print Assumptions mean_at_missing.
Print Assumptions conservative_paths_agree.
Print Assumptions conservative_total.
Print Assumptions nearest_first_best.
Print Assumptions nearest_gather.
