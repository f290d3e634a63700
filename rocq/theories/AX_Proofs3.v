(** Proofs about the axis bookkeeping: windspharm, latitude order, tropopause. *)
From Coq Require Import Permutation Sorted.
From Verif Require Import Base Loops NdArray OrderSpec OrderProofs GF_Model AX_Model AX_Spec AX_Proofs AX_Proofs2.
Local Close Scope Qc_scope.
Local Open Scope nat_scope.

(** ** windspharm with distinct labels reduces to the gridfill functions *)
Lemma mem_In d l : mem d l = true <-> In d l.
Proof.
  unfold mem. rewrite existsb_exists. split.
  - intros (x & Hx & E). apply Nat.eqb_eq in E. subst. auto.
  - intros H. exists d. split; auto. apply Nat.eqb_refl.
Qed.
Lemma pos_lower c C o : lower c = c -> (forall d, lower d = c -> d = c \/ d = C) -> ~ In C o -> pos c (map lower o) = pos c o.
Proof.
  intros Hc Hl. induction o as [|d o IH]; simpl; auto. intros N.
  destruct (Nat.eqb_spec (lower d) c) as [E|E], (Nat.eqb_spec d c) as [D|D]; auto.
  - destruct (Hl d E); [congruence|]. subst. tauto.
  - subst. congruence.
  - f_equal. apply IH. tauto.
Qed.
Lemma lower_inv c d : lower d = c -> d = c \/ d + 32 = c.
Proof. unfold lower. destruct ((65 <=? d) && (d <=? 90)); lia. Qed.

Lemma ws_reduces T (data : nda T) o :
  length o = ndim data -> NoDup o -> In ch_x o -> In ch_y o -> ~ In 88 o -> ~ In 89 o ->
  exists g3 inf winf, ws_prep_data data o = Some (g3, winf) /\
    prep_data data (pos ch_x o) (pos ch_y o) = Some (g3, inf) /\
    pos ch_x o <> pos ch_y o /\ pos ch_x o < ndim data /\ pos ch_y o < ndim data /\
    forall S (G : nda S), ws_recover_data G winf = recover_data G inf.
Proof.
  intros L ND Ix Iy NX NY.
  set (n := ndim data) in *. set (x := pos ch_x o). set (y := pos ch_y o).
  assert (Hx : x < n) by (unfold x; rewrite <- L; apply pos_lt; auto).
  assert (Hy : y < n) by (unfold y; rewrite <- L; apply pos_lt; auto).
  assert (N : x <> y). { intros E. apply (pos_inj o) in E; auto. discriminate. }
  assert (Px : pos ch_x (map lower o) = x).
  { apply (pos_lower ch_x 88); auto. intros d Hd. apply lower_inv in Hd. unfold ch_x in *. lia. }
  assert (Py : pos ch_y (map lower o) = y).
  { apply (pos_lower ch_y 89); auto. intros d Hd. apply lower_inv in Hd. unfold ch_y in *. lia. }
  assert (INT : [ch_y; ch_x] ++ rem ch_y (rem ch_x o) = map (nthn o) (front_order n x y)).
  { unfold front_order. rewrite map_app. cbn [map]. unfold x, y. rewrite !nth_pos by auto. fold x y. f_equal.
    assert (INJ : forall a b, a < n -> b < n -> nthn o a = nthn o b -> a = b).
    { intros a b Ha Hb E. unfold nthn in E. apply (proj1 (NoDup_nth o 0) ND); lia. }
    rewrite map_rem_inj, map_rem_inj.
    - unfold x, y. rewrite !nth_pos by auto. rewrite <- L, map_nth_seq_id. reflexivity.
    - intros a b [<-|Ha] [<-|Hb]; rewrite ?in_seq in *; apply INJ; lia.
    - intros a b [<-|Ha] [<-|Hb]; rewrite ?in_rem, ?in_seq in *; apply INJ; lia. }
  unfold ws_prep_data, prep_data, ws_order_dims, order_dims.
  fold n. destruct (Nat.ltb_spec n 2) as [H2|H2]; [lia|].
  rewrite (proj2 (mem_In _ _) Ix), (proj2 (mem_In _ _) Iy). cbn [negb orb].
  rewrite Px, Py. rewrite (proj2 (Nat.ltb_lt _ _) Hx), (proj2 (Nat.ltb_lt _ _) Hy), (proj2 (Nat.eqb_neq _ _) N). cbn [andb negb].
  eexists. eexists. eexists. split; [reflexivity|]. split; [reflexivity|]. split; [auto|]. split; [auto|]. split; [auto|].
  intros S G. unfold ws_recover_data, recover_data. cbn [ws_shape ws_inter ws_orig intshape intorder origndim].
  match goal with |- roll_back (length ?a) 0 ?g ?a = roll_back (length ?b) 0 ?g ?b => enough (E : a = b) by (rewrite E; reflexivity) end.
  rewrite INT. fold (front_order n x y).
  replace (rev o) with (rev (map (nthn o) (seq 0 n))) by (rewrite <- L; f_equal; apply map_nth_seq_id).
  rewrite <- map_rev, map_map.
  apply map_ext_in. intros d Hd. apply in_rev in Hd. apply in_seq in Hd.
  apply pos_map_inj. intros a b Ha Hb E.
  destruct (front_order_perm n x y Hx Hy N) as [(_ & _ & P3) _].
  assert (a < n) by (destruct Ha as [<-|Ha]; [lia|apply P3; auto]).
  assert (b < n) by (destruct Hb as [<-|Hb]; [lia|apply P3; auto]).
  unfold nthn in E. apply (proj1 (NoDup_nth o 0) ND); lia.
Qed.

(** ** Flips *)
Lemma flip_flip T (u : nda T) k : k < ndim u -> nd_eq (flip k (flip k u)) u.
Proof.
  intros Hk. split; [reflexivity|]. cbn [flip nd_shape nd_elt]. intros ix V. f_equal.
  pose proof (valid_length _ _ V) as L. pose proof (valid_nth _ _ k V Hk) as B.
  apply nthn_ext.
  - rewrite !set_nth_length; auto; rewrite ?set_nth_length; unfold ndim in *; lia.
  - intros d _. rewrite !nthn_set_nth by (rewrite ?set_nth_length; unfold ndim in *; lia).
    rewrite Nat.eqb_refl. destruct (Nat.eqb_spec d k); [subst; lia|reflexivity].
Qed.
Lemma norm_axis_lt a n k : norm_axis a n = Some k -> k < n.
Proof.
  unfold norm_axis. destruct ((a >=? Z.of_nat n) || (a <? - Z.of_nat n))%Z eqn:E; [discriminate|]. intros H. injection H as <-.
  apply orb_false_elim in E. destruct E as [E1 E2]. rewrite Z.geb_leb in E1. apply Z.leb_gt in E1. apply Z.ltb_ge in E2.
  destruct (Z.ltb_spec a 0); lia.
Qed.
Lemma list_eqb_spec l m : list_eqb l m = true <-> l = m.
Proof. unfold list_eqb. destruct (list_eq_dec Nat.eq_dec l m); split; congruence. Qed.

(** ** argsort *)
Section Argsort.
Context {K : Type} (le : K -> K -> bool) (dflt : K).
Hypothesis le_total : forall a b, le a b = true \/ le b a = true.
Hypothesis le_trans : forall a b c, le a b = true -> le b c = true -> le a c = true.
Lemma insert_by_perm key i l : Permutation (insert_by le key i l) (i :: l).
Proof. induction l as [|j l IH]; simpl; auto. destruct (le (key i) (key j)); auto. rewrite IH. apply perm_swap. Qed.
Lemma insert_by_sorted key i l : StronglySorted (fun a b => le (key a) (key b) = true) l ->
  StronglySorted (fun a b => le (key a) (key b) = true) (insert_by le key i l).
Proof.
  induction 1 as [|j l Sl IH F]; simpl; [repeat constructor|].
  destruct (le (key i) (key j)) eqn:E.
  - constructor; [constructor; auto|]. constructor; auto. rewrite Forall_forall in *. intros x Hx. apply (le_trans _ (key j)); auto.
  - constructor; auto. rewrite Forall_forall in *. intros x Hx.
    apply (Permutation_in _ (insert_by_perm key i l)) in Hx. destruct Hx as [<-|Hx]; auto.
    destruct (le_total (key i) (key j)); congruence.
Qed.
Lemma argsort_perm l : Permutation (argsort le dflt l) (seq 0 (length l)).
Proof.
  unfold argsort. induction (seq 0 (length l)) as [|i s IH]; simpl; auto. rewrite insert_by_perm. auto.
Qed.
Lemma argsort_sorted l : StronglySorted (fun a b => le (nth a l dflt) (nth b l dflt) = true) (argsort le dflt l).
Proof.
  unfold argsort. induction (seq 0 (length l)) as [|i s IH]; simpl; [constructor|]. apply insert_by_sorted. auto.
Qed.
End Argsort.

Lemma StronglySorted_map {X Y} (f : X -> Y) (R : Y -> Y -> Prop) l : StronglySorted (fun a b => R (f a) (f b)) l -> StronglySorted R (map f l).
Proof. induction 1; simpl; constructor; auto. rewrite Forall_map. auto. Qed.
Lemma sorted_nat_unique (l m : list nat) : StronglySorted le l -> StronglySorted le m -> Permutation l m -> l = m.
Proof.
  intros Sl. revert m. induction Sl as [|a l Sl IH F]; intros m Sm P.
  - apply Permutation_nil in P. auto.
  - destruct Sm as [|b m Sm G]; [apply Permutation_sym, Permutation_nil in P; discriminate|].
    assert (a = b).
    { rewrite Forall_forall in *.
      assert (Ha : In a (b :: m)) by (apply (Permutation_in _ P); simpl; auto).
      assert (Hb : In b (a :: l)) by (apply (Permutation_in _ (Permutation_sym P)); simpl; auto).
      destruct Ha as [->|Ha]; auto. destruct Hb as [->|Hb]; auto. specialize (F _ Hb). specialize (G _ Ha). lia. }
    subst b. f_equal. apply IH; auto. apply Permutation_cons_inv in P. auto.
Qed.
Lemma is_perm_Permutation l n : is_perm l n <-> Permutation l (seq 0 n).
Proof.
  split.
  - intros (H1 & H2 & H3). apply NoDup_Permutation; auto; [apply seq_NoDup|]. intros d. rewrite H3, in_seq. lia.
  - intros P. split; [|split].
    + apply (Permutation_NoDup (Permutation_sym P)). apply seq_NoDup.
    + rewrite (Permutation_length P), seq_length. auto.
    + intros d. split; intros H.
      * apply (Permutation_in _ P), in_seq in H. lia.
      * apply (Permutation_in _ (Permutation_sym P)), in_seq. lia.
Qed.
Lemma argsort_order_inverse l n : is_perm l n -> argsort Nat.leb 0 l = map (fun d => pos d l) (seq 0 n).
Proof.
  intros P. destruct (P) as (P1 & P2 & P3).
  pose proof (argsort_perm Nat.leb 0 l) as AP. rewrite P2 in AP.
  assert (TOT : forall a b, (a <=? b) = true \/ (b <=? a) = true).
  { intros a b. rewrite !Nat.leb_le. lia. }
  assert (TR : forall a b c, (a <=? b) = true -> (b <=? c) = true -> (a <=? c) = true).
  { intros a b c. rewrite !Nat.leb_le. lia. }
  pose proof (argsort_sorted Nat.leb 0 TOT TR l) as AS.
  set (s := argsort Nat.leb 0 l) in *.
  assert (E : map (nthn l) s = seq 0 n).
  { apply sorted_nat_unique.
    - apply (StronglySorted_map (nthn l) (fun a b => a <= b)).
      clear - AS. induction AS as [|a s Ss IH F]; constructor; auto.
      rewrite Forall_forall in *. intros x Hx. specialize (F x Hx). apply Nat.leb_le in F. exact F.
    - clear. generalize 0. induction n as [|n IH]; intros k; simpl; constructor; auto. rewrite Forall_forall. intros x Hx. apply in_seq in Hx. lia.
    - transitivity (map (nthn l) (seq 0 n)); [apply Permutation_map; auto|].
      rewrite <- P2, map_nth_seq_id. apply is_perm_Permutation. rewrite P2. auto. }
  rewrite <- E, map_map. rewrite <- (map_id s) at 1. apply map_ext_in. intros i Hi.
  symmetry. apply pos_nth; auto. apply (Permutation_in _ AP) in Hi. apply in_seq in Hi. lia.
Qed.

(** ** Transposing by an order and then by its argsort *)
Lemma transpose_argsort T (a : nda T) order : is_perm order (ndim a) ->
  nd_eq (transpose (argsort Nat.leb 0 order) (transpose order a)) a.
Proof.
  intros P. rewrite (argsort_order_inverse _ _ P).
  destruct (inverse_perm order (ndim a) P) as (I1 & _ & I3).
  set (inv := map (fun d => pos d order) (seq 0 (ndim a))) in *.
  destruct (transpose_transpose T a inv order I1 P) as [E1 E2].
  assert (E : map (nthn order) inv = seq 0 (ndim a)).
  { unfold inv. rewrite map_map. rewrite <- (map_id (seq 0 (ndim a))) at 2. apply map_ext_in. intros d Hd. apply nth_pos.
    apply P. apply in_seq in Hd. lia. }
  rewrite E in E1, E2. destruct (transpose_id T a) as [F1 F2]. split; [congruence|].
  intros ix V. rewrite E2, F2; auto. apply valid_length in V. rewrite V, E1, F1. reflexivity.
Qed.

(** ** The tropopause wrapper *)
Lemma NoDup_app' {X} (l m : list X) : NoDup l -> NoDup m -> (forall x, In x l -> ~ In x m) -> NoDup (l ++ m).
Proof.
  induction 1 as [|x l Hx N IH]; simpl; auto. intros Nm D. constructor.
  - rewrite in_app_iff. intros [H|H]; [auto|]. apply (D x); auto.
  - apply IH; auto.
Qed.
Lemma NoDup_app_l {X} (l m : list X) : NoDup (l ++ m) -> NoDup l.
Proof. induction l as [|x l IH]; simpl; [constructor|]. intros H. inversion H; subst. constructor; auto. rewrite in_app_iff in *. tauto. Qed.
Lemma NoDup_app_r {X} (l m : list X) : NoDup (l ++ m) -> NoDup m.
Proof. induction l as [|x l IH]; simpl; auto. intros H. inversion H; auto. Qed.
Lemma complete_perm b n : NoDup b -> (forall d, In d b -> d < n) ->
  is_perm (b ++ filter (fun i => negb (mem i b)) (seq 0 n)) n.
Proof.
  intros N L. apply is_perm_Permutation. apply NoDup_Permutation.
  - apply NoDup_app'; auto.
    + apply NoDup_filter, seq_NoDup.
    + intros x Hx Hf. apply filter_In in Hf. destruct Hf as [_ Hf]. rewrite (proj2 (mem_In x b) Hx) in Hf. discriminate.
  - apply seq_NoDup.
  - intros d. rewrite in_app_iff, filter_In, in_seq. split.
    + intros [H|[H _]]; [specialize (L d H)|]; lia.
    + intros H. destruct (mem d b) eqn:E; [left; apply mem_In; auto|right; split; [lia|auto]].
Qed.


Definition perms3 : list (list nat) := [[0;1;2];[0;2;1];[1;0;2];[1;2;0];[2;0;1];[2;1;0]].
Lemma perm3_cases l : is_perm l 3 -> In l perms3.
Proof.
  intros (N & L & H). destruct l as [|a [|b [|c [|]]]]; try discriminate.
  assert (a < 3) by (apply H; simpl; auto). assert (b < 3) by (apply H; simpl; auto). assert (c < 3) by (apply H; simpl; auto).
  assert (a <> b /\ a <> c /\ b <> c).
  { inversion N; subst. inversion H6; subst. simpl in *. repeat split; intros ->; tauto. }
  unfold perms3.
  destruct a as [|[|[|]]]; try lia; destruct b as [|[|[|]]]; try lia; destruct c as [|[|[|]]]; try lia; simpl; tauto.
Qed.
Definition perms4 : list (list nat) :=
  flat_map (fun p => map (fun k => insert_at k 3 p) [0;1;2;3]) perms3.
Lemma perm4_cases l : is_perm l 4 -> In l perms4.
Proof.
  intros (N & L & H). destruct l as [|a [|b [|c [|d [|]]]]]; try discriminate.
  assert (a < 4) by (apply H; simpl; auto). assert (b < 4) by (apply H; simpl; auto).
  assert (c < 4) by (apply H; simpl; auto). assert (d < 4) by (apply H; simpl; auto).
  assert (a <> b /\ a <> c /\ b <> c /\ a <> d /\ b <> d /\ c <> d).
  { inversion N as [|? ? Na Nb]; subst. inversion Nb as [|? ? Nb1 Nc]; subst. inversion Nc as [|? ? Nc1 Nd]; subst. simpl in *. repeat split; intros ->; tauto. }
  destruct a as [|[|[|[|]]]]; try lia; destruct b as [|[|[|[|]]]]; try lia; destruct c as [|[|[|[|]]]]; try lia; destruct d as [|[|[|[|]]]]; try lia; vm_compute; tauto.
Qed.


Lemma order3_column T R (f : (nat -> T) -> R) (temp : nda T) order lev sel nl :
  is_perm order 3 -> nthn order 2 = lev -> ndim temp = 3 ->
  let t := mk_nda (firstn 2 (nd_shape (transpose order temp)) ++ nl :: skipn 3 (nd_shape (transpose order temp)))
             (fun ix => nd_elt (transpose order temp) (set_nth 2 (sel (nthn ix 2)) ix)) in
  let out := transpose (trop_restore_order order)
          (mk_nda [nthn (nd_shape t) 0; nthn (nd_shape t) 1]
                  (fun ix => f (fun k => nd_elt t [nthn ix 0; nthn ix 1; k]))) in
  nd_shape out = drop_axis lev (nd_shape temp) /\
  forall ix, valid ix (nd_shape out) -> nd_elt out ix = f (fun k => nd_elt temp (insert_at lev (sel k) ix)).
Proof.
  intros P E N t out. apply perm3_cases in P. destruct temp as [sh el]. unfold ndim in N. cbn [nd_shape] in N.
  destruct sh as [|s0 [|s1 [|s2 [|]]]]; try discriminate.
  assert (SH : nd_shape out = drop_axis lev [s0; s1; s2]).
  { unfold out, t. simpl in P. destruct P as [P|[P|[P|[P|[P|[P|[]]]]]]]; subst order; cbn in E; subst lev; reflexivity. }
  split; [exact SH|]. intros ix V.
  assert (LX : length ix = 2).
  { apply valid_length in V. rewrite V, SH. simpl in P. destruct P as [P|[P|[P|[P|[P|[P|[]]]]]]]; subst order; cbn in E; subst lev; reflexivity. }
  destruct ix as [|i [|j [|]]]; try discriminate. unfold out, t.
  simpl in P. destruct P as [P|[P|[P|[P|[P|[P|[]]]]]]]; subst order; cbn in E; subst lev; reflexivity.
Qed.
Lemma order4_column T R (f : (nat -> T) -> R) (temp : nda T) order lev sel nl :
  is_perm order 4 -> nthn order 2 = lev -> ndim temp = 4 ->
  let t := mk_nda (firstn 2 (nd_shape (transpose order temp)) ++ nl :: skipn 3 (nd_shape (transpose order temp)))
             (fun ix => nd_elt (transpose order temp) (set_nth 2 (sel (nthn ix 2)) ix)) in
  let out := transpose (trop_restore_order order)
          (mk_nda [nthn (nd_shape t) 0; nthn (nd_shape t) 1; nthn (nd_shape t) 3]
                  (fun ix => f (fun k => nd_elt t [nthn ix 0; nthn ix 1; k; nthn ix 2]))) in
  nd_shape out = drop_axis lev (nd_shape temp) /\
  forall ix, valid ix (nd_shape out) -> nd_elt out ix = f (fun k => nd_elt temp (insert_at lev (sel k) ix)).
Proof.
  intros P E N t out. apply perm4_cases in P. destruct temp as [sh el]. unfold ndim in N. cbn [nd_shape] in N.
  destruct sh as [|s0 [|s1 [|s2 [|s3 [|]]]]]; try discriminate.
  assert (SH : nd_shape out = drop_axis lev [s0; s1; s2; s3]).
  { unfold out, t. vm_compute in P. repeat (destruct P as [P|P]; [subst order; cbn in E; subst lev; reflexivity|]). destruct P. }
  split; [exact SH|]. intros ix V.
  assert (LX : length ix = 3).
  { apply valid_length in V. rewrite V, SH. vm_compute in P.
    repeat (destruct P as [P|P]; [subst order; cbn in E; subst lev; reflexivity|]). destruct P. }
  destruct ix as [|i [|j [|k [|]]]]; try discriminate. unfold out, t.
  vm_compute in P. repeat (destruct P as [P|P]; [subst order; cbn in E; subst lev; reflexivity|]). destruct P.
Qed.
Lemma order2_column T R (f : (nat -> T) -> R) (temp : nda T) s lev sel nl :
  is_perm [s; lev] 2 -> ndim temp = 2 ->
  let t := mk_nda (firstn 1 (nd_shape (transpose [s; lev] temp)) ++ nl :: skipn 2 (nd_shape (transpose [s; lev] temp)))
             (fun ix => nd_elt (transpose [s; lev] temp) (set_nth 1 (sel (nthn ix 1)) ix)) in
  let out := mk_nda [nthn (nd_shape t) 0] (fun ix => f (fun k => nd_elt t [nthn ix 0; k])) in
  nd_shape out = drop_axis lev (nd_shape temp) /\
  forall ix, valid ix (nd_shape out) -> nd_elt out ix = f (fun k => nd_elt temp (insert_at lev (sel k) ix)).
Proof.
  intros (N1 & L & H) N t out. destruct temp as [sh el]. unfold ndim in N. cbn [nd_shape] in N.
  destruct sh as [|s0 [|s1 [|]]]; try discriminate.
  assert (s < 2) by (apply H; simpl; auto). assert (lev < 2) by (apply H; simpl; auto).
  assert (s <> lev). { inversion N1; subst. intros ->. apply H4. simpl; auto. }
  split.
  - unfold out, t. destruct s as [|[|]], lev as [|[|]]; try lia; reflexivity.
  - intros ix V. apply valid_length in V. unfold out in V. simpl in V. destruct ix as [|i [|]]; try discriminate. unfold out, t.
    destruct s as [|[|]], lev as [|[|]]; try lia; reflexivity.
Qed.
Lemma trop_order_perm n xd yd lev td order :
  n <> 2 -> NoDup (opt_list xd ++ opt_list yd ++ [lev] ++ opt_list td) ->
  (forall d, In d (opt_list xd ++ opt_list yd ++ [lev] ++ opt_list td) -> d < n) ->
  trop_order n xd yd lev td = Some order ->
  is_perm order n /\
  ((xd <> None /\ yd <> None) \/ (n = 3 /\ td <> None /\ (xd <> None \/ yd <> None)) -> nthn order 2 = lev).
Proof.
  intros N2 ND LT E. unfold trop_order in E. rewrite (proj2 (Nat.eqb_neq n 2) N2) in E.
  set (std := opt_list yd ++ opt_list xd ++ [lev] ++ opt_list td) in *.
  assert (PS : Permutation std (opt_list xd ++ opt_list yd ++ [lev] ++ opt_list td)).
  { unfold std. rewrite !app_assoc. do 2 apply Permutation_app_tail. apply Permutation_app_comm. }
  assert (Pstd : is_perm (std ++ filter (fun i => negb (mem i std)) (seq 0 n)) n).
  { apply complete_perm.
    - apply (Permutation_NoDup (Permutation_sym PS)). auto.
    - intros d Hd. apply LT. apply (Permutation_in _ PS); auto. }
  destruct xd as [x|], yd as [y|], td as [t|]; destruct (Nat.eqb_spec n 3) as [E3|E3];
    injection E as <-; (split; [|intros [[? ?]|[? [? [?|?]]]]; try congruence; try reflexivity]);
    try exact Pstd; try contradiction.
  all: match goal with |- is_perm ?l _ => match eval cbn in l with ?a :: ?b :: ?c :: _ => apply (complete_perm [a; b; c]) end end; [|intros d Hd; apply LT; simpl in *; tauto].
  all: simpl in ND; repeat (match goal with H : NoDup (_ :: _) |- _ => inversion H; clear H; subst end); simpl in *;
       repeat constructor; simpl; intuition congruence.
Qed.

Lemma ascb_spec l : ascb l = true <-> ascending l.
Proof.
  induction l as [|x l IH]; [split; auto; constructor|].
  destruct l as [|y l].
  - split; auto. intros _. repeat constructor.
  - change (ascb (x :: y :: l)) with ((x <=? y)%Qc && ascb (y :: l)). rewrite andb_true_iff, IH. split.
    + intros [H1 H2]. destruct (Qcleb_spec x y); [|discriminate]. constructor; auto. inversion H2; subst.
      constructor; auto. rewrite Forall_forall in *. intros z Hz. apply Qcle_trans with y; auto.
    + intros H. inversion H as [|? ? H1 H2]; subst. split; auto. inversion H2; subst. destruct (Qcleb_spec x y); auto; try contradiction.
Qed.
Lemma map_nth_qc_id (p : list Qc) : map (fun i => nth i p 0%Qc) (seq 0 (length p)) = p.
Proof. induction p as [|x p IH]; simpl; auto. f_equal. rewrite <- seq_shift, map_map. exact IH. Qed.

Lemma distinct_spec l : distinct l = true -> NoDup l.
Proof.
  induction l as [|x l IH]; cbn [distinct]; [constructor|]. rewrite andb_true_iff, negb_true_iff. intros [H1 H2]. constructor; auto.
  rewrite <- mem_In. congruence.
Qed.
Lemma trop_wmo_columns_raw T R (F : list Qc -> (nat -> T) -> R) chk p temp xd yd lev td out :
  kernel_local F ->
  trop_wmo F chk p temp xd yd lev td = Some out ->
  (ndim temp = 2 \/ (xd <> None /\ yd <> None) \/ (ndim temp = 3 /\ (xd <> None \/ yd <> None))) ->
  exists idx, Permutation idx (seq 0 (length p)) /\
    (chk = true -> ascending (map (fun i => nth i p 0%Qc) idx)) /\
    (chk = false \/ ascending p -> idx = seq 0 (length p)) /\
    nd_shape out = drop_axis lev (nd_shape temp) /\
    forall ix, valid ix (nd_shape out) ->
      nd_elt out ix = F (map (fun i => nth i p 0%Qc) idx) (fun k => nd_elt temp (insert_at lev (nthn idx k) ix)).
Proof.
  intros FL H SP. unfold trop_wmo in H. cbv zeta in H.
  set (dims := opt_list xd ++ opt_list yd ++ [lev] ++ opt_list td) in *.
  match type of H with (if ?b then _ else _) = _ => destruct b eqn:EV; [discriminate|] end.
  rewrite !orb_false_iff in EV. destruct EV as ((((V1 & V2) & V3) & V4) & V5).
  apply negb_false_iff in V1, V2, V4. rewrite forallb_forall in V1.
  assert (LT : forall d, In d dims -> d < ndim temp) by (intros d Hd; apply Nat.ltb_lt; auto).
  assert (ND : NoDup dims) by (apply distinct_spec; auto).
  destruct (trop_order (ndim temp) xd yd lev td) as [order|] eqn:EO; [|discriminate].
  set (idx := if chk && negb (ascb p) then argsort Qcleb 0%Qc p else seq 0 (length p)).
  set (sel := fun k => if chk && negb (ascb p) then nthn (argsort Qcleb 0%Qc p) k else k).
  set (p' := if chk && negb (ascb p) then map (fun i => nth i p 0%Qc) (argsort Qcleb 0%Qc p) else p).
  assert (TOT : forall a b, (a <=? b)%Qc = true \/ (b <=? a)%Qc = true).
  { intros a b. destruct (Qcleb_spec a b), (Qcleb_spec b a); auto. exfalso.
    destruct (Qclt_le_dec a b) as [C|C]; [apply Qclt_le_weak in C|]; contradiction. }
  assert (TR : forall a b c, (a <=? b)%Qc = true -> (b <=? c)%Qc = true -> (a <=? c)%Qc = true).
  { intros a b c. destruct (Qcleb_spec a b), (Qcleb_spec b c), (Qcleb_spec a c); auto. exfalso. qclra. }
  assert (PE : p' = map (fun i => nth i p 0%Qc) idx).
  { unfold p', idx. destruct (chk && negb (ascb p)); auto. symmetry. apply map_nth_qc_id. }
  assert (LP : length p' = length p).
  { unfold p'. destruct (chk && negb (ascb p)); auto. rewrite map_length, (Permutation_length (argsort_perm Qcleb 0%Qc p)), seq_length. auto. }
  assert (SEL : forall k, k < length p -> sel k = nthn idx k).
  { intros k Hk. unfold sel, idx. destruct (chk && negb (ascb p)); auto. unfold nthn. rewrite seq_nth; auto. }
  exists idx. split; [|split; [|split]].
  - unfold idx. destruct (chk && negb (ascb p)); [apply argsort_perm|reflexivity].
  - intros ->. rewrite <- PE. unfold p'. destruct (ascb p) eqn:EA; cbn [andb negb].
    + apply ascb_spec; auto.
    + pose proof (argsort_sorted Qcleb 0%Qc TOT TR p) as AS. apply (StronglySorted_map (fun i => nth i p 0%Qc) Qcle).
      clear - AS. induction AS as [|a s Ss IH Fa]; constructor; auto. rewrite Forall_forall in *. intros x Hx.
      specialize (Fa x Hx). destruct (Qcleb_spec (nth a p 0%Qc) (nth x p 0%Qc)); [auto|discriminate].
  - intros [->|A]; [reflexivity|]. unfold idx. rewrite (proj2 (ascb_spec p) A). rewrite andb_false_r. reflexivity.
  - assert (GOAL : nd_shape out = drop_axis lev (nd_shape temp) /\
      forall ix, valid ix (nd_shape out) -> nd_elt out ix = F p' (fun k => nd_elt temp (insert_at lev (sel k) ix))).
    { destruct (Nat.eqb_spec (ndim temp) 2) as [E2|E2]; [|destruct (Nat.eqb_spec (ndim temp) 3) as [E3|E3]; [|destruct (Nat.eqb_spec (ndim temp) 4) as [E4|E4]]].
      - assert (ES : exists s, order = [s; lev] /\ is_perm [s; lev] 2).
        { clear H. unfold trop_order in EO. rewrite E2 in EO. cbn [Nat.eqb] in EO. rewrite E2 in LT.
          assert (G : forall s, In s dims -> NoDup [s; lev] -> is_perm [s; lev] 2 /\ filter (fun i => negb (mem i [s; lev])) (seq 0 2) = []).
          { intros s Hs N. assert (s < 2) by auto. assert (lev < 2) by (apply LT; unfold dims; rewrite !in_app_iff; simpl; auto).
            assert (s <> lev) by (inversion N; subst; intros ->; apply H3; simpl; auto).
            destruct s as [|[|]], lev as [|[|]]; try lia; (split; [apply is_perm_Permutation; repeat (reflexivity || apply perm_swap)|reflexivity]). }
          destruct yd as [y|]; [|destruct xd as [x|]; [|discriminate]]; injection EO as <-.
          - destruct (G y) as [G1 G2].
            + unfold dims. rewrite !in_app_iff. simpl; auto.
            + clear - ND. unfold dims in ND. apply NoDup_app_r in ND. cbn [opt_list app] in ND.
              change (y :: lev :: opt_list td) with ([y; lev] ++ opt_list td) in ND. apply NoDup_app_l in ND. exact ND.
            + exists y. split; auto. change (y :: lev :: filter (fun i => negb (mem i [y; lev])) (seq 0 2) = [y; lev]). rewrite G2. reflexivity.
          - destruct (G x) as [G1 G2].
            + unfold dims. rewrite !in_app_iff. simpl; auto.
            + clear - ND. unfold dims in ND. cbn [opt_list app] in ND. change (x :: lev :: opt_list td) with ([x; lev] ++ opt_list td) in ND.
              apply NoDup_app_l in ND. exact ND.
            + exists x. split; auto. change (x :: lev :: filter (fun i => negb (mem i [x; lev])) (seq 0 2) = [x; lev]). rewrite G2. reflexivity. }
        destruct ES as (s & -> & PM). clear EO.
        pose proof (order2_column T R (F p') temp s lev sel
          (if chk && negb (ascb p) then length (argsort Qcleb 0%Qc p) else nthn (nd_shape temp) lev) PM E2) as O.
        cbv zeta in O. unfold p', sel in *. clear - H O.
        destruct (chk && negb (ascb p)); injection H as <-; exact O.
      - destruct (trop_order_perm _ _ _ _ _ _ E2 ND LT EO) as [PM LV].
        assert (LV' : nthn order 2 = lev).
        { apply LV. cbn [Nat.eqb andb] in V5.
          destruct SP as [SP|[SP|[_ SP]]]; [lia|auto|]. destruct xd, yd, td; cbn in V5; try discriminate; try (left; split; discriminate); try (right; repeat split; auto; discriminate); destruct SP; congruence. }
        rewrite E3 in PM.
        pose proof (order3_column T R (F p') temp order lev sel
          (if chk && negb (ascb p) then length (argsort Qcleb 0%Qc p) else nthn (nd_shape temp) lev) PM LV' E3) as O.
        destruct PM as (_ & PL & _). destruct order as [|o0 [|o1 [|o2 [|]]]]; try discriminate.
        cbv zeta in O. unfold p', sel in *. clear - H O LV'. cbn in LV'. subst o2.
        destruct (chk && negb (ascb p)); injection H as <-; exact O.
      - destruct (trop_order_perm _ _ _ _ _ _ E2 ND LT EO) as [PM LV].
        assert (LV' : nthn order 2 = lev) by (apply LV; destruct SP as [SP|[SP|[SP _]]]; [lia|auto|lia]).
        rewrite E4 in PM.
        pose proof (order4_column T R (F p') temp order lev sel
          (if chk && negb (ascb p) then length (argsort Qcleb 0%Qc p) else nthn (nd_shape temp) lev) PM LV' E4) as O.
        destruct PM as (_ & PL & _). destruct order as [|o0 [|o1 [|o2 [|o3 [|]]]]]; try discriminate.
        cbv zeta in O. unfold p', sel in *. clear - H O LV'. cbn in LV'. subst o2.
        destruct (chk && negb (ascb p)); injection H as <-; exact O.
      - destruct (chk && negb (ascb p)); discriminate. }
    destruct GOAL as [G1 G2]. split; auto. intros ix V. rewrite G2 by auto. rewrite PE. apply FL.
    intros k Hk. rewrite <- PE, LP in Hk. rewrite SEL by auto. reflexivity.
Qed.
