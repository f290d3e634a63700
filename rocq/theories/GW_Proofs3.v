(** Proofs about the Python layer of the geostrophic wind. *)
From Verif Require Import Base NdArray AX_Model AX_Spec AX_Proofs AX_Proofs2 AX_Proofs3 AX_Props TP_Model GW_Model GW_Spec GW_Proofs GW_Proofs2.
Local Close Scope Qc_scope.
Local Open Scope nat_scope.

Section Any.
Variable A : fl.
Variables (sn cs : A -> A) (pi : A) (r32 : A -> A).
Notation z2geouv := (z2geouv A sn cs pi).
Notation geostrophic_wind := (geostrophic_wind A sn cs pi r32).

Definition proper_order (o : list nat) (n : nat) : Prop :=
  length o = n /\ NoDup o /\ In ch_x o /\ In ch_y o /\ ~ In 88 o /\ ~ In 89 o.

Lemma multidim_slicewise J out0 J' (z : nda A) glon glat o zmsg iopt out :
  proper_order o (ndim z) -> 
  geostrophic_wind_multidim A sn cs pi r32 J out0 z glon glat o zmsg iopt = Some out ->
  let x := pos ch_x o in let y := pos ch_y o in
  length glat = nthn (nd_shape z) y /\ length glon = nthn (nd_shape z) x /\
  nd_shape out = nd_shape z /\
  forall ix, valid ix (nd_shape z) ->
  nd_elt out ix = z2geouv J' (fun i j => r32 (slice x y z ix i j)) (length glat) (length glon) zmsg
                    (sub1 A glon) (sub1 A glat) iopt (nthn ix y + 1) (nthn ix x + 1).
Proof.
  intros (L & ND & Ix & Iy & NX & NY) H x y. unfold geostrophic_wind_multidim in H.
  destruct (ws_reduces A z o L ND Ix Iy NX NY) as (g3 & inf & winf & E1 & E2 & N & Hx & Hy & _).
  rewrite E1 in H. fold x y in E2, N, Hx, Hy.
  destruct (gridfill_prep_elements A z x y Hx Hy N) as (g3' & inf' & E' & S3 & EL).
  rewrite E2 in E'. injection E' as <- <-.
  rewrite S3 in H. set (n3 := prodn _) in *.
  destruct (Nat.eqb_spec (length glat) (nthn (nd_shape z) y)) as [Ly|]; [|discriminate]. cbn [negb] in H.
  destruct (Nat.eqb_spec (length glon) (nthn (nd_shape z) x)) as [Lx|]; [|discriminate]. cbn [negb] in H.
  injection H as <-. split; [auto|]. split; [auto|].
  match goal with |- context [ws_recover_data ?r winf] => set (r3 := r) end.
  destruct (windspharm_recover_elements A (A * A) z r3 o L ND Ix Iy NX NY) as (g3'' & winf' & E1' & _ & R).
  rewrite E1 in E1'. injection E1' as <- <-. destruct R as [R1 R2]; [rewrite S3; reflexivity|].
  split; auto. intros ix V. fold x y in R2. rewrite R2 by auto.
  pose proof (valid_length _ _ V) as LV. unfold ndim in *.
  assert (Hk : other_index (nd_shape z) x y ix < n3).
  { unfold n3. apply (other_index_lt (nd_shape z) x y ix V). }
  pose proof (valid_nth _ _ y V Hy) as Vy. pose proof (valid_nth _ _ x V Hx) as Vx.
  assert (P0 : forall a b c, nthn [a; b; c] 0 = a) by reflexivity.
  assert (P1 : forall a b c, nthn [a; b; c] 1 = b) by reflexivity.
  assert (P2 : forall a b c, nthn [a; b; c] 2 = c) by reflexivity.
  unfold r3. cbn [nd_elt]. rewrite P0, P1, P2. rewrite z2geouv_3d_ok by lia. rewrite Ly, Lx.
  apply z2geouv_ext; auto; try lia.
  intros i j Hi Hj. f_equal. unfold slice. replace (other_index (nd_shape z) x y ix + 1 - 1) with (other_index (nd_shape z) x y ix) by lia.
  assert (Va : valid (at_yx x y ix (i - 1) (j - 1)) (nd_shape z)).
  { unfold at_yx. apply valid_set_nth; auto; try lia. apply valid_set_nth; auto; lia. }
  change (set_nth x (j - 1) (set_nth y (i - 1) ix)) with (at_yx x y ix (i - 1) (j - 1)).
  rewrite <- (EL _ Va). rewrite other_index_at_yx by (auto; lia).
  rewrite !at_yx_nth by (auto; lia). rewrite Nat.eqb_refl. f_equal.
  destruct (Nat.eqb_spec y x); [lia|]. rewrite Nat.eqb_refl. reflexivity.
Qed.

Lemma twod_slicewise J J' (z : nda A) glon glat zmsg iopt out :
  calc_geostrophic_2d A sn cs pi r32 J z glon glat zmsg iopt = Some out ->
  nd_shape z = [length glat; length glon] /\ nd_shape out = nd_shape z /\
  forall ix, valid ix (nd_shape z) ->
  nd_elt out ix = z2geouv J' (fun i j => r32 (slice 1 0 z ix i j)) (length glat) (length glon) zmsg
                    (sub1 A glon) (sub1 A glat) iopt (nthn ix 0 + 1) (nthn ix 1 + 1).
Proof.
  intros H. unfold calc_geostrophic_2d in H. destruct (nd_shape z) as [|a [|b [|? ?]]] eqn:S; try discriminate.
  destruct (Nat.eqb_spec (length glat) a) as [<-|]; [|discriminate].
  destruct (Nat.eqb_spec (length glon) b) as [<-|]; [|discriminate]. cbn [andb] in H. injection H as <-.
  split; auto. split; auto. intros ix V. cbn [nd_elt].
  pose proof (valid_nth _ _ 0 V) as V0. pose proof (valid_nth _ _ 1 V) as V1.
  specialize (V0 ltac:(simpl; lia)). specialize (V1 ltac:(simpl; lia)). unfold nthn at 2 in V0. unfold nthn at 2 in V1. cbn [nth] in V0, V1.
  apply z2geouv_ext; auto; try lia. intros i j Hi Hj. f_equal. unfold slice.
  apply valid_length in V. destruct ix as [|p [|q [|? ?]]]; try discriminate V. reflexivity.
Qed.

(** Every element is the kernel applied to the slice through it, the rows taken
    from south to north. *)
Lemma geostrophic_wind_ok J out0 J' (z : nda A) glon glat o zmsg out :
  proper_order o (ndim z) -> (ndim z = 2 -> o = [ch_y; ch_x]) ->
  geostrophic_wind J out0 z glon glat o zmsg = Some out ->
  let x := pos ch_x o in let y := pos ch_y o in
  let iopt := if is_longitude_cyclic A glon then 1%Z else 0%Z in
  let reversed := fltb A (last glat (fc A 0 1)) (hd (fc A 0 1) glat) in
  length glat = nthn (nd_shape z) y /\ length glon = nthn (nd_shape z) x /\
  nd_shape out = nd_shape z /\
  forall ix, valid ix (nd_shape z) ->
  nd_elt out ix =
  if reversed
  then z2geouv J' (flipped_rows (length glat) (fun i j => r32 (slice x y z ix i j))) (length glat) (length glon) zmsg
         (sub1 A glon) (flipped_rows (length glat) (sub1 A glat)) iopt (nthn ix y + 1) (nthn ix x + 1)
  else z2geouv J' (fun i j => r32 (slice x y z ix i j)) (length glat) (length glon) zmsg
         (sub1 A glon) (sub1 A glat) iopt (nthn ix y + 1) (nthn ix x + 1).
Proof.
  intros PO O2 H x y iopt reversed. unfold GW_Model.geostrophic_wind in H. fold iopt in H.
  destruct (ensure_south_to_north A z glat o) as [[z1 g1]|] eqn:E; [|discriminate].
  assert (PO' := PO). destruct PO' as (L & ND & Ix & Iy & NX & NY).
  assert (HY : pos ch_y (map lower o) = y).
  { unfold y. apply (pos_lower ch_y 89); auto. intros d Hd. apply lower_inv in Hd. unfold ch_y in *. lia. }
  assert (Hyl : y < ndim z) by (rewrite <- L; apply pos_lt; auto).
  assert (Hxl : x < ndim z) by (rewrite <- L; apply pos_lt; auto).
  assert (Nxy : x <> y). { intros E'. assert (ch_x = ch_y) by (eapply pos_inj; eauto). discriminate. }
  assert (Two : ndim z = 2 -> x = 1 /\ y = 0).
  { intros E2. unfold x, y. rewrite (O2 E2). vm_compute. auto. }
  (* the arrays passed on *)
  assert (EG : (reversed = true /\ z1 = flip y z /\ g1 = rev glat) \/ (reversed = false /\ z1 = z /\ g1 = glat)).
  { unfold ensure_south_to_north in E. destruct glat as [|f r]; [discriminate|]. unfold reversed. cbn [hd].
    assert (LL : forall d d', last (f :: r) d = last (f :: r) d').
    { clear. revert f. induction r as [|g r IH]; intros f d d'; auto. cbn [last] in *. apply (IH g). }
    rewrite (LL (fc A 0 1) f). destruct (fltb A (last (f :: r) f) f); [left|right]; split; auto.
    - rewrite HY in E. destruct (mem ch_y (map lower o) && (y <? ndim z)); [|discriminate]. injection E as <- <-. auto.
    - injection E as <- <-. auto. }
  assert (ND1 : nd_shape z1 = nd_shape z) by (destruct EG as [(_ & -> & _)|(_ & -> & _)]; reflexivity).
  assert (LG : length g1 = length glat) by (destruct EG as [(_ & _ & ->)|(_ & _ & ->)]; [apply rev_length|reflexivity]).
  assert (K : length g1 = nthn (nd_shape z) y /\ length glon = nthn (nd_shape z) x /\ nd_shape out = nd_shape z /\
     forall ix, valid ix (nd_shape z) ->
     nd_elt out ix = z2geouv J' (fun i j => r32 (slice x y z1 ix i j)) (length g1) (length glon) zmsg
        (sub1 A glon) (sub1 A g1) iopt (nthn ix y + 1) (nthn ix x + 1)).
  { assert (N1 : ndim z1 = ndim z) by (unfold ndim; rewrite ND1; auto). rewrite N1 in H.
    destruct (Nat.ltb_spec 2 (ndim z)) as [G|G].
    - rewrite <- N1 in PO. destruct (multidim_slicewise J out0 J' z1 glon g1 o zmsg iopt out PO H) as (K1 & K2 & K3 & K4).
      rewrite ND1 in *. auto.
    - destruct (twod_slicewise (J 0) J' z1 glon g1 zmsg iopt out H) as (K1 & K2 & K3).
      assert (E2 : ndim z = 2) by (unfold ndim; rewrite <- ND1, K1; reflexivity).
      destruct (Two E2) as [-> ->]. rewrite ND1 in K1. rewrite ND1 in K2. rewrite ND1 in K3. rewrite K1 in *. auto. }
  destruct K as (K1 & K2 & K3 & K4). rewrite LG in *. split; auto. split; auto. split; auto.
  intros ix V. rewrite K4 by auto. pose proof (valid_length _ _ V) as LV. unfold ndim in *.
  pose proof (valid_nth _ _ y V Hyl) as Vy. pose proof (valid_nth _ _ x V Hxl) as Vx.
  destruct EG as [(-> & -> & ->)|(-> & -> & ->)]; auto.
  apply z2geouv_ext; auto; try lia.
  - intros i j Hi Hj. unfold flipped_rows. f_equal. unfold slice. cbn [flip nd_elt]. f_equal.
    assert (LS : forall v, length (set_nth y v ix) = length ix) by (intros; apply set_nth_length; lia).
    assert (LS2 : forall v w, length (set_nth x v (set_nth y w ix)) = length ix)
      by (intros; rewrite set_nth_length; rewrite LS; lia).
    apply nthn_ext; [rewrite set_nth_length; rewrite !LS2; lia|].
    intros d Hd. rewrite !nthn_set_nth by (rewrite ?LS2, ?LS; lia).
    destruct (Nat.eqb_spec d y), (Nat.eqb_spec d x), (Nat.eqb_spec y x); try lia. rewrite Nat.eqb_refl. lia.
  - intros i Hi. unfold flipped_rows, sub1. rewrite rev_nth by lia. f_equal. lia.
Qed.
End Any.
