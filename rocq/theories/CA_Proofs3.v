From Coq Require Import Lia Arith ZArith List Bool QArith Qcanon Qround Permutation Sorted.
From Verif Require Import Base SH_Model CA_Model CA_Spec LI_Proofs TG_Proofs2.
Import ListNotations.
Local Open Scope Qc_scope.

Lemma qz360 : 0 < qz 360. Proof. reflexivity. Qed.
Lemma qmod_range (x m : Qc) : 0 < m -> 0 <= qmod x m /\ qmod x m < m.
Proof.
  intro Hm. unfold qmod. destruct (floor_spec (x / m)) as [L U]. set (k := Qfloor (x / m)%Qc) in *.
  assert (E : x = m * (x / m)) by (field; intros E; rewrite E in Hm; exact (Qclt_irrefl _ Hm)).
  rewrite qz_add, qz_1 in U. clearbody k. set (q := x / m) in *. clearbody q. subst x.
  assert (A1 : m * qz k <= m * q) by (rewrite !(Qcmult_comm m); apply Qcmult_le_compat_r; [exact L|apply Qclt_le_weak; exact Hm]).
  assert (A2 : m * q < m * (qz k + 1)) by (rewrite !(Qcmult_comm m); apply Qcmult_lt_compat_r; [exact Hm|exact U]).
  replace (m * (qz k + 1)) with (m * qz k + m) in A2 by ring.
  set (u := m * q) in *. set (v := m * qz k) in *. clearbody u v. split; qclra.
Qed.
Definition lower (b : bool) : Qc := if b then 0 else qz (-180).
Lemma wrap_mod b x : exists k, wrap_lon b x = x + qz (360 * k).
Proof.
  unfold wrap_lon, qmod. destruct b; cbn [negb].
  - exists (- Qfloor (x / qz 360)%Qc)%Z. rewrite qz_mul, qz_opp. ring.
  - exists (- Qfloor ((x + qz 180) / qz 360)%Qc)%Z. rewrite qz_mul, qz_opp. ring.
Qed.
Lemma wrap_range b x : lower b <= wrap_lon b x /\ wrap_lon b x < lower b + qz 360.
Proof.
  unfold wrap_lon, lower. destruct b; cbn [negb].
  - destruct (qmod_range x (qz 360) qz360) as [L U]. split; [exact L|]. replace (0 + qz 360) with (qz 360) by ring. exact U.
  - destruct (qmod_range (x + qz 180) (qz 360) qz360) as [L U]. change (qz (-180)) with (- qz 180) in *.
    set (u := qmod _ _) in *. set (v := qz 180) in *. set (w := qz 360) in *. clearbody u v w. split; qclra.
Qed.
Lemma range_unique b x y k : y = x + qz (360 * k) ->
  lower b <= x -> x < lower b + qz 360 -> lower b <= y -> y < lower b + qz 360 -> y = x.
Proof.
  intros E Lx Ux Ly Uy. assert (k = 0)%Z.
  { subst y. assert (H1 : qz (360 * k) < qz 360) by (set (u := qz (360 * k)) in *; set (w := qz 360) in *; set (v := lower b) in *; clearbody u v w; qclra).
    assert (H2 : qz (-360) < qz (360 * k)) by (change (qz (-360)) with (- qz 360); set (u := qz (360 * k)) in *; set (w := qz 360) in *; set (v := lower b) in *; clearbody u v w; qclra).
    apply (proj1 (qz_lt _ _)) in H1; apply (proj1 (qz_lt _ _)) in H2; lia. }
  subst k. rewrite E. change (qz (360 * 0)) with (qz 0). rewrite qz_0. ring.
Qed.
Lemma wrap_same b x y : same_meridian x y -> wrap_lon b x = wrap_lon b y.
Proof.
  intros [k E]. destruct (wrap_mod b x) as [k1 E1]. destruct (wrap_mod b y) as [k2 E2].
  destruct (wrap_range b x) as [L1 U1]. destruct (wrap_range b y) as [L2 U2].
  symmetry. apply (range_unique b _ _ (k + k2 - k1)); try assumption.
  rewrite E2, E1, E. replace (360 * (k + k2 - k1))%Z with (360 * k + 360 * k2 - 360 * k1)%Z by ring.
  rewrite qz_sub, qz_add. ring.
Qed.
Lemma wrap_wrap b b' x : wrap_lon b (wrap_lon b' x) = wrap_lon b x.
Proof. symmetry. apply wrap_same. destruct (wrap_mod b' x) as [k E]. exists k. exact E. Qed.

(** ** The stable sort *)
Section Sort.
Variable X : Type.
Implicit Types (l : list (Qc * X)) (e : Qc * X).
Lemma ins_perm e l : Permutation (e :: l) (ins e l).
Proof.
  induction l as [|h t IH]; cbn [ins]; [apply Permutation_refl|].
  destruct (Qcleb (fst e) (fst h)); [apply Permutation_refl|].
  eapply Permutation_trans; [apply perm_swap|]. apply perm_skip. exact IH.
Qed.
Lemma sortby_perm l : Permutation l (sortby l).
Proof.
  induction l as [|e l IH]; [apply Permutation_refl|]. change (sortby (e :: l)) with (ins e (sortby l)).
  eapply Permutation_trans; [apply perm_skip; exact IH|apply ins_perm].
Qed.
Lemma ins_sorted e l : ascending l -> ascending (ins e l).
Proof.
  unfold ascending. induction 1 as [|h t Hs IH Hf]; cbn [ins]; [repeat constructor|].
  destruct (Qcleb_spec (fst e) (fst h)) as [H|H].
  - constructor; [constructor; assumption|]. constructor; [exact H|].
    eapply Forall_impl; [|exact Hf]. intros x Hx. eapply Qcle_trans; eassumption.
  - constructor; [exact IH|]. rewrite Forall_forall in *. intros x Hx.
    apply (Permutation_in _ (Permutation_sym (ins_perm e t))) in Hx. destruct Hx as [<-|Hx]; [|apply Hf; exact Hx].
    apply Qcnot_le_lt in H. apply Qclt_le_weak. exact H.
Qed.
Lemma sortby_sorted l : ascending (sortby l).
Proof. induction l as [|e l IH]; [constructor|]. apply ins_sorted. exact IH. Qed.
Lemma sortby_id l : ascending l -> sortby l = l.
Proof.
  unfold ascending. induction 1 as [|h t Hs IH Hf]; [reflexivity|]. change (sortby (h :: t)) with (ins h (sortby t)). rewrite IH.
  destruct t as [|x t]; [reflexivity|]. cbn [ins]. inversion Hf; subst. destruct (Qcleb_spec (fst h) (fst x)); [reflexivity|contradiction].
Qed.
Definition at_key (k : Qc) l := filter (fun e => Qceqb (fst e) k) l.
Lemma ins_key k e l : ascending l -> at_key k (ins e l) = at_key k (e :: l).
Proof.
  unfold ascending. induction 1 as [|h t Hs IH Hf]; [reflexivity|]. cbn [ins].
  destruct (Qcleb_spec (fst e) (fst h)) as [H|H]; [reflexivity|].
  unfold at_key in *. cbn [filter] in *. rewrite IH.
  destruct (Qceqb_spec (fst h) k) as [Eh|]; destruct (Qceqb_spec (fst e) k) as [Ee|]; try reflexivity.
  exfalso. apply H. rewrite Eh, Ee. apply Qcle_refl.
Qed.
Lemma sortby_key k l : at_key k (sortby l) = at_key k l.
Proof.
  induction l as [|e l IH]; [reflexivity|]. change (sortby (e :: l)) with (ins e (sortby l)).
  rewrite ins_key by apply sortby_sorted. unfold at_key in *. cbn [filter]. rewrite IH. reflexivity.
Qed.
Lemma sorted_unique l1 l2 : ascending l1 -> ascending l2 -> (forall k, at_key k l1 = at_key k l2) -> l1 = l2.
Proof.
  intro H1. revert l2. unfold ascending in *. induction H1 as [|a t1 Hs1 IH Hf1]; intros l2 H2 HK.
  - destruct l2 as [|b t2]; [reflexivity|]. specialize (HK (fst b)). unfold at_key in HK. cbn [filter] in HK.
    destruct (Qceqb_spec (fst b) (fst b)); [discriminate|congruence].
  - assert (Hk : forall l e k, In e (at_key k l) -> In e l /\ fst e = k).
    { intros l e k H. apply filter_In in H. destruct H as [H E]. split; [exact H|]. destruct (Qceqb_spec (fst e) k); congruence. }
    destruct l2 as [|b t2].
    { specialize (HK (fst a)). unfold at_key in HK. cbn [filter] in HK. destruct (Qceqb_spec (fst a) (fst a)); [discriminate|congruence]. }
    inversion H2 as [|? ? Hs2 Hf2]; subst.
    assert (Hab : In a (b :: t2)).
    { apply (Hk _ _ (fst a)). rewrite <- HK. unfold at_key. cbn [filter]. destruct (Qceqb_spec (fst a) (fst a)); [left; reflexivity|congruence]. }
    assert (Hba : In b (a :: t1)).
    { apply (Hk _ _ (fst b)). rewrite HK. unfold at_key. cbn [filter]. destruct (Qceqb_spec (fst b) (fst b)); [left; reflexivity|congruence]. }
    assert (E : fst a = fst b).
    { apply Qcle_antisym.
      - destruct Hba as [->|Hba]; [apply Qcle_refl|]. rewrite Forall_forall in Hf1. apply Hf1; exact Hba.
      - destruct Hab as [->|Hab]; [apply Qcle_refl|]. rewrite Forall_forall in Hf2. apply Hf2; exact Hab. }
    assert (Eab : a = b).
    { specialize (HK (fst a)). unfold at_key in HK. cbn [filter] in HK.
      destruct (Qceqb_spec (fst a) (fst a)); [|congruence]. destruct (Qceqb_spec (fst b) (fst a)); [|congruence]. congruence. }
    subst b. f_equal. apply IH; [exact Hs2|]. intro k. specialize (HK k). unfold at_key in *. cbn [filter] in HK.
    destruct (Qceqb (fst a) k); congruence.
Qed.

Definition rewrap b l : list (Qc * X) := map (fun e => (wrap_lon b (fst e), snd e)) l.
Lemma key_rewrap b b' k l : (forall e, In e l -> wrap_lon b' (fst e) = fst e) ->
  at_key k (rewrap b l) = if Qceqb (wrap_lon b k) k then rewrap b (at_key (wrap_lon b' k) l) else [].
Proof.
  intro H. unfold at_key, rewrap. induction l as [|e l IH]; [cbn; destruct (Qceqb _ _); reflexivity|].
  cbn [map filter]. rewrite IH by (intros; apply H; right; assumption). cbn [fst].
  pose proof (H e (or_introl eq_refl)) as He.
  destruct (Qceqb_spec (wrap_lon b k) k) as [Ek|Ek].
  - destruct (Qceqb_spec (wrap_lon b (fst e)) k) as [E1|E1]; destruct (Qceqb_spec (fst e) (wrap_lon b' k)) as [E2|E2]; try reflexivity.
    + exfalso. apply E2. rewrite <- E1, wrap_wrap. symmetry. exact He.
    + exfalso. apply E1. rewrite E2, wrap_wrap. exact Ek.
  - destruct (Qceqb_spec (wrap_lon b (fst e)) k) as [E1|E1]; [|reflexivity].
    exfalso. apply Ek. rewrite <- E1 at 1. rewrite wrap_wrap. exact E1.
Qed.
Lemma convert_convert b b' l : convert_longitude_range b (convert_longitude_range b' l) = convert_longitude_range b l.
Proof.
  unfold convert_longitude_range. fold (rewrap b' l). fold (rewrap b l). fold (rewrap b (sortby (rewrap b' l))).
  apply sorted_unique; try apply sortby_sorted. intro k. rewrite !sortby_key.
  rewrite (key_rewrap b b').
  2:{ intros e He. apply (Permutation_in _ (Permutation_sym (sortby_perm _))) in He. apply in_map_iff in He.
      destruct He as (e' & <- & _). cbn [fst]. apply wrap_wrap. }
  rewrite sortby_key.
  assert (E : rewrap b l = rewrap b (rewrap b' l)).
  { unfold rewrap. rewrite map_map. apply map_ext. intro e. cbn [fst snd]. rewrite wrap_wrap. reflexivity. }
  rewrite E. symmetry. apply key_rewrap. intros e He. apply in_map_iff in He. destruct He as (e' & <- & _). cbn [fst]. apply wrap_wrap.
Qed.
End Sort.
