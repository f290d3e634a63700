(** Heights grow upward. *)
From Verif Require Import Base Buffer Loops I2P_Model I2P_Proofs VH_Model VH_Spec VH_Proofs VH_Proofs2 VH_Proofs3 VH_Proofs4 VH_Proofs7.
Local Open Scope nat_scope.
Local Opaque spvl.
Section Geo.
Variable lg : Qc -> Qc.
Lemma Qcinv_gt1 x : (1 < x)%Qc -> (0 < / x)%Qc /\ (x * / x = 1)%Qc.
Proof. intros H. assert (P : (0 < x)%Qc) by (apply Qclt_trans with 1%Qc; auto; reflexivity). split; [apply Qcinv_pos; auto|apply Qcmult_inv_r, Qcpos_neq; auto]. Qed.
Lemma mid_layer pu pl : (forall x, (1 < x)%Qc -> (1 - / x < lg x)%Qc /\ (lg x < x - 1)%Qc) -> (0 < pu)%Qc -> (pu < pl)%Qc ->
  let d := lg (pl / pu)%Qc in (0 < 1 - pu / (pl - pu) * d)%Qc /\ (1 - pu / (pl - pu) * d < d)%Qc.
Proof.
  intros B H1 H2 d. assert (H3 : (0 < pl - pu)%Qc) by qclra. assert (H4 : (0 < pl)%Qc) by qclra.
  pose proof (Qcpos_neq H1) as N1. pose proof (Qcpos_neq H3) as N3. pose proof (Qcpos_neq H4) as N4.
  assert (X : (1 < pl / pu)%Qc).
  { replace 1%Qc with (pu / pu)%Qc by (apply Qcdiv_self; auto). unfold Qcdiv. apply Qcmult_lt_compat_r; auto. apply Qcinv_pos; auto. }
  destruct (B _ X) as [B1 B2]. fold d in B1, B2.
  assert (E1 : (/ (pl / pu) = pu / pl)%Qc) by (field; auto). rewrite E1 in B1. clear E1.
  clearbody d. set (w := (pu / (pl - pu))%Qc).
  assert (W : (0 < w)%Qc) by (apply Qcmul_pos; [auto|apply Qcinv_pos; auto]).
  assert (E2 : (w * (pl / pu - 1) = 1)%Qc) by (unfold w; field; auto).
  assert (E3 : ((1 + w) * (1 - pu / pl) = 1)%Qc) by (unfold w; field; auto).
  assert (M1 : (w * d < w * (pl / pu - 1))%Qc) by (rewrite (Qcmult_comm w d), (Qcmult_comm w); apply Qcmult_lt_compat_r; auto).
  assert (M2 : ((1 + w) * (1 - pu / pl) < (1 + w) * d)%Qc).
  { rewrite (Qcmult_comm _ d), (Qcmult_comm _ (1 - pu / pl)%Qc). apply Qcmult_lt_compat_r; auto. qclra. }
  rewrite E2 in M1. rewrite E3 in M2. replace ((1 + w) * d)%Qc with (d + w * d)%Qc in M2 by ring.
  set (wd := (w * d)%Qc) in *. clearbody wd w. split; qclra.
Qed.
Lemma gpos : (0 < dec 980665 100000)%Qc. Proof. vm_compute. reflexivity. Qed.
Lemma rpos : (0 < dec 28706 100)%Qc. Proof. vm_compute. reflexivity. Qed.
Lemma qpos : (0 < dec 609133 1000000)%Qc. Proof. vm_compute. reflexivity. Qed.
Lemma geo_step_between k pu pl t q phi : log_bounds lg -> layer_ok k pu pl -> (0 < t)%Qc -> (0 <= q)%Qc ->
  let (z, phi') := geo_step lg k pu pl t q phi in (phi / gravity < z)%Qc /\ (z < phi' / gravity)%Qc.
Proof.
  intros [LL B] [Lt Lk] Ht Hq. unfold geo_step. change gravity with (dec 980665 100000).
  pose proof gpos as G. set (g := dec 980665 100000) in *. clearbody g.
  assert (TV : (0 < dec 28706 100 * t * (1 + dec 609133 1000000 * q))%Qc).
  { apply Qcmul_pos; [apply Qcmul_pos; [apply rpos|auto]|].
    assert (0 <= dec 609133 1000000 * q)%Qc by (apply Qcmul_nonneg; auto; apply Qclt_le_weak, qpos). qclra. }
  set (tv := (dec 28706 100 * t * (1 + dec 609133 1000000 * q))%Qc) in *. clearbody tv.
  assert (K : exists d al, (if (k =? 1) && Qcleb pu 0%Qc then (lg (pl / dec 1 10)%Qc, lg (qz 2))
        else (lg (pl / pu)%Qc, (1 - (pu / (pl - pu)) * lg (pl / pu))%Qc)) = (d, al) /\ (0 < al)%Qc /\ (al < d)%Qc).
  { destruct ((k =? 1) && Qcleb pu 0%Qc) eqn:C.
    - exists (lg (pl / dec 1 10)%Qc), (lg (qz 2)). split; auto. destruct Lk as [Lk|[_ [_ Lk]]].
      { apply andb_true_iff in C. destruct (Qcleb_spec pu 0) as [Q|]; [|destruct C; discriminate]. destruct (Qcle_not_lt _ _ Q Lk). }
      destruct LL as [L0 LL]. split.
      + rewrite <- L0. apply LL; vm_compute; reflexivity.
      + apply LL; [vm_compute; reflexivity|]. replace (pl / dec 1 10)%Qc with (pl * qz 10)%Qc.
        * replace (qz 2) with ((qz 1 / qz 5) * qz 10)%Qc by (apply Qc_is_canon; reflexivity). apply Qcmult_lt_compat_r; auto. vm_compute; reflexivity.
        * unfold Qcdiv. f_equal.
    - eexists _, _. split; [reflexivity|]. apply mid_layer; auto.
      destruct Lk as [Lk|[-> [Lk _]]]; auto. cbn [Nat.eqb andb] in C. destruct (Qcleb_spec pu 0); [discriminate|contradiction]. }
  destruct K as [d [al [-> [K1 K2]]]]. unfold Qcdiv. pose proof (Qcinv_pos G) as IG.
  split; apply Qcmult_lt_compat_r; auto.
  - assert (0 < tv * al)%Qc by (apply Qcmul_pos; auto). set (m := (tv * al)%Qc) in *. clearbody m. qclra.
  - assert (al * tv < d * tv)%Qc by (apply Qcmult_lt_compat_r; auto). rewrite (Qcmult_comm tv al), (Qcmult_comm tv d).
    set (m := (al * tv)%Qc) in *. set (m' := (d * tv)%Qc) in *. clearbody m m'. qclra.
Qed.
Lemma geo_heights p_half T Q : log_bounds lg -> forall k phi acc z, k + 1 <= length p_half -> k <= length T -> k <= length Q ->
  (forall j, 1 <= j <= k -> layer_ok j (get p_half j) (get p_half (j + 1)) /\ (0 < get T j)%Qc /\ (0 <= get Q j)%Qc) ->
  geo_column lg k p_half T Q phi acc = Some (z ++ acc) -> length z = k ->
  goes_down z /\ (forall v, In v z -> (phi / gravity < v)%Qc).
Proof.
  intros B. induction k as [|k IH]; intros phi acc z H1 H2 H3 Hl E Lz.
  - destruct z; [|discriminate]. split; [intros i j p q _ Hi; destruct i; discriminate|intros v []].
  - cbn [geo_column] in E. rewrite (rd_get p_half), (rd_get p_half), (rd_get T), (rd_get Q) in E by lia. cbn [bind] in E.
    destruct (Hl (Datatypes.S k) ltac:(lia)) as [L1 [L2 L3]].
    pose proof (geo_step_between (Datatypes.S k) _ _ _ _ phi B L1 L2 L3) as ST.
    destruct (geo_step _ _ _ _ _ _ _) as [zk phi']. destruct ST as [ST1 ST2].
    destruct (geo_column_total lg p_half T Q k phi' (zk :: acc)) as [zs [Ez Ls]]; try lia.
    assert (z = zs ++ [zk]). { rewrite Ez in E. injection E as E. rewrite (app_assoc zs [zk] acc : zs ++ zk :: acc = _) in E. apply app_inv_tail in E. auto. }
    subst z. destruct (IH phi' (zk :: acc) zs) as [D A]; auto; try lia. { intros j Hj. apply Hl. lia. }
    split.
    + intros i j p q Hij Hi Hj.
      assert (j < length (zs ++ [zk])) by (apply nth_error_Some; congruence). rewrite app_length in H. simpl in H.
      rewrite nth_error_app1 in Hi by lia. destruct (Nat.ltb_spec j (length zs)) as [J|J].
      * rewrite nth_error_app1 in Hj by lia. apply (D i j p q Hij Hi Hj).
      * rewrite nth_error_app2 in Hj by lia. replace (j - length zs) with 0 in Hj by lia. simpl in Hj. injection Hj as <-.
        apply Qclt_trans with (phi' / gravity)%Qc; auto. apply A. eapply nth_error_In; eauto.
    + intros v Hv. apply in_app_iff in Hv. destruct Hv as [Hv|[<-|[]]]; auto.
      apply Qclt_trans with (phi' / gravity)%Qc; [|apply A; auto]. apply Qclt_trans with zk; auto.
Qed.
End Geo.
