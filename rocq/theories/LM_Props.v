(** Gap filling (C30). *)
From Verif Require Import Base Buffer Loops VH_Model IS_Proofs2 LM_Model LM_Spec LM_Proofs LM_Proofs2 LM_Proofs3.
Local Open Scope nat_scope.

(** the general routine: every position is what the rules say; [all_filled]
    determines the result *)
Theorem linmsg_values l m mflag mptcrt :
  exists out, dlinmsg l m mflag mptcrt = Some out /\ all_filled (mflag <? 0)%Z (Z.abs mptcrt) l m out.
Proof. apply dlinmsg_ok. Qed.
Theorem linmsg_values_unique ends limit l m out out' : all_filled ends limit l m out -> all_filled ends limit l m out' -> out = out'.
Proof.
  intros [L F] [L' F']. apply rd_ext_all. intros i. destruct (rd out i) as [v|] eqn:E, (rd out' i) as [v'|] eqn:E'; auto.
  - apply rd_Some_bounds in E as B. rewrite rd_nth in E, E' by lia. f_equal. eapply filled_unique; eauto.
  - apply rd_Some_bounds in E as B. destruct (rd_Some out' (i := i)) as [w Ew]; [lia|congruence].
  - apply rd_Some_bounds in E' as B. destruct (rd_Some out (i := i)) as [w Ew]; [lia|congruence].
Qed.
(** the short-gap routine of rcm2rgrid is the general one with mflag 0, mptcrt 2 *)
Theorem linmsg_short_gaps_equal l m : dlinmsg_interior_short_gaps l m = dlinmsg l m 0 2.
Proof.
  destruct (short_ok l m) as [o [E F]]. destruct (dlinmsg_ok l m 0 2) as [o' [E' F']]. rewrite E, E'. f_equal. eapply linmsg_values_unique; eauto.
Qed.
(** valid values are not changed *)
Theorem linmsg_valid_unchanged l m mflag mptcrt out k v :
  dlinmsg l m mflag mptcrt = Some out -> nth_error l k = Some v -> v <> m -> nth_error out k = Some v.
Proof.
  intros E H N. destruct (linmsg_values l m mflag mptcrt) as [o [E' [L F]]]. rewrite E in E'. injection E' as <-.
  destruct (nth_error out k) as [w|] eqn:W.
  - f_equal. eapply filled_unique; [apply F; eauto|]. apply f_valid; auto.
  - apply nth_error_None in W. rewrite L in W. apply nth_error_None in W. congruence.
Qed.
(** a filled interior value lies between the two values around its gap *)
Theorem linmsg_interior_between l m mflag mptcrt out a b k u v :
  dlinmsg l m mflag mptcrt = Some out -> gap l m a b -> a <= k < b -> 0 < a -> nth_error l (a - 1) = Some u -> nth_error l b = Some v ->
  (Z.of_nat (b - a) <= Z.abs mptcrt)%Z ->
  exists w, nth_error out k = Some w /\ ((u <= w)%Qc /\ (w <= v)%Qc \/ (v <= w)%Qc /\ (w <= u)%Qc).
Proof.
  intros E G Hk Ha U V Z. destruct (linmsg_values l m mflag mptcrt) as [o [E' [L F]]]. rewrite E in E'. injection E' as <-.
  destruct (nth_error out k) as [w|] eqn:W; [|apply nth_error_None in W; pose proof (proj1 G); lia].
  exists w. split; auto. rewrite (filled_unique _ _ _ _ _ _ _ (F k w W) (f_line _ _ _ _ _ a b u v G Hk Ha U V Z)). unfold on_line.
  set (p := qz (Z.of_nat k - Z.of_nat (a - 1))). set (q := qz (Z.of_nat b - Z.of_nat (a - 1))).
  assert (Hp : (0 < p)%Qc). { unfold p. rewrite <- qz_0. apply qz_lt. lia. } assert (Hpq : (p < q)%Qc). { apply qz_lt. lia. }
  set (r := (p / q)%Qc). assert (Hq : (0 < q)%Qc) by qclra.
  assert (R0 : (0 <= r)%Qc). { apply Qcmul_nonneg; [qclra|]. apply Qclt_le_weak, Qcinv_pos; auto. }
  assert (R1 : (0 <= 1 - r)%Qc). { replace (1 - r)%Qc with ((q - p) * / q)%Qc by (unfold r; field; apply Qcpos_neq; auto). apply Qcmul_nonneg; [qclra|]. apply Qclt_le_weak, Qcinv_pos; auto. }
  clearbody r. destruct (Qclt_le_dec v u) as [C|C]; [right|left].
  - assert (X1 : (0 <= (u - v) * r)%Qc) by (apply Qcmul_nonneg; qclra). assert (X2 : (0 <= (u - v) * (1 - r))%Qc) by (apply Qcmul_nonneg; qclra).
    replace (u + (v - u) * r)%Qc with (u - (u - v) * r)%Qc by ring. replace ((u - v) * (1 - r))%Qc with ((u - v) - (u - v) * r)%Qc in X2 by ring. set (y := ((u - v) * r)%Qc) in *. clearbody y. split; qclra.
  - assert (X1 : (0 <= (v - u) * r)%Qc) by (apply Qcmul_nonneg; qclra). assert (X2 : (0 <= (v - u) * (1 - r))%Qc) by (apply Qcmul_nonneg; qclra).
    replace ((v - u) * (1 - r))%Qc with ((v - u) - (v - u) * r)%Qc in X2 by ring. set (y := ((v - u) * r)%Qc) in *. clearbody y. split; qclra.
Qed.
(** interior gaps longer than the limit stay missing *)
Theorem linmsg_long_gap_kept l m mflag mptcrt out a b k :
  dlinmsg l m mflag mptcrt = Some out -> gap l m a b -> a <= k < b -> b < length l -> (Z.abs mptcrt < Z.of_nat (b - a))%Z -> nth_error out k = Some m.
Proof.
  intros E G Hk Hb Z. destruct (linmsg_values l m mflag mptcrt) as [o [E' [L F]]]. rewrite E in E'. injection E' as <-.
  destruct (nth_error out k) as [w|] eqn:W; [|apply nth_error_None in W; pose proof (proj1 G); lia].
  f_equal. eapply filled_unique; [apply F; eauto|]. destruct (Nat.eq_dec a 0) as [->|Na].
  - destruct (nth_error l b) as [v|] eqn:V; [|apply nth_error_None in V; lia].
    pose proof (f_lead (mflag <? 0)%Z (Z.abs mptcrt) l m k b v G ltac:(lia) V) as X. destruct (Z.leb_spec (Z.of_nat b) (Z.abs mptcrt)); [lia|]. rewrite andb_false_r in X. auto.
  - apply f_long with a b; auto. lia.
Qed.
(** but at the end of the series the limit is not applied: with mflag < 0 a
    trailing gap of any length is filled *)
Theorem linmsg_trailing_limit_refuted : exists l m mptcrt out a k, gap l m a (length l) /\ (Z.abs mptcrt < Z.of_nat (length l - a))%Z /\ a <= k < length l /\
  dlinmsg l m (-1) mptcrt = Some out /\ nth_error out k <> Some m.
Proof.
  exists [qz 5; qz 0; qz 0], (qz 0), 1%Z, [qz 5; qz 5; qz 5], 1, 2. split; [|split; [simpl; lia|split; [simpl; lia|split; [vm_compute; reflexivity|intros E; discriminate E]]]].
  split; [simpl; lia|]. split; [intros k Hk; simpl in Hk; assert (k = 1 \/ k = 2) as [->| ->] by lia; reflexivity|]. split; [|simpl; discriminate].
  right. simpl. intros E. discriminate E.
Qed.

Example linmsg_demo :
  let x := map qz [-9; 10; -9; -9; 16; -9; -9; -9; 7; -9]%Z in
  option_map (map this) (dlinmsg x (qz (-9)) (-1) 2) = Some (map inject_Z [10; 10; 12; 14; 16; -9; -9; -9; 7; 7]%Z) /\
  option_map (map this) (dlinmsg x (qz (-9)) 0 2) = Some (map inject_Z [-9; 10; 12; 14; 16; -9; -9; -9; 7; -9]%Z) /\
  option_map (map this) (dlinmsg_interior_short_gaps x (qz (-9))) = Some (map inject_Z [-9; 10; 12; 14; 16; -9; -9; -9; 7; -9]%Z).
Proof. vm_compute. auto. Qed.
Example linmsg_gaps : let x := map qz [-9; 10; -9; -9; 16; -9; -9; -9; 7; -9]%Z in gap x (qz (-9)) 2 4 /\ gap x (qz (-9)) 5 8.
Proof.
  split.
  - split; [simpl; lia|]. split; [intros k Hk; assert (k = 2 \/ k = 3) as [->| ->] by lia; reflexivity|]. split; [right|]; simpl; intros E; discriminate E.
  - split; [simpl; lia|]. split; [intros k Hk; assert (k = 5 \/ k = 6 \/ k = 7) as [->|[->| ->]] by lia; reflexivity|]. split; [right|]; simpl; intros E; discriminate E.
Qed.

Print Assumptions linmsg_values.
Print Assumptions linmsg_values_unique.
Print Assumptions linmsg_short_gaps_equal.
Print Assumptions linmsg_valid_unchanged.
Print Assumptions linmsg_interior_between.
Print Assumptions linmsg_long_gap_kept.
Print Assumptions linmsg_trailing_limit_refuted.
