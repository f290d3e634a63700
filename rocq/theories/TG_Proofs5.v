From Coq Require Import Qround.
From Verif Require Import Base Buffer Loops VH_Model VH_Proofs LI_Proofs TG_Model TG_Spec TG_Proofs TG_Proofs2 TG_Proofs3 TG_Proofs4.
Local Open Scope nat_scope.

Definition slope_on (flag : bool) (g : list Qc) (init : Qc) (t s : Qc) : Prop :=
  if flag then s = init else forall s', fraction g t s' -> s = s'.
Definition slope_of (flag : bool) (g : list Qc) (init : Qc) (t : Qc) : Qc :=
  if flag then init else match assign_axis false g 0 t 0 with Some r => snd r | None => 0%Qc end.
Lemma slope_of_ok flag g init t : 3 <= length g -> increasing g -> slope_on flag g init t (slope_of flag g init t).
Proof.
  intros L G. unfold slope_on, slope_of. destruct flag; auto. intros s' F.
  destruct (axis_step_ok g L) as [d [D _]]. destruct (assign_ok false g t L G d D) as [mm [so [A [_ B]]]].
  assert (E : assign_axis false g 0 t 0 = assign_axis false g d t 0) by reflexivity. rewrite E, A. cbn [snd]. destruct so as [s|].
  - eapply fraction_fun; eauto.
  - destruct F as [n [a [b [Ra [Rb [X [Y _]]]]]]]. specialize (A 0%Qc). unfold assign_axis in A.
    destruct (scan_ok g t 0%Qc (length g - 1) 1) as [r [Er H]]; try lia. rewrite Er in A. injection A as ->.
    destruct H as [[n' [a' [b' [_ [Ra' [Rb' [A' [B' Er']]]]]]]]|[_ H]].
    + exfalso. injection Er' as Z _. rewrite nint_frac in Z; [|apply Qcdiv_le; qclra|apply Qcdiv_lt; qclra]. destruct (Qcltb _ _) in Z; lia.
    + exfalso. pose proof (rd_Some_bounds _ _ Ra). pose proof (rd_Some_bounds _ _ Rb). apply (H n a b); auto; lia.
Qed.

Section PLACE.
Variables (T : trig) (gx gy : list Qc) (gc mflag nflag : bool) (dx dy ddcrit slpx slpy : Qc) (s0 : grids).
Hypothesis Lx : 3 <= length gx.
Hypothesis Ly : 3 <= length gy.
Hypothesis Gx : increasing gx.
Hypothesis Gy : increasing gy.
Hypothesis Dx : axis_step gx = Some dx.
Hypothesis Dy : axis_step gy = Some dy.
Hypothesis S0 : sized gx gy s0.
Definition fx (o : triple) : Qc := slope_of mflag gx slpx (tx o).
Definition fy (o : triple) : Qc := slope_of nflag gy slpy (ty o).
Definition dist2 (a b : Qc) (o : triple) : Qc := rank_distance T gc o a b (fx o) (fy o).
Definition usable2 (m n : nat) (a b d0 : Qc) (o : triple) : Prop :=
  reached mflag gx (tx o) m /\ reached nflag gy (ty o) n /\ (dist2 a b o < d0)%Qc /\ (dist2 a b o < ddcrit)%Qc.
Definition placed (obs : list triple) (st : grids * (Qc * Qc)) : Prop :=
  sized gx gy (fst st) /\ (mflag = true -> fst (snd st) = slpx) /\ (nflag = true -> snd (snd st) = slpy) /\
  forall m n a b v0 d0, node gx gy m n a b -> at_node gx s0 m n v0 d0 ->
    exists v d, at_node gx (fst st) m n v d /\ best_of (usable2 m n a b d0) (dist2 a b) v0 d0 obs v d.
Lemma place_ok obs st o : placed obs st -> exists st', place T gc mflag nflag gx gy dx dy ddcrit st o = Some st' /\ placed (obs ++ o :: nil) st'.
Proof.
  intros [S [Ix [Iy P]]]. unfold place.
  destruct (assign_ok nflag gy (ty o) Ly Gy dy Dy) as [nn [sy [Ay [Ry Fy]]]]. destruct (assign_ok mflag gx (tx o) Lx Gx dx Dx) as [mm [sx [Axx [Rx Fx]]]].
  rewrite Ay. cbn [bind]. rewrite Axx. cbn [bind fst snd].
  set (px := match sx with Some s => s | None => fst (snd st) end). set (py := match sy with Some s => s | None => snd (snd st) end).
  assert (Ix' : mflag = true -> px = slpx). { intros ->. unfold px. rewrite Fx. auto. }
  assert (Iy' : nflag = true -> py = slpy). { intros ->. unfold py. rewrite Fy. auto. }
  assert (SKIP : (forall m n a b v0 d0, node gx gy m n a b -> at_node gx s0 m n v0 d0 -> usable2 m n a b d0 o -> False) -> placed (obs ++ o :: nil) (fst st, (px, py))).
  { intros NU. split; auto. split; auto. split; auto. intros m n a b v0 d0 N A0. destruct (P m n a b v0 d0 N A0) as [v [d [A B]]]. exists v, d. split; auto.
    apply best_skip; auto. intros U. exfalso. eapply NU; eauto. }
  destruct (Z.leb_spec 1 mm) as [M1|M1]; cbn [andb].
  2: { eexists; split; eauto. apply SKIP. intros m n a b v0 d0 N _ [U _]. pose proof (node_is _ _ _ _ _ _ N) as [H1 H2]. apply Rx in U; auto. lia. }
  destruct (Z.leb_spec mm (Z.of_nat (length gx))) as [M2|M2]; cbn [andb].
  2: { eexists; split; eauto. apply SKIP. intros m n a b v0 d0 N _ [U _]. pose proof (node_is _ _ _ _ _ _ N) as [H1 H2]. apply Rx in U; auto. lia. }
  destruct (Z.leb_spec 1 nn) as [N1|N1]; cbn [andb].
  2: { eexists; split; eauto. apply SKIP. intros m n a b v0 d0 N _ [_ [U _]]. pose proof (node_is _ _ _ _ _ _ N) as [H1 H2]. apply Ry in U; auto. lia. }
  destruct (Z.leb_spec nn (Z.of_nat (length gy))) as [N2|N2]; cbn [andb].
  2: { eexists; split; eauto. apply SKIP. intros m n a b v0 d0 N _ [_ [U _]]. pose proof (node_is _ _ _ _ _ _ N) as [H1 H2]. apply Ry in U; auto. lia. }
  set (m := Z.to_nat mm). set (n := Z.to_nat nn). assert (Hmn : is_node gx gy m n) by (unfold is_node, m, n; lia).
  destruct (node_of gx gy m n Hmn) as [a [b Nab]]. destruct (at_node_ex gx gy s0 m n S0 Hmn) as [v0 [d0 A0]].
  destruct (P m n a b v0 d0 Nab A0) as [v [d [[Ag Ad] B]]]. pose proof Nab as [Ha Hb]. rewrite Ha, Hb. cbn [bind]. fold (pos gx m n). rewrite Ad. cbn [bind].
  assert (Px : px = fx o).
  { unfold fx, slope_of. pose proof (slope_of_ok mflag gx slpx (tx o) Lx Gx) as Q. unfold slope_on, slope_of in Q. destruct mflag; auto.
    destruct sx as [s|]; [symmetry; apply Q; auto|]. exfalso. lia. }
  assert (Py : py = fy o).
  { unfold fy, slope_of. pose proof (slope_of_ok nflag gy slpy (ty o) Ly Gy) as Q. unfold slope_on, slope_of in Q. destruct nflag; auto.
    destruct sy as [s|]; [symmetry; apply Q; auto|]. exfalso. lia. }
  assert (Dd : rank_distance T gc o a b px py = dist2 a b o) by (unfold dist2; rewrite Px, Py; auto). rewrite Dd.
  assert (ONLY : forall m' n' a' b' d', node gx gy m' n' a' b' -> usable2 m' n' a' b' d' o -> m' = m /\ n' = n).
  { intros m' n' a' b' d' N [U1 [U2 _]]. pose proof (node_is _ _ _ _ _ _ N) as [H1 H2]. apply Rx in U1; auto. apply Ry in U2; auto. unfold m, n. lia. }
  assert (Bd : (d <= d0)%Qc). { eapply best_bound; [|exact B]. intros q [_ [_ [U _]]]. exact U. }
  assert (Rm : reached mflag gx (tx o) m /\ reached nflag gy (ty o) n).
  { destruct Hmn as [H1 H2]. split; [apply Rx|apply Ry]; auto; unfold m, n; lia. }
  assert (NOT : ~ ((dist2 a b o < d)%Qc /\ (dist2 a b o < ddcrit)%Qc) -> placed (obs ++ o :: nil) (fst st, (px, py))).
  { intros NU. split; auto. split; auto. split; auto. intros m' n' a' b' v' d' N A'. destruct (P m' n' a' b' v' d' N A') as [w [e [Aw Bw]]]. exists w, e. split; auto.
    apply best_skip; auto. intros U. destruct (ONLY _ _ _ _ _ N U) as [-> ->]. destruct Nab as [X1 X2], N as [X3 X4]. assert (a' = a) by congruence. assert (b' = b) by congruence. subst a' b'.
    assert (d' = d0) by (destruct A' as [_ Y1], A0 as [_ Y2]; congruence). subst d'. assert (e = d) by (destruct Aw as [_ Y1]; congruence). subst e.
    destruct U as [_ [_ [U1 U2]]]. split; auto. apply Qcnot_lt_le. tauto. }
  destruct (Qcltb_spec (dist2 a b o) d) as [L1|L1]; cbn [andb]; [|eexists; split; eauto; apply NOT; tauto].
  destruct (Qcltb_spec (dist2 a b o) ddcrit) as [L2|L2]; [|eexists; split; eauto; apply NOT; tauto].
  destruct (store_ok gx gy (fst st) m n (tz o) (dist2 a b o) S Hmn) as [s' [E [S' [A' K']]]]. rewrite E. cbn [bind]. eexists; split; eauto.
  split; auto. split; auto. split; auto. cbn [fst snd]. intros m' n' a' b' v' d' N A''. destruct (P m' n' a' b' v' d' N A'') as [w [e [Aw Bw]]].
  assert (C : (m' = m /\ n' = n) \/ (m', n') <> (m, n)).
  { destruct (Nat.eq_dec m' m), (Nat.eq_dec n' n); subst; auto; right; congruence. }
  destruct C as [[-> ->]|C].
  - destruct Nab as [X1 X2], N as [X3 X4]. assert (a' = a) by congruence. assert (b' = b) by congruence. subst a' b'.
    assert (d' = d0) by (destruct A'' as [_ Y1], A0 as [_ Y2]; congruence). subst d'. assert (e = d) by (destruct Aw as [_ Y1]; congruence). subst e.
    exists (tz o), (dist2 a b o). split; auto. eapply best_take; [|exact L1|exact Bw]. split; [apply Rm|]. split; [apply Rm|]. split; auto. qclra.
  - exists w, e. split; [apply K'; auto; eapply node_is; eauto|]. apply best_skip; auto. intros U. exfalso. destruct (ONLY _ _ _ _ _ N U) as [-> ->]. apply C; auto.
Qed.
Lemma places_ok obs : exists st, foldM (place T gc mflag nflag gx gy dx dy ddcrit) obs (s0, (slpx, slpy)) = Some st /\ placed obs st.
Proof.
  induction obs as [|o obs IH] using rev_ind.
  - eexists; split; [reflexivity|]. split; auto. split; auto. split; auto. intros m n a b v0 d0 N A. exists v0, d0. split; auto. apply best_nil.
  - destruct IH as [st [E P]]. rewrite foldM_app, E. cbn [bind foldM]. destruct (place_ok obs st o P) as [st' [E' P']]. rewrite E'. cbn [bind]. eauto.
Qed.
End PLACE.

Lemma trip2grd2_ok T obs zmsg gx gy mflag nflag gc ddcrit slpx slpy : axes_ok (mflag && nflag) gx gy ->
  (forall q, (0 <= sq T q)%Qc) -> (forall q, (0 <= ac T q * re T)%Qc) ->
  exists g ier fx fy, trip2grd2_impl T obs zmsg gx gy mflag nflag gc ddcrit slpx slpy = Some (g, ier) /\ length g = length gx * length gy /\
   (forall o, slope_on mflag gx slpx (tx o) (fx o) /\ slope_on nflag gy slpy (ty o) (fy o)) /\
   let all := forall o, In o obs -> exists m n, node gx gy m n (tx o) (ty o) in
   ((all /\ ier = (-1)%Z) \/ (~ all /\ ier = 0%Z)) /\
   forall m n a b, node gx gy m n a b -> exists v, rd g ((n - 1) * length gx + m) = Some v /\
     (last_value (on_node a b) obs v \/
      ((forall o, In o obs -> ~ on_node a b o) /\
       ((all /\ v = Some zmsg) \/
        (~ all /\ let dist := fun o => rank_distance T gc o a b (fx o) (fy o) in
           nearest_value (fun o => reached mflag gx (tx o) m /\ reached nflag gy (ty o) n /\ (dist o < far)%Qc /\ (dist o < ddcrit)%Qc) dist obs (Some zmsg) v)))).
Proof.
  intros Ax Hsq Hac. destruct (axes_exact _ _ _ Ax) as [dx [dy [Ex [Ey [HE _]]]]]. destruct Ax as [Lx [Ly [Gx [Gy _]]]].
  unfold trip2grd2_impl. rewrite Ex, Ey. cbn [bind].
  destruct (prepass_ok gx gy dx dy zmsg (mflag && nflag) Gx Gy HE obs) as [s [c [Ep [S [N [Cl Ci]]]]]]. rewrite Ep. cbn [bind fst snd].
  destruct (Nat.eqb_spec c (length obs)) as [Ec|Ec].
  - do 2 eexists. exists (fx gx mflag slpx), (fy gy nflag slpy). split; [reflexivity|]. split; [apply S|]. split; [intros o; split; apply slope_of_ok; auto|]. cbv zeta.
    pose proof (proj1 Ci Ec) as All. split; [left; auto|].
    intros m n a b H. destruct (N _ _ _ _ H) as [v [d [[A1 _] Hh]]]. exists v. split; auto. destruct Hh as [[L1 _]|[L1 [L2 _]]]; [left; auto|right; split; auto].
  - destruct (places_ok T gx gy gc mflag nflag dx dy ddcrit slpx slpy s Lx Ly Gx Gy Ex Ey S obs) as [st [E [S' [_ [_ P]]]]]. rewrite E. cbn [bind].
    do 2 eexists. exists (fx gx mflag slpx), (fy gy nflag slpy). split; [reflexivity|]. split; [apply S'|]. split; [intros o; split; apply slope_of_ok; auto|]. cbv zeta.
    assert (NA : ~ forall o, In o obs -> exists m n, node gx gy m n (tx o) (ty o)) by (intros F; apply Ec, Ci, F).
    split; [right; auto|]. intros m n a b H. destruct (N _ _ _ _ H) as [v [d [A1 Hh]]]. destruct (P _ _ _ _ _ _ H A1) as [v' [d' [[A2 _] F]]]. exists v'. split; auto.
    destruct Hh as [[L1 L2]|[L1 [L2 L3]]].
    + left. destruct F as [[l1 [o [l2 [_ [[_ [_ [U _]]] _]]]]]|[-> _]]; auto. exfalso. subst d. revert U. apply Qcle_not_lt. unfold dist2, rank_distance. destruct gc; auto.
    + right. split; auto. right. split; auto. apply best_nearest in F. subst v d. exact F.
Qed.

(** the layouts *)
Lemma nth_flat_map_seq (B : Type) (f : nat -> nat -> B) a b : forall p q n, p < n -> q < b -> nth_error (flat_map (fun m => map (f m) (seq 1 b)) (seq a n)) (p * b + q) = Some (f (a + p) (q + 1)).
Proof.
  intros p q n. revert a p. induction n as [|n IH]; intros a p Hp Hq; [lia|]. cbn [seq flat_map]. destruct p as [|p].
  - simpl. rewrite nth_error_app1 by (rewrite map_length, seq_length; lia). rewrite nth_error_map. rewrite (nth_error_nth' _ 0) by (rewrite seq_length; lia).
    rewrite seq_nth by lia. simpl. rewrite Nat.add_0_r, Nat.add_1_r. reflexivity.
  - rewrite nth_error_app2 by (rewrite map_length, seq_length; nia). rewrite map_length, seq_length. replace (Datatypes.S p * b + q - b) with (p * b + q) by nia.
    rewrite IH by lia. f_equal. f_equal. lia.
Qed.
Lemma in_flat_seq (B : Type) (f : nat -> nat -> B) x a n b : In x (flat_map (fun m => map (f m) (seq 1 b)) (seq a n)) -> exists m k, a <= m < a + n /\ 1 <= k <= b /\ x = f m k.
Proof.
  intros H. apply in_flat_map in H. destruct H as [m [I J]]. apply in_seq in I. apply in_map_iff in J. destruct J as [k [E K]]. apply in_seq in K. exists m, k. split; auto. split; [lia|auto].
Qed.
Lemma flat_map_len (B : Type) (f : nat -> nat -> B) b : forall n a, length (flat_map (fun m => map (f m) (seq 1 b)) (seq a n)) = n * b.
Proof. induction n as [|n IH]; intros a; cbn [seq flat_map]; auto. rewrite app_length, map_length, seq_length, IH. lia. Qed.
Lemma c_flatten_ok mx ny g : length g = mx * ny -> exists r, c_flatten mx ny g = Some r /\ length r = mx * ny /\
  forall m n, m < mx -> n < ny -> nth_error r (m * ny + n) = rd g (n * mx + (m + 1)).
Proof.
  intros L. unfold c_flatten. destruct (mapM_some _ _ (fun p => rd g ((snd p - 1) * mx + fst p)) (flat_map (fun m => map (fun n => (m, n)) (seq 1 ny)) (seq 1 mx))) as [r E].
  { intros x I. apply in_flat_seq in I. destruct I as [m [k [A [B ->]]]]. cbn [fst snd]. apply rd_Some. rewrite L. nia. }
  exists r. split; auto. split; [rewrite (mapM_length _ _ _ _ _ E), flat_map_len; lia|]. intros m n Hm Hn.
  destruct (mapM_nth _ _ _ _ _ (m * ny + n) (1 + m, n + 1) E) as [y [E1 E2]].
  { apply (nth_flat_map_seq _ (fun m n => (m, n))); auto. }
  rewrite E2. cbn [fst snd] in E1. rewrite <- E1. f_equal. lia.
Qed.
Lemma interior_ok mx ny g : length g = (mx + 2) * (ny + 2) -> exists r, interior mx ny g = Some r /\ length r = mx * ny /\
  forall m n, 1 <= m <= mx -> 1 <= n <= ny -> rd r ((n - 1) * mx + m) = rd g (n * (mx + 2) + m + 1).
Proof.
  intros L. unfold interior. destruct (mapM_some _ _ (fun p => rd g (snd p * (mx + 2) + fst p + 1)) (flat_map (fun n => map (fun m => (m, n)) (seq 1 mx)) (seq 1 ny))) as [r E].
  { intros x I. apply (in_flat_seq _ (fun n m => (m, n))) in I. destruct I as [m [k [A [B ->]]]]. cbn [fst snd]. apply rd_Some. rewrite L. nia. }
  exists r. split; auto. split; [rewrite (mapM_length _ _ _ _ _ E), (flat_map_len _ (fun n m => (m, n))); lia|]. intros m n Hm Hn.
  destruct (mapM_nth _ _ _ _ _ ((n - 1) * mx + (m - 1)) (m, n) E) as [y [E1 E2]].
  { rewrite (nth_flat_map_seq _ (fun n m => (m, n))); [|lia|lia]. f_equal. f_equal; lia. }
  replace ((n - 1) * mx + m) with (Datatypes.S ((n - 1) * mx + (m - 1))) by lia. cbn [rd]. rewrite E2. auto.
Qed.
