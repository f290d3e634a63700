(** The wrappers: fields side by side, codes and shapes *)
From Coq Require Import Reals List Arith ZArith Lia Bool Lra.
From Verif Require Import Base Buffer VH_Model RS_Spec RS_Dft FF_Model GS_Spec GS_Model GS_Proofs3 GS_Props LG_Spec LG_Props SH_Spec ST_Spec ST_Model ST_Proofs1 ST_Proofs2.
From Verif Require SH_Model SH_Proofs SH_Proofs3 SH_Props.
Import ListNotations.
Local Open Scope nat_scope.

Lemma mapM_tab {X Y} (f : X -> option Y) (dx : X) (dy : Y) (P : nat -> Y -> Prop) : forall l, (forall k, k < length l -> exists y, f (nth k l dx) = Some y /\ P k y) ->
  exists ys, mapM f l = Some ys /\ length ys = length l /\ forall k, k < length l -> f (nth k l dx) = Some (nth k ys dy) /\ P k (nth k ys dy).
Proof.
  intros l. revert P. induction l as [|x l IH]; intros P H.
  - exists []. split; [reflexivity|]. split; [reflexivity|]. cbn. intros; lia.
  - destruct (H 0 ltac:(cbn; lia)) as (y & E & HP). cbn [nth] in E. destruct (IH (fun k => P (S k))) as (ys & ES & LS & V).
    + intros k Hk. apply (H (S k)). cbn. lia.
    + exists (y :: ys). cbn [mapM]. rewrite E. cbn [bind]. rewrite ES. cbn [bind]. split; [reflexivity|]. split; [cbn; lia|]. intros [|k] Hk; cbn [nth]; [auto|]. apply V. cbn in Hk. lia.
Qed.
Lemma combine_seq {X} (l : list X) dx k : k < length l -> nth k (combine (seq 0 (length l)) l) (0, dx) = (k, nth k l dx).
Proof. intros H. rewrite combine_nth by (rewrite seq_length; reflexivity). rewrite seq_nth by auto. reflexivity. Qed.

Section Wrap.
Variables nlat nlon : nat.
Hypothesis H1 : 3 <= nlat.
Hypothesis H2 : 4 <= nlon.
Variable s : saved.
Variables (d : R) (row : list R).

Lemma code nt : checks (Z.of_nat nlat) (Z.of_nat nlon) 0 (Z.of_nat nt) (Z.of_nat nlat) (Z.of_nat nlon) (Z.of_nat nlat) (Z.of_nat nlat)
              (py_lshags (Z.of_nat nlat) (Z.of_nat nlon)) (py_lwork (Z.of_nat nlat) (Z.of_nat nlon) (Z.of_nat nt)) = (if Nat.eqb nt 0 then 4 else 0)%Z.
Proof.
  destruct (Nat.eqb_spec nt 0) as [->|NZ]; [|apply C95_python; lia].
  unfold checks. cbv zeta. destruct (Z.ltb_spec (Z.of_nat nlat) 3); [lia|]. destruct (Z.ltb_spec (Z.of_nat nlon) 4); [lia|]. reflexivity.
Qed.
Lemma safe_code {X} nt (o : outcome X) : safely (checks (Z.of_nat nlat) (Z.of_nat nlon) 0 (Z.of_nat nt) (Z.of_nat nlat) (Z.of_nat nlon) (Z.of_nat nlat) (Z.of_nat nlat)
              (py_lshags (Z.of_nat nlat) (Z.of_nat nlon)) (py_lwork (Z.of_nat nlat) (Z.of_nat nlon) (Z.of_nat nt))) o = if nt =? 0 then Failed 4%Z else o.
Proof. rewrite code. destruct (nt =? 0); reflexivity. Qed.

Lemma spectogrd_run fresh x nm extra t (P : nat -> list R -> Prop) : shape x = nm :: extra ->
  SH_Model.validate_spectral_data (Z.of_nat nlat) (Z.of_nat nm) = Some t ->
  (forall k, k < total extra -> exists a b g, SH_Model.onedtotwod SH_Model.RR (Z.of_nat nlat) (column_of nm (total extra) (elements x) k) = Some (a, b) /\
     shsgs1 nlat nlon 0 d row nlat nlon nlat nlat a b (s_pmn s) (s_wfft s) (fresh k) = Some g /\ P k g) ->
  (total extra = 0 -> spectogrd nlat nlon s d row fresh x = Failed 4%Z) /\
  (total extra <> 0 -> exists fs, spectogrd nlat nlon s d row fresh x = Done (restore_grid_shape nlat nlon (total extra) fs extra) /\ length fs = total extra /\ forall k, k < total extra -> P k (nth k fs [])).
Proof.
  intros ES EV H. unfold spectogrd, validate_spectral_data. rewrite ES, EV. cbn [after]. set (nt := total extra) in *. set (cols := map (column_of nm nt (elements x)) (seq 0 nt)).
  assert (LC : length cols = nt) by (unfold cols; rewrite map_length, seq_length; reflexivity).
  assert (NC : forall k, k < nt -> nth k cols [] = column_of nm nt (elements x) k) by (intros k Hk; unfold cols; apply nth_tab; auto).
  destruct (@mapM_tab (list (R * R)) (list R * list R) (SH_Model.onedtotwod SH_Model.RR (Z.of_nat nlat)) [] ([], []) (fun k ab => exists g, shsgs1 nlat nlon 0 d row nlat nlon nlat nlat (fst ab) (snd ab) (s_pmn s) (s_wfft s) (fresh k) = Some g /\ P k g) cols) as (abs & EM & LM & VM).
  { intros k Hk. rewrite LC in Hk. destruct (H k Hk) as (a & b & g & E1 & E2 & E3). exists (a, b). rewrite NC by auto. split; [exact E1|]. exists g. auto. }
  rewrite LC in LM, VM. match goal with |- context [run ?o] => replace o with (Some abs) by (symmetry; exact EM) end. cbn [run after]. rewrite !safe_code. split.
  - intros ->. reflexivity.
  - intros NZ. replace (nt =? 0) with false by (symmetry; apply Nat.eqb_neq; auto).
    destruct (mapM_tab (fun kab : nat * (list R * list R) => shsgs1 nlat nlon 0 d row nlat nlon nlat nlat (fst (snd kab)) (snd (snd kab)) (s_pmn s) (s_wfft s) (fresh (fst kab))) (0, ([], [])) [] P (combine (seq 0 nt) abs)) as (fs & EF & LF & VF).
    { intros k Hk. rewrite combine_length, seq_length, LM in Hk. rewrite <- LM, combine_seq by lia. cbn [fst snd]. apply VM. lia. }
    rewrite combine_length, seq_length, LM, Nat.min_id in LF, VF. exists fs. match goal with |- context [run ?o] => replace o with (Some fs) by (symmetry; exact EF) end. cbn [run after]. split; [reflexivity|]. split; [exact LF|]. intros k Hk. apply VF. auto.
Qed.

Lemma grdtospec_run fresh x extra ntrunc N (P : nat -> list (R * R) -> Prop) : shape x = nlat :: nlon :: extra ->
  SH_Model.validate_ntrunc ntrunc (Z.of_nat nlat - 1) = Some (Z.of_nat N) ->
  (forall k, k < total extra -> exists a b c, shags1 nlat nlon 0 d row nlat nlon nlat nlat (field_of nlat nlon (total extra) (elements x) k) (s_wts s) (s_pmn s) (s_wfft s) (fst (fresh k)) (snd (fresh k)) = Some (a, b) /\
     SH_Model.twodtooned SH_Model.RR (Z.of_nat nlat) (Z.of_nat N) a b = Some c /\ P k c) ->
  (total extra = 0 -> grdtospec nlat nlon s d row fresh x ntrunc = Failed 4%Z) /\
  (total extra <> 0 -> exists cs, grdtospec nlat nlon s d row fresh x ntrunc = Done (restore_spectral_shape (tri N) (total extra) cs extra) /\ length cs = total extra /\ forall k, k < total extra -> P k (nth k cs [])).
Proof.
  intros ES EV H. unfold grdtospec, validate_grid_data. rewrite ES, !Nat.eqb_refl. cbn [negb orb after]. rewrite EV, safe_code. set (nt := total extra) in *. split; [intros ->; reflexivity|]. intros NZ.
  replace (nt =? 0) with false by (symmetry; apply Nat.eqb_neq; auto). set (fields := map (field_of nlat nlon nt (elements x)) (seq 0 nt)).
  assert (LC : length fields = nt) by (unfold fields; rewrite map_length, seq_length; reflexivity).
  assert (NC : forall k, k < nt -> nth k fields [] = field_of nlat nlon nt (elements x) k) by (intros k Hk; unfold fields; apply nth_tab; auto).
  destruct (mapM_tab (fun kf : nat * list R => shags1 nlat nlon 0 d row nlat nlon nlat nlat (snd kf) (s_wts s) (s_pmn s) (s_wfft s) (fst (fresh (fst kf))) (snd (fresh (fst kf)))) (0, []) ([], [])
     (fun k ab => exists c, SH_Model.twodtooned SH_Model.RR (Z.of_nat nlat) (Z.of_nat N) (fst ab) (snd ab) = Some c /\ P k c) (combine (seq 0 nt) fields)) as (abs & EM & LM & VM).
  { intros k Hk. rewrite combine_length, seq_length, LC in Hk. rewrite <- LC, combine_seq by lia. cbn [fst snd]. rewrite NC by lia. destruct (H k ltac:(lia)) as (a & b & c & E1 & E2 & E3). exists (a, b). split; [exact E1|]. exists c. auto. }
  rewrite combine_length, seq_length, LC, Nat.min_id in LM, VM. rewrite EM. cbn [run after].
  destruct (@mapM_tab (list R * list R) (list (R * R)) (fun ab : list R * list R => SH_Model.twodtooned SH_Model.RR (Z.of_nat nlat) (Z.of_nat N) (fst ab) (snd ab)) ([], []) [] P abs) as (cs & EC & LCS & VC).
  { intros k Hk. apply VM. lia. }
  match goal with |- context [run ?o] => replace o with (Some cs) by (symmetry; exact EC) end. cbn [run after]. exists cs. rewrite SH_Proofs3.nmdim_tri. split; [reflexivity|]. split; [lia|]. intros k Hk. apply VC. lia.
Qed.
End Wrap.

Lemma valid_spectrum nlat N : N < nlat -> (Z.of_nat (tri N) < 2 ^ 31)%Z -> SH_Model.validate_spectral_data (Z.of_nat nlat) (Z.of_nat (tri N)) = Some (Z.of_nat N).
Proof.
  intros HN HT. unfold SH_Model.validate_spectral_data. rewrite <- SH_Proofs3.nmdim_tri_Z. rewrite (proj2 (SH_Props.C52_truncation_rounded (Z.of_nat N) ltac:(lia) ltac:(rewrite SH_Proofs3.nmdim_tri_Z; exact HT))).
  destruct (Z.ltb_spec (Z.of_nat nlat - 1) (Z.of_nat N)); [lia|reflexivity].
Qed.
(** the truncation a call to grdtospec uses *)
Definition truncation (nlat : nat) (ntrunc : option Z) (N : nat) : Prop :=
  match ntrunc with None => N = nlat - 1 | Some n => n = Z.of_nat N end /\ N < nlat.
Lemma valid_truncation nlat ntrunc N : 1 <= nlat -> truncation nlat ntrunc N -> SH_Model.validate_ntrunc ntrunc (Z.of_nat nlat - 1) = Some (Z.of_nat N).
Proof.
  intros H1 [H HN]. unfold SH_Model.validate_ntrunc. destruct ntrunc as [n|].
  - subst n. destruct (Z.ltb_spec (Z.of_nat N) 0); [lia|]. destruct (Z.ltb_spec (Z.of_nat nlat - 1) (Z.of_nat N)); [lia|]. reflexivity.
  - f_equal. lia.
Qed.

Section Calls.
Variables nlat nlon : nat.
Variable th : nat -> R.
Variable s : saved.
Hypothesis H1 : 3 <= nlat.
Hypothesis H2 : 4 <= nlon.
Hypothesis HS : symmetric_colatitudes nlat th.
Hypothesis HP : prepared nlat nlon th s.
Variables (d : R) (row : list R).
Hypothesis LR : length row = nlon.

Lemma column_at N nt x k m n : m <= n <= N -> at_ N (column_of (tri N) nt x k) m n = coefficient N nt x k m n.
Proof. intros H. unfold at_, coefficient. apply column_nth. apply SH_Proofs.index_lt. auto. Qed.
Lemma expansion_ext N M c c' t x : M <= N -> (forall m n, m <= n <= N -> c m n = c' m n) -> expansion N M c t x = expansion N M c' t x.
Proof.
  intros HM H. unfold expansion. f_equal.
  - apply sumR_ext. intros n Hn. rewrite H by lia. reflexivity.
  - f_equal. apply sumR_ext. intros q Hq. cbv zeta. apply sumR_ext. intros r Hr. rewrite H by lia. reflexivity.
Qed.

Lemma spectogrd_ok N fresh x extra : N < nlat -> (Z.of_nat (tri N) < 2 ^ 31)%Z -> shape x = tri N :: extra -> total extra <> 0 ->
  (forall k, k < total extra -> length (fresh k) = nlat * nlon) ->
  exists fs, spectogrd nlat nlon s d row fresh x = Done (restore_grid_shape nlat nlon (total extra) fs extra) /\ length fs = total extra /\
    forall k, k < total extra -> length (nth k fs []) = nlat * nlon /\
      (exists a b, (forall m n, m < nlat -> n < nlat ->
          val2 nlat a (m + 1) (n + 1) = (if andb (m <=? n) (n <=? N) then 2 * fst (coefficient N (total extra) (elements x) k m n) else 0)%R /\
          val2 nlat b (m + 1) (n + 1) = (if andb (m <=? n) (n <=? N) then 2 * snd (coefficient N (total extra) (elements x) k m n) else 0)%R) /\
        length a = nlat * nlat /\ length b = nlat * nlat /\
        shsgs1 nlat nlon 0 d row nlat nlon nlat nlat a b (s_pmn s) (s_wfft s) (fresh k) = Some (nth k fs [])) /\
      forall i j, i < nlat -> j < nlon -> val2 nlat (nth k fs []) (i + 1) (j + 1) = expansion N (Nat.min N (lmax nlat nlon - 1)) (coefficient N (total extra) (elements x) k) (th (i + 1)) (longitude nlon j).
Proof.
  intros HN HT ES NZ LF.
  destruct (spectogrd_run nlat nlon H1 H2 s d row fresh x (tri N) extra (Z.of_nat N)
    (fun k g => length g = nlat * nlon /\
      (exists a b, (forall m n, m < nlat -> n < nlat ->
          val2 nlat a (m + 1) (n + 1) = (if andb (m <=? n) (n <=? N) then 2 * fst (coefficient N (total extra) (elements x) k m n) else 0)%R /\
          val2 nlat b (m + 1) (n + 1) = (if andb (m <=? n) (n <=? N) then 2 * snd (coefficient N (total extra) (elements x) k m n) else 0)%R) /\
        length a = nlat * nlat /\ length b = nlat * nlat /\
        shsgs1 nlat nlon 0 d row nlat nlon nlat nlat a b (s_pmn s) (s_wfft s) (fresh k) = Some g) /\
      forall i j, i < nlat -> j < nlon -> val2 nlat g (i + 1) (j + 1) = expansion N (Nat.min N (lmax nlat nlon - 1)) (coefficient N (total extra) (elements x) k) (th (i + 1)) (longitude nlon j)) ES (valid_spectrum nlat N HN HT)) as [_ R]; [|destruct (R NZ) as (fs & E & L & V); exists fs; auto].
  intros k Hk. destruct (unfold_spectrum nlat N HN HT (column_of (tri N) (total extra) (elements x) k) (column_length _ _ _ _)) as (a & b & E & LA & LB & V).
  destruct (synthesis_field nlat nlon N th s ltac:(lia) ltac:(lia) HS HP d row LR HN (column_of (tri N) (total extra) (elements x) k) a b LA LB V (fresh k) (LF k Hk)) as (g & EG & LG & VG).
  exists a, b, g. split; [exact E|]. split; [exact EG|]. split; [exact LG|]. split.
  - exists a, b. split; [|auto]. intros m n Hm Hn. destruct (V m n Hm Hn) as [-> ->]. destruct (andb (m <=? n) (n <=? N)) eqn:B; [|auto]. apply andb_true_iff in B. rewrite !Nat.leb_le in B. rewrite column_at by auto. auto.
  - intros i j Hi Hj. rewrite VG by auto. apply expansion_ext; [lia|]. intros m n Hmn. apply column_at. auto.
Qed.

Lemma grdtospec_ok N ntrunc fresh x extra : truncation nlat ntrunc N -> shape x = nlat :: nlon :: extra -> total extra <> 0 -> symmetric_weights nlat (s_wts s) ->
  (forall k, k < total extra -> length (fst (fresh k)) = nlat * nlat /\ length (snd (fresh k)) = nlat * nlat) ->
  exists cs, grdtospec nlat nlon s d row fresh x ntrunc = Done (restore_spectral_shape (tri N) (total extra) cs extra) /\ length cs = total extra /\
    forall k, k < total extra -> length (nth k cs []) = tri N /\
      (exists a b, shags1 nlat nlon 0 d row nlat nlon nlat nlat (field_of nlat nlon (total extra) (elements x) k) (s_wts s) (s_pmn s) (s_wfft s) (fst (fresh k)) (snd (fresh k)) = Some (a, b) /\
         forall m n, m <= n <= N -> at_ N (nth k cs []) m n = (1 / 2 * val2 nlat a (m + 1) (n + 1), 1 / 2 * val2 nlat b (m + 1) (n + 1))%R) /\
      forall m n, m <= n <= N -> at_ N (nth k cs []) m n =
        if m <? lmax nlat nlon then projection nlat nlon (fun i => nth i (s_wts s) 0%R) (fun i => th (S i)) (sample nlon (total extra) (elements x) k) m n
        else (1 / 2 * val2 nlat (fst (fresh k)) (m + 1) (n + 1), 1 / 2 * val2 nlat (snd (fresh k)) (m + 1) (n + 1))%R.
Proof.
  intros HT ES NZ SW LF. pose proof (proj2 HT) as HN.
  destruct (grdtospec_run nlat nlon H1 H2 s d row fresh x extra ntrunc N
    (fun k c => length c = tri N /\
      (exists a b, shags1 nlat nlon 0 d row nlat nlon nlat nlat (field_of nlat nlon (total extra) (elements x) k) (s_wts s) (s_pmn s) (s_wfft s) (fst (fresh k)) (snd (fresh k)) = Some (a, b) /\
         forall m n, m <= n <= N -> at_ N c m n = (1 / 2 * val2 nlat a (m + 1) (n + 1), 1 / 2 * val2 nlat b (m + 1) (n + 1))%R) /\
      forall m n, m <= n <= N -> at_ N c m n =
        if m <? lmax nlat nlon then projection nlat nlon (fun i => nth i (s_wts s) 0%R) (fun i => th (S i)) (sample nlon (total extra) (elements x) k) m n
        else (1 / 2 * val2 nlat (fst (fresh k)) (m + 1) (n + 1), 1 / 2 * val2 nlat (snd (fresh k)) (m + 1) (n + 1))%R) ES (valid_truncation nlat ntrunc N ltac:(lia) HT)) as [_ R]; [|destruct (R NZ) as (cs & E & L & V); exists cs; auto].
  intros k Hk. destruct (LF k Hk) as [LA LB].
  destruct (analysis_field nlat nlon th s ltac:(lia) ltac:(lia) HS HP d row LR (field_of nlat nlon (total extra) (elements x) k) (fst (fresh k)) (snd (fresh k)) (field_length _ _ _ _ _) LA LB SW) as (a & b & E & La & Lb & V & J).
  destruct (fold_spectrum nlat N HN a b La Lb) as (c & EC & LC & VC). exists a, b, c. split; [exact E|]. split; [exact EC|]. split; [exact LC|]. split; [exists a, b; auto|].
  intros m n Hmn. rewrite VC by auto. destruct (Nat.ltb_spec m (lmax nlat nlon)).
  - rewrite V by lia. unfold projection. cbv zeta.
    assert (EX : forall f, sumR nlat (fun i => nth i (s_wts s) 0 * Pbar m n (th (S i)) * (sumR nlon (fun j => val2 nlat (field_of nlat nlon (total extra) (elements x) k) (i + 1) (j + 1) * f (INR m * longitude nlon j)) / INR nlon))%R
      = sumR nlat (fun i => nth i (s_wts s) 0 * Pbar m n (th (S i)) * (sumR nlon (fun j => sample nlon (total extra) (elements x) k i j * f (INR m * longitude nlon j)) / INR nlon))%R).
    { intros f. apply sumR_ext. intros i Hi. f_equal. f_equal. apply sumR_ext. intros j Hj. rewrite field_sample by auto. reflexivity. }
    rewrite !EX. reflexivity.
  - destruct (J m n ltac:(lia) ltac:(lia)) as [-> ->]. reflexivity.
Qed.
End Calls.
