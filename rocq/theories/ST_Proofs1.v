(** Arrays: reshaping, and the two ways of subscripting a matrix *)
From Coq Require Import Reals List Arith ZArith Lia Bool Lra.
From Verif Require Import Base Buffer VH_Model RS_Spec RS_Dft GS_Spec SH_Spec ST_Spec ST_Model.
From Verif Require SH_Model SH_Proofs SH_Proofs3 SH_Props.
Import ListNotations.
Local Open Scope nat_scope.

Lemma nth_tab {X} (f : nat -> X) n d p : p < n -> nth p (map f (seq 0 n)) d = f p.
Proof. intros H. rewrite (nth_indep _ d (f 0)) by (rewrite map_length, seq_length; lia). rewrite map_nth, seq_nth by auto. reflexivity. Qed.
Lemma div_mod_pair q nt k : k < nt -> (q * nt + k) / nt = q /\ (q * nt + k) mod nt = k.
Proof.
  intros H. split.
  - rewrite Nat.add_comm, Nat.div_add, Nat.div_small by lia. reflexivity.
  - rewrite Nat.add_comm, Nat.mod_add, Nat.mod_small by lia. reflexivity.
Qed.
Lemma pair_lt q nt k n : k < nt -> q < n -> q * nt + k < n * nt.
Proof. intros. nia. Qed.

Section Shapes.
Variables nlat nlon : nat.
Lemma sample_restore nt fs extra k i j : k < nt -> i < nlat -> j < nlon ->
  sample nlon nt (elements (restore_grid_shape nlat nlon nt fs extra)) k i j = val2 nlat (nth k fs []) (i + 1) (j + 1).
Proof.
  intros Hk Hi Hj. unfold sample, restore_grid_shape. cbn [elements]. destruct (div_mod_pair (i * nlon + j) nt k Hk) as [E1 E2]. destruct (div_mod_pair i nlon j Hj) as [E3 E4].
  rewrite nth_tab by (apply pair_lt; auto; apply pair_lt; auto). cbv zeta. rewrite E1, E2, E3, E4. unfold val2. f_equal. lia.
Qed.
Lemma field_length nt x k : length (field_of nlat nlon nt x k) = nlat * nlon.
Proof. unfold field_of. rewrite map_length, seq_length. reflexivity. Qed.
Lemma field_sample nt x k i j : i < nlat -> j < nlon -> val2 nlat (field_of nlat nlon nt x k) (i + 1) (j + 1) = sample nlon nt x k i j.
Proof.
  intros Hi Hj. unfold val2, field_of, sample. replace (j + 1 - 1) with j by lia. replace (i + 1 - 1) with i by lia. destruct (div_mod_pair j nlat i Hi) as [E1 E2].
  rewrite nth_tab by (rewrite Nat.mul_comm; rewrite (Nat.mul_comm nlat nlon); rewrite (Nat.mul_comm nlat j); apply pair_lt; auto). rewrite E1, E2. reflexivity.
Qed.
Lemma field_restore nt fs extra k : k < nt -> length (nth k fs []) = nlat * nlon ->
  field_of nlat nlon nt (elements (restore_grid_shape nlat nlon nt fs extra)) k = nth k fs [].
Proof.
  intros Hk L. apply nth_ext with 0%R 0%R; [rewrite field_length; auto|]. intros p Hp. rewrite field_length in Hp.
  assert (N0 : nlat <> 0) by (intros Z; rewrite Z in Hp; lia).
  pose proof (Nat.div_mod p nlat N0) as DM. pose proof (Nat.mod_upper_bound p nlat N0) as MB.
  assert (HJ : p / nlat < nlon) by (apply Nat.div_lt_upper_bound; auto).
  pose proof (field_sample nt (elements (restore_grid_shape nlat nlon nt fs extra)) k (p mod nlat) (p / nlat) MB HJ) as E. rewrite sample_restore in E by auto. unfold val2 in E.
  replace ((p / nlat + 1 - 1) * nlat + (p mod nlat + 1 - 1)) with p in E by lia. exact E.
Qed.
End Shapes.

Lemma column_length nm nt x k : length (column_of nm nt x k) = nm.
Proof. unfold column_of. rewrite map_length, seq_length. reflexivity. Qed.
Lemma column_nth nm nt x k p : p < nm -> nth p (column_of nm nt x k) (0, 0)%R = nth (p * nt + k) x (0, 0)%R.
Proof. intros H. unfold column_of. rewrite nth_tab by auto. reflexivity. Qed.
Lemma restore_spectral nm nt cs extra k p : k < nt -> p < nm ->
  nth (p * nt + k) (elements (restore_spectral_shape nm nt cs extra)) (0, 0)%R = nth p (nth k cs []) (0, 0)%R.
Proof.
  intros Hk Hp. unfold restore_spectral_shape. cbn [elements]. destruct (div_mod_pair p nt k Hk) as [E1 E2]. rewrite nth_tab by (apply pair_lt; auto). rewrite E1, E2. reflexivity.
Qed.

(** SH_Model subscripts a matrix by integers *)
Lemma rd2_val nlat (a : list R) m n v : SH_Model.rd2 (Z.of_nat nlat) a (Z.of_nat m + 1) (Z.of_nat n + 1) = Some v -> val2 nlat a (m + 1) (n + 1) = v.
Proof.
  unfold SH_Model.rd2, SH_Model.rdz. destruct (SH_Model.in2 _ _ _); [|discriminate]. destruct (Z.ltb_spec ((Z.of_nat n + 1 - 1) * Z.of_nat nlat + (Z.of_nat m + 1)) 1); [discriminate|]. intros E.
  replace (Z.to_nat ((Z.of_nat n + 1 - 1) * Z.of_nat nlat + (Z.of_nat m + 1))) with (S (n * nlat + m)) in E.
  - unfold val2. replace ((n + 1 - 1) * nlat + (m + 1 - 1)) with (n * nlat + m) by lia. unfold rd in E. apply nth_error_nth. cbn in E. try rewrite Nat.sub_0_r in E. exact E.
  - replace ((Z.of_nat n + 1 - 1) * Z.of_nat nlat + (Z.of_nat m + 1))%Z with (Z.of_nat (S (n * nlat + m))) by (rewrite Nat2Z.inj_succ, Nat2Z.inj_add, Nat2Z.inj_mul; lia). rewrite Nat2Z.id. reflexivity.
Qed.
Lemma rd2_in nlat (a : list R) m n : length a = nlat * nlat -> m < nlat -> n < nlat -> SH_Model.rd2 (Z.of_nat nlat) a (Z.of_nat m + 1) (Z.of_nat n + 1) = Some (val2 nlat a (m + 1) (n + 1)).
Proof.
  intros L Hm Hn. destruct (SH_Model.rd2 (Z.of_nat nlat) a (Z.of_nat m + 1) (Z.of_nat n + 1)) as [v|] eqn:E; [f_equal; symmetry; apply rd2_val; exact E|]. exfalso. revert E.
  unfold SH_Model.rd2, SH_Model.in2, SH_Model.rdz.
  replace ((1 <=? Z.of_nat m + 1) && (Z.of_nat m + 1 <=? Z.of_nat nlat) && (1 <=? Z.of_nat n + 1) && (Z.of_nat n + 1 <=? Z.of_nat nlat))%Z%bool with true.
  - destruct (Z.ltb_spec ((Z.of_nat n + 1 - 1) * Z.of_nat nlat + (Z.of_nat m + 1)) 1); [nia|].
    replace ((Z.of_nat n + 1 - 1) * Z.of_nat nlat + (Z.of_nat m + 1))%Z with (Z.of_nat (S (n * nlat + m))) by (rewrite Nat2Z.inj_succ, Nat2Z.inj_add, Nat2Z.inj_mul; lia). rewrite Nat2Z.id.
    unfold rd. cbn. try rewrite Nat.sub_0_r. intros E. apply nth_error_None in E. assert (n * nlat + m < nlat * nlat) by (apply pair_lt; auto). lia.
  - symmetry. rewrite !andb_true_iff, !Z.leb_le. lia.
Qed.

(** Matrix from spectrum and back *)
Section Spectrum.
Variables nlat N : nat.
Hypothesis HN : N < nlat.
Hypothesis HT : (Z.of_nat (tri N) < 2 ^ 31)%Z.
Definition at_ (c : list (R * R)) (m n : nat) : R * R := nth (index N m n) c (0, 0)%R.
Lemma unfold_spectrum (c : list (R * R)) : length c = tri N -> exists a b, SH_Model.onedtotwod SH_Model.RR (Z.of_nat nlat) c = Some (a, b) /\
  length a = nlat * nlat /\ length b = nlat * nlat /\
  forall m n, m < nlat -> n < nlat ->
    val2 nlat a (m + 1) (n + 1) = (if andb (m <=? n) (n <=? N) then 2 * fst (at_ c m n) else 0)%R /\
    val2 nlat b (m + 1) (n + 1) = (if andb (m <=? n) (n <=? N) then 2 * snd (at_ c m n) else 0)%R.
Proof.
  intros L. destruct (SH_Props.C52_onedtotwod SH_Model.RR N (Z.of_nat nlat) c) as (a & b & E & LA & LB & MA & MB); [split; auto|lia|]. rewrite Nat2Z.id in LA, LB.
  exists a, b. split; [exact E|]. split; [exact LA|]. split; [exact LB|]. intros m n Hm Hn. destruct MA as [MA1 MA2], MB as [MB1 MB2].
  destruct (andb (m <=? n) (n <=? N)) eqn:B.
  - apply andb_true_iff in B. destruct B as [B1 B2]. apply Nat.leb_le in B1, B2. assert (NE : nth_error c (index N m n) = Some (at_ c m n)) by (apply nth_error_nth'; rewrite L; apply SH_Proofs.index_lt; lia).
    specialize (MA1 m n _ ltac:(lia) NE). specialize (MB1 m n _ ltac:(lia) NE). split; apply rd2_val; assumption.
  - apply andb_false_iff in B. rewrite !Nat.leb_gt in B. specialize (MA2 (Z.of_nat m + 1)%Z (Z.of_nat n + 1)%Z ltac:(lia) ltac:(lia) ltac:(lia)). specialize (MB2 (Z.of_nat m + 1)%Z (Z.of_nat n + 1)%Z ltac:(lia) ltac:(lia) ltac:(lia)). split; apply rd2_val; assumption.
Qed.
Lemma fold_spectrum (a b : list R) : length a = nlat * nlat -> length b = nlat * nlat ->
  exists c, SH_Model.twodtooned SH_Model.RR (Z.of_nat nlat) (Z.of_nat N) a b = Some c /\ length c = tri N /\
    forall m n, m <= n <= N -> at_ c m n = (1 / 2 * val2 nlat a (m + 1) (n + 1), 1 / 2 * val2 nlat b (m + 1) (n + 1))%R.
Proof.
  intros LA LB. eexists. split; [apply SH_Proofs3.twodtooned_result; [red; rewrite Nat2Z.id; exact LA|red; rewrite Nat2Z.id; exact LB|lia]|].
  split; [rewrite map_length; apply SH_Proofs.pairs_length|]. intros m n Hmn. unfold at_. apply nth_error_nth. rewrite nth_error_map, (SH_Proofs.nth_pairs N m n Hmn). cbn [option_map fst snd].
  unfold SH_Proofs3.get2. rewrite !rd2_in by (auto; lia). reflexivity.
Qed.
End Spectrum.
