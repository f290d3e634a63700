From Coq Require Import Lia Arith.
From Verif Require Import Base GR_Model GR_Spec.
Local Open Scope nat_scope.

Section Ix.
Variables (s : list nat) (ax : nat).
Notation O := (outer s ax). Notation n := (len s ax). Notation I := (inner s ax).

Lemma pos_bound o i k : o < O -> i < n -> k < I -> (o * n + i) * I + k < O * n * I.
Proof. intros. assert (o * n + i < O * n) by nia. nia. Qed.
Lemma pos_div o i k : k < I -> ((o * n + i) * I + k) / I = o * n + i.
Proof. intro H. rewrite Nat.div_add_l by lia. rewrite Nat.div_small by exact H. lia. Qed.
Lemma pos_mod o i k : k < I -> ((o * n + i) * I + k) mod I = k.
Proof. intro H. rewrite Nat.add_comm, Nat.mod_add by lia. apply Nat.mod_small. exact H. Qed.

Lemma nth_map_seq {X} (f : nat -> X) m j d : j < m -> nth j (map f (seq 0 m)) d = f j.
Proof.
  intro H. rewrite (nth_indep _ d (f 0)) by (rewrite map_length, seq_length; exact H).
  rewrite (map_nth f), seq_nth by exact H. reflexivity.
Qed.
Lemma entry_set d i v o i' k : o < O -> i' < n -> k < I ->
  entry s ax (set_slab s ax d i v) o i' k = if i' =? i then nth (o * I + k) v q0 else entry s ax d o i' k.
Proof.
  intros Ho Hi Hk. unfold entry, set_slab. rewrite nth_map_seq by (apply pos_bound; assumption).
  rewrite pos_div, pos_mod by exact Hk.
  rewrite (Nat.add_comm (o * n) i'), Nat.mod_add by lia. rewrite Nat.mod_small by exact Hi.
  rewrite Nat.div_add by lia. rewrite (Nat.div_small i' n) by exact Hi. cbn [Nat.add]. reflexivity.
Qed.
Lemma nth_slab d i o k : o < O -> k < I -> nth (o * I + k) (slab s ax d i) q0 = entry s ax d o i k.
Proof.
  intros Ho Hk. unfold slab. rewrite nth_map_seq by nia.
  rewrite Nat.div_add_l by lia. rewrite Nat.div_small by exact Hk.
  rewrite (Nat.add_comm (o * I) k), Nat.mod_add by lia. rewrite Nat.mod_small by exact Hk. f_equal. lia.
Qed.
Lemma slab_length d i : length (slab s ax d i) = O * I.
Proof. unfold slab. rewrite map_length, seq_length. reflexivity. Qed.
Lemma set_slab_length d i v : length (set_slab s ax d i v) = O * n * I.
Proof. unfold set_slab. rewrite map_length, seq_length. reflexivity. Qed.

Lemma nth_zip (f : Qc -> Qc -> Qc) u v p : f q0 q0 = q0 -> length u = length v ->
  nth p (map (fun e => f (fst e) (snd e)) (combine u v)) q0 = f (nth p u q0) (nth p v q0).
Proof.
  intros H0 Hl. transitivity (nth p (map (fun e => f (fst e) (snd e)) (combine u v)) ((fun e => f (fst e) (snd e)) (q0, q0))).
  - cbn [fst snd]. rewrite H0. reflexivity.
  - rewrite (map_nth (fun e => f (fst e) (snd e))), combine_nth by exact Hl. reflexivity.
Qed.
Lemma nth_zsub u v p : length u = length v -> nth p (zsub u v) q0 = (nth p u q0 - nth p v q0)%Qc.
Proof. intro H. apply (nth_zip Qcminus); [reflexivity|exact H]. Qed.
Lemma nth_zadd u v p : length u = length v -> nth p (zadd u v) q0 = (nth p u q0 + nth p v q0)%Qc.
Proof. intro H. apply (nth_zip Qcplus); [reflexivity|exact H]. Qed.
Lemma nth_smul h u p : nth p (smul h u) q0 = (h * nth p u q0)%Qc.
Proof.
  unfold smul. transitivity (nth p (map (fun x => (h * x)%Qc) u) ((fun x => (h * x)%Qc) q0)); [f_equal; unfold q0; ring|apply (map_nth (fun x => (h * x)%Qc))].
Qed.
Lemma nth_sdiv h u p : nth p (sdiv u h) q0 = (nth p u q0 / h)%Qc.
Proof.
  unfold sdiv. transitivity (nth p (map (fun x => (x / h)%Qc) u) ((fun x => (x / h)%Qc) q0)); [f_equal; unfold q0, Qcdiv; ring|apply (map_nth (fun x => (x / h)%Qc))].
Qed.
Lemma zip_len (f : Qc -> Qc -> Qc) u v m : length u = m -> length v = m -> length (map (fun e => f (fst e) (snd e)) (combine u v)) = m.
Proof. intros. rewrite map_length, combine_length. lia. Qed.
Lemma smul_len h u : length (smul h u) = length u. Proof. apply map_length. Qed.

Lemma fold_set (v : nat -> list Qc) l g o i k : o < O -> i < n -> k < I ->
  entry s ax (fold_left (fun g i => set_slab s ax g i (v i)) l g) o i k
  = if existsb (Nat.eqb i) l then nth (o * I + k) (v i) q0 else entry s ax g o i k.
Proof.
  intros Ho Hi Hk. revert g. induction l as [|j l IH]; intro g; [reflexivity|].
  cbn [fold_left existsb]. rewrite IH. destruct (existsb (Nat.eqb i) l) eqn:E; [rewrite orb_true_r; reflexivity|].
  rewrite entry_set by assumption. rewrite orb_false_r. destruct (Nat.eqb_spec i j); [subst; reflexivity|reflexivity].
Qed.
Lemma existsb_seq i a m : existsb (Nat.eqb i) (seq a m) = (a <=? i) && (i <? a + m).
Proof.
  revert a. induction m as [|m IH]; intro a; cbn [seq existsb].
  - destruct (Nat.leb_spec a i), (Nat.ltb_spec i (a + 0)); cbn; try reflexivity; lia.
  - rewrite IH. destruct (Nat.eqb_spec i a), (Nat.leb_spec (S a) i), (Nat.ltb_spec i (S a + m)), (Nat.leb_spec a i), (Nat.ltb_spec i (a + S m));
      cbn; try reflexivity; lia.
Qed.

Section Entries.
Variables (f : list Qc) (g : list Qc) (o k : nat).
Hypotheses (Ho : o < O) (Hk : k < I).
Let F i := entry s ax f o i k.
Lemma uniform_entry h i : 2 <= n -> i < n ->
  entry s ax (uniform s ax f h g) o i k
  = (if (i =? n - 1)%nat then (F (n - 1)%nat - F (n - 2)%nat) / h
     else if (i =? 0)%nat then (F 1%nat - F 0%nat) / h
     else (F (i + 1)%nat - F (i - 1)%nat) / (qz 2 * h))%Qc.
Proof.
  intros Hn Hi. unfold uniform. rewrite entry_set by assumption.
  destruct (Nat.eqb_spec i (n - 1)) as [Hq|Hq]; [rewrite nth_sdiv, nth_zsub, !nth_slab by (rewrite ?slab_length; auto); reflexivity|].
  rewrite entry_set by assumption.
  destruct (Nat.eqb_spec i 0) as [Hz|Hz]; [rewrite nth_sdiv, nth_zsub, !nth_slab by (rewrite ?slab_length; auto); reflexivity|].
  rewrite (fold_set (fun i => sdiv (zsub (slab s ax f (i + 1)) (slab s ax f (i - 1))) (qz 2 * h))) by assumption.
  rewrite existsb_seq.
  destruct (Nat.leb_spec 1 i); [|lia]. destruct (Nat.ltb_spec i (1 + (n - 2))); [|lia]. cbn [andb].
  rewrite nth_sdiv, nth_zsub, !nth_slab by (rewrite ?slab_length; auto). reflexivity.
Qed.
Lemma nonuniform_entry ds i : 2 <= n -> i < n ->
  let d j := nth j ds q0 in
  entry s ax (nonuniform s ax f ds g) o i k
  = (if (i =? 0)%nat then (F 1%nat - F 0%nat) / (d 1%nat - d 0%nat)
     else if (i =? n - 1)%nat then (F i - F (i - 1)%nat) / (d i - d (i - 1)%nat)
     else let h1 := d i - d (i - 1)%nat in let h2 := d (i + 1)%nat - d i in
          - h2 / (h1 * (h1 + h2)) * F (i - 1)%nat + (h2 - h1) / (h1 * h2) * F i + h1 / (h2 * (h1 + h2)) * F (i + 1)%nat)%Qc.
Proof.
  intros Hn Hi d. unfold nonuniform.
  match goal with |- entry s ax (fold_left (fun g i => set_slab s ax g i (@?v i)) _ _) o i k = _ => rewrite (fold_set v) by assumption end.
  rewrite existsb_seq. destruct (Nat.leb_spec 0 i); [|lia]. destruct (Nat.ltb_spec i (0 + n)); [|lia]. cbn [andb]. cbv beta zeta.
  destruct (Nat.eqb_spec i 0) as [Hz|Hz]; [subst i; rewrite nth_sdiv, nth_zsub, !nth_slab by (rewrite ?slab_length; auto); reflexivity|].
  destruct (Nat.eqb_spec i (n - 1)) as [Hq|Hq]; [rewrite nth_sdiv, nth_zsub, !nth_slab by (rewrite ?slab_length; auto); reflexivity|].
  rewrite !nth_zadd, !nth_smul, !nth_slab; auto; rewrite ?smul_len, ?slab_length; auto.
  apply (zip_len Qcplus); rewrite smul_len; apply slab_length.
Qed.
End Entries.
End Ix.

(** ** np.diff and np.allclose *)
Lemma diff_nth l i : S i < length l -> nth i (diff l) q0 = (nth (S i) l q0 - nth i l q0)%Qc.
Proof.
  revert i. induction l as [|x l IH]; intros i H; [cbn in H; lia|]. destruct l as [|y l]; [cbn in H; lia|].
  change (diff (x :: y :: l)) with ((y - x)%Qc :: diff (y :: l)). destruct i; [reflexivity|]. cbn [nth]. apply IH. cbn in *; lia.
Qed.
Lemma diff_length l : length (diff l) = length l - 1.
Proof. unfold diff. rewrite map_length, combine_length. destruct l; cbn [tl length]; lia. Qed.
Lemma allclose_spec ds i : allclose (diff ds) (nth 0 (diff ds) q0) = true -> S i < length ds ->
  (qabs ((nth (S i) ds q0 - nth i ds q0) - (nth 1 ds q0 - nth 0 ds q0)) <= atol + rtol * qabs (nth 1 ds q0 - nth 0 ds q0))%Qc.
Proof.
  intros E H. unfold allclose in E. rewrite forallb_forall in E.
  rewrite (diff_nth ds 0) in E by lia. specialize (E (nth i (diff ds) q0)). rewrite diff_nth in E by exact H.
  assert (Hin : In (nth (S i) ds q0 - nth i ds q0)%Qc (diff ds)).
  { rewrite <- diff_nth by exact H. apply nth_In. rewrite diff_length. lia. }
  specialize (E Hin). destruct (Qcleb_spec (qabs (nth (S i) ds q0 - nth i ds q0 - (nth 1 ds q0 - nth 0 ds q0))) (atol + rtol * qabs (nth 1 ds q0 - nth 0 ds q0))); [assumption|discriminate].
Qed.

Definition slope_at (F d : nat -> Qc) (n i : nat) (close : bool) : Qc :=
  let h := (d 1%nat - d 0%nat)%Qc in
  if close then
    (if (i =? n - 1)%nat then (F (n - 1)%nat - F (n - 2)%nat) / h
     else if (i =? 0)%nat then (F 1%nat - F 0%nat) / h
     else (F (i + 1)%nat - F (i - 1)%nat) / (qz 2 * h))%Qc
  else
    (if (i =? 0)%nat then (F 1%nat - F 0%nat) / (d 1%nat - d 0%nat)
     else if (i =? n - 1)%nat then (F i - F (i - 1)%nat) / (d i - d (i - 1)%nat)
     else let h1 := d i - d (i - 1)%nat in let h2 := d (i + 1)%nat - d i in
          - h2 / (h1 * (h1 + h2)) * F (i - 1)%nat + (h2 - h1) / (h1 * h2) * F i + h1 / (h2 * (h1 + h2)) * F (i + 1)%nat)%Qc.

Definition vec (l : list Qc) : array := {| shape := [length l]; data := l |}.
Definition distances (radius : option Qc) (c : list Qc) : list Qc :=
  match radius with Some r => map (to_distance r) c | None => c end.
Lemma distances_length r c : length (distances r c) = length c.
Proof. destruct r; [apply map_length|reflexivity]. Qed.
Definition close (ds : list Qc) : bool := allclose (diff ds) (nth 0 (diff ds) q0).

Section Calc.
Variable nd : array -> array -> Z -> option array.
Lemma gradient_entry field c axis ax radius : axis_of (length (shape field)) axis = Some ax ->
  length c = len (shape field) ax -> 2 <= length c ->
  exists g, calculate_gradient nd field (vec c) axis radius = Some {| shape := shape field; data := g |} /\
    length g = outer (shape field) ax * length c * inner (shape field) ax /\
    forall o i k, o < outer (shape field) ax -> i < length c -> k < inner (shape field) ax ->
      entry (shape field) ax g o i k
      = slope_at (fun j => entry (shape field) ax (data field) o j k) (fun j => nth j (distances radius c) q0)
          (length c) i (close (distances radius c)).
Proof.
  intros Ea Hl H2. unfold calculate_gradient. rewrite Ea. cbn [vec data shape]. rewrite Hl, Nat.eqb_refl. cbn [negb].
  destruct (Nat.ltb_spec (len (shape field) ax) 2); [lia|].
  change (match radius with Some r => map (to_distance r) c | None => c end) with (distances radius c).
  change (allclose (diff (distances radius c)) (nth 0 (diff (distances radius c)) q0)) with (close (distances radius c)).
  eexists. split; [reflexivity|]. split.
  - destruct (close (distances radius c)).
    + unfold uniform. apply set_slab_length.
    + unfold nonuniform. destruct (len (shape field) ax) as [|m] eqn:Em; [lia|].
      rewrite seq_S, fold_left_app. cbn [fold_left]. rewrite set_slab_length, Em. reflexivity.
  - intros o i k Ho Hi Hk. unfold slope_at. destruct (close (distances radius c)) eqn:Ec.
    + rewrite uniform_entry by (auto; lia). cbv zeta. rewrite diff_nth by (rewrite distances_length; lia). reflexivity.
    + rewrite nonuniform_entry by (auto; lia). reflexivity.
Qed.
End Calc.
