(** Concrete grids for the examples and refutations about the curvilinear remapping kernels *)
From Verif Require Import Base Buffer Loops VH_Model TG_Model RC_Model RC_Spec RC_Proofs RC_Proofs2.
Local Open Scope nat_scope.

Definition taxi (a b c d : Qc) : Qc := (qcabs (a - c) + qcabs (b - d))%Qc.
Definition iq (f : nat -> nat -> Z) (a b : nat) : Qc := qz (f a b).
Definition zn := Z.of_nat.
Definition shearx := iq (fun i j => 10 * zn i - 9 * zn j)%Z.
Definition sheary := iq (fun i j => 10 * zn j - 9 * zn i)%Z.
Definition peak (a b c : nat) : Qc := if (a =? 6) && (b =? 6) then qz 100 else 0%Qc.
Definition miss : Qc := qz (-999).
Definition big : Qc := qz 1000000.
Definition shown (r : option (option (list (list (list Qc))))) := option_map (option_map (map (map (map this)))) r.
Definition tight (a b : nat) : Qc := nth (a - 1) [0; Q2Qc (1 # 20000); 1; qz 2]%Qc 0%Qc.
Definition rowy (a b : nat) : Qc := qz (zn b).
Definition column (a b c : nat) : Qc := qz (zn a).
Definition ax3 : list Qc := [0; 1; qz 2]%Qc.
Definition plane (a b c : nat) : Qc := (1 + qz (zn a - 1) + qz 10 * qz (zn b - 1))%Qc.
Definition single (a b c : nat) : Qc := if (a =? 1) && (b =? 1) then qz 7 else miss.
Definition shownp (r : option (option (list (list cell)))) := option_map (option_map (map (map (option_map this)))) r.
Definition twin (a b : nat) : Qc := nth (a - 1) [0; 0; 1]%Qc 0%Qc.
Definition first_missing (a b c : nat) : Qc := if (a =? 1) && (b =? 1) then miss else qz 7.
(** nodes (2a, 2b), field a + 10 b, with the node (2, 2) missing in field 2 *)
Definition evenx (a b : nat) : Qc := qz (2 * zn a).
Definition eveny (a b : nat) : Qc := qz (2 * zn b).
Definition holed (a b g : nat) : Qc := if (g =? 2) && (a =? 2) && (b =? 2) then miss else qz (zn a + 10 * zn b).
Definition even (n : nat) : list Qc := map (fun i => qz (2 * zn i)) (seq 1 n).

(** [spaced] by computation *)
Fixpoint spacedb (e : Qc) (x : list Qc) : bool :=
  match x with
  | a :: ((b :: _) as r) => Qcltb (a + e)%Qc b && spacedb e r
  | _ => true
  end.
Lemma spacedb_spaced e x : spacedb e x = true -> spaced e x.
Proof.
  induction x as [|a x IH]; intros H i u v U V.
  - apply rd_Some_bounds in U. cbn in U. lia.
  - destruct i as [|i]; [discriminate|]. destruct x as [|b x]. { apply rd_Some_bounds in V. cbn in V. lia. }
    cbn [spacedb] in H. apply andb_true_iff in H as [H1 H2]. destruct i as [|i].
    + cbn in U, V. inversion U; inversion V; subst. destruct (Qcltb_spec (u + e)%Qc v); [auto|discriminate].
    + apply (IH H2 (S i) u v); auto.
Qed.
Lemma even_separable n m : separable n m evenx eveny (even n) (even m).
Proof. unfold separable, even. rewrite !map_length, !seq_length. split; auto. split; auto. intros. rewrite !rd_map_seq by auto. auto. Qed.
Lemma even_axes : on_axes 4 4 evenx eveny.
Proof. exists (even 4), (even 4). split; [apply even_separable|]. split; apply spacedb_spaced; vm_compute; reflexivity. Qed.
Lemma even_distinct n m : distinct_nodes n m evenx eveny.
Proof. intros a b c d _ _ _ _ X Y. unfold evenx, eveny, zn in *. apply qz_inj in X, Y. lia. Qed.
Lemma qcabs_zero a : qcabs a = 0%Qc -> a = 0%Qc.
Proof. unfold qcabs. destruct (Qcleb_spec 0%Qc a) as [L|L]; intros E; auto. transitivity (- - a)%Qc; [ring|rewrite E; ring]. Qed.
Lemma taxi_zero a b c d : taxi a b c d = 0%Qc -> a = c /\ b = d.
Proof.
  unfold taxi. intros E. assert (P : forall v, (0 <= qcabs v)%Qc) by (intros v; unfold qcabs; destruct (Qcleb_spec 0%Qc v); qclra).
  pose proof (P (a - c)%Qc). pose proof (P (b - d)%Qc). assert (A : qcabs (a - c) = 0%Qc) by (apply Qcle_antisym; qclra). assert (B : qcabs (b - d) = 0%Qc) by (apply Qcle_antisym; qclra).
  apply qcabs_zero in A, B. split; [transitivity (a - c + c)%Qc; [ring|rewrite A; ring]|transitivity (b - d + d)%Qc; [ring|rewrite B; ring]].
Qed.
