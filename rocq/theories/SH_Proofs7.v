(** Evaluation of a spectrum at a point (specintrp.f90) and the Legendre table. *)
From Coq Require Import Lia Arith ZArith List Bool Field_theory Field.
From Verif Require Import Base Buffer VH_Model VH_Proofs SH_Model SH_Spec SH_Proofs SH_Proofs2 SH_Proofs3 SH_Proofs4 TG_Proofs.
Import ListNotations.
Local Open Scope Z_scope.

Section Eval.
Variable A : rl.
Variable LW : rlaws A.
Notation C := (T A * T A)%type.
Definition fth := rl_field A LW.
Add Field Afield : fth.
Notation "0f" := (rz A 0). Notation "1f" := (rz A 1).

Definition lsum (l : list A) : A := fold_right (radd A) 0f l.
Lemma lsum_app l1 l2 : lsum (l1 ++ l2) = radd A (lsum l1) (lsum l2).
Proof.
  induction l1 as [|x l IH].
  - change (lsum l2 = radd A 0f (lsum l2)). ring.
  - change (radd A x (lsum (l ++ l2)) = radd A (radd A x (lsum l)) (lsum l2)). rewrite IH. ring.
Qed.
Lemma lsum_cons x l : lsum (x :: l) = radd A x (lsum l). Proof. reflexivity. Qed.
Lemma lsum_nil : lsum [] = 0f. Proof. reflexivity. Qed.
Lemma lsum_lin (X : Type) (f g : X -> A) (a b : A) l :
  lsum (map (fun x => radd A (rmul A a (f x)) (rmul A b (g x))) l)
  = radd A (rmul A a (lsum (map f l))) (rmul A b (lsum (map g l))).
Proof. induction l as [|x l IH]; cbn [map]; rewrite ?lsum_cons, ?lsum_nil; [ring|]. rewrite IH. ring. Qed.

Variable cs : Z -> A * A.
Variables (d : list C) (p : list A).
Definition re_k (k : nat) : A := rmul A (fst (nth k d (czero A))) (nth k p 0f).
Definition im_k (k : nat) : A := rmul A (snd (nth k d (czero A))) (nth k p 0f).
Definition rowsum (k len : nat) : C := (lsum (map re_k (seq k len)), lsum (map im_k (seq k len))).

Lemma row_pass k : forall len s, (k + len <= length d)%nat -> (k + len <= length p)%nat ->
  foldM (fun (s : C) n =>
          let* d := rdz d (Z.of_nat k + n) in
          let* p := rdz p (Z.of_nat k + n) in
          Some (radd A (fst s) (rmul A (fst d) p), radd A (snd s) (rmul A (snd d) p)))
        (dolist 1 (Z.of_nat len)) s
  = Some (radd A (fst s) (fst (rowsum k len)), radd A (snd s) (snd (rowsum k len))).
Proof.
  intros len s Hd Hp. replace (dolist 1 (Z.of_nat len)) with (map (fun j => Z.of_nat j + 1) (seq 0 len)).
  2:{ change 1 with (Z.of_nat 1) at 2. rewrite dolist_seq. replace (S len - 1)%nat with len by lia.
      rewrite <- seq_shift, map_map. apply map_ext; intro; lia. }
  rewrite foldM_map. unfold rowsum; cbn [fst snd].
  revert k s Hd Hp. induction len as [|len IH]; intros k s Hd Hp.
  { cbn [seq foldM map]. rewrite !lsum_nil. destruct s; cbn [fst snd]. do 2 f_equal; ring. }
  cbn [seq foldM]. rewrite <- (seq_shift len 0).
  replace (Z.of_nat k + (Z.of_nat 0 + 1)) with (Z.of_nat k + 1) by lia. rewrite !rdz_nth.
  rewrite (nth_error_nth' d (czero A)), (nth_error_nth' p 0f) by lia. cbn [bind]. rewrite foldM_map.
  rewrite (foldM_ext_in _ _ _ (fun s0 x =>
        let* d0 := rdz d (Z.of_nat (S k) + (Z.of_nat x + 1)) in
        let* p0 := rdz p (Z.of_nat (S k) + (Z.of_nat x + 1)) in
        Some (radd A (fst s0) (rmul A (fst d0) p0), radd A (snd s0) (rmul A (snd d0) p0)))).
  2:{ intros s0 j _. replace (Z.of_nat k + (Z.of_nat (S j) + 1)) with (Z.of_nat (S k) + (Z.of_nat j + 1)) by lia. reflexivity. }
  rewrite IH by lia. cbn [fst snd map]. rewrite !lsum_cons. unfold re_k at 2, im_k at 2. do 2 f_equal; ring.
Qed.

(** position of the first entry of row m *)
Definition row0 (N m : nat) : nat := length (rows N 0 m).
Lemma row0_S N m : (m <= N)%nat -> row0 N (S m) = (row0 N m + (N + 1 - m))%nat.
Proof.
  intro H. unfold row0, rows. rewrite seq_S, flat_map_app, app_length. cbn [flat_map Nat.add].
  rewrite app_nil_r, map_length, seq_length. reflexivity.
Qed.
Lemma row0_tri N : row0 N (N + 1) = tri N.
Proof. unfold row0. rewrite <- pairs_length. reflexivity. Qed.
Lemma row0_le N : forall j m, (m + j = N + 1)%nat -> (row0 N m <= tri N)%nat.
Proof.
  induction j as [|j IH]; intros m H.
  - replace m with (N + 1)%nat by lia. rewrite row0_tri; lia.
  - specialize (IH (S m) ltac:(lia)). rewrite row0_S in IH by lia. lia.
Qed.

Lemma first_pass N : (tri N <= length d)%nat -> (tri N <= length p)%nat -> forall len m acc, (m + len = N + 1)%nat ->
  foldM (fun (st : Z * list C) m =>
      let nmstrt := fst st in
      let* s := foldM (fun (s : C) n =>
          let* d := rdz d (nmstrt + n) in
          let* p := rdz p (nmstrt + n) in
          Some (radd A (fst s) (rmul A (fst d) p), radd A (snd s) (rmul A (snd d) p)))
        (dolist 1 (Z.of_nat N + 1 - m + 1)) (czero A) in
      Some (nmstrt + (Z.of_nat N + 1) - m + 1, snd st ++ s :: nil))
    (map (fun j => Z.of_nat j + 1) (seq m len)) (Z.of_nat (row0 N m), acc)
  = Some (Z.of_nat (tri N), acc ++ map (fun j => rowsum (row0 N j) (N + 1 - j)) (seq m len)).
Proof.
  intros Hd Hp. induction len as [|len IH]; intros m acc H.
  - replace m with (N + 1)%nat by lia. cbn [seq map foldM]. rewrite row0_tri, app_nil_r. reflexivity.
  - cbn [seq map foldM fst snd].
    replace (Z.of_nat N + 1 - (Z.of_nat m + 1) + 1) with (Z.of_nat (N + 1 - m)) by lia.
    pose proof (row0_S N m ltac:(lia)) as R. pose proof (row0_le N len (S m) ltac:(lia)) as L.
    rewrite row_pass by lia. cbn [bind czero fst snd].
    replace (radd A 0f (fst (rowsum (row0 N m) (N + 1 - m))), radd A 0f (snd (rowsum (row0 N m) (N + 1 - m))))
      with (rowsum (row0 N m) (N + 1 - m)) by (unfold rowsum; cbn [fst snd]; f_equal; ring).
    replace (Z.of_nat (row0 N m) + (Z.of_nat N + 1) - (Z.of_nat m + 1) + 1) with (Z.of_nat (row0 N (S m))) by lia.
    rewrite IH by lia. rewrite <- app_assoc. reflexivity.
Qed.

(** the contribution of one coefficient *)
Definition term (k m : nat) : A :=
  rmul A (nth k p 0f)
    (if (m =? 0)%nat then fst (nth k d (czero A))
     else rmul A (rz A 2) (rsub A (rmul A (fst (nth k d (czero A))) (fst (cs (Z.of_nat m))))
                                  (rmul A (snd (nth k d (czero A))) (snd (cs (Z.of_nat m)))))).
Definition row_term (N m : nat) : A :=
  let s := rowsum (row0 N m) (N + 1 - m) in
  if (m =? 0)%nat then fst s
  else rmul A (rz A 2) (rsub A (rmul A (fst s) (fst (cs (Z.of_nat m)))) (rmul A (snd s) (snd (cs (Z.of_nat m))))).
Lemma row_term_sum N m : row_term N m = lsum (map (fun k => term k m) (seq (row0 N m) (N + 1 - m))).
Proof.
  unfold row_term, term, rowsum; cbn [fst snd]. destruct (m =? 0)%nat.
  - f_equal. apply map_ext. intro k. unfold re_k. ring.
  - transitivity (radd A (rmul A (rmul A (rz A 2) (fst (cs (Z.of_nat m)))) (lsum (map re_k (seq (row0 N m) (N + 1 - m)))))
       (rmul A (rmul A (ropp A (rz A 2)) (snd (cs (Z.of_nat m)))) (lsum (map im_k (seq (row0 N m) (N + 1 - m)))))); [ring|].
    rewrite <- lsum_lin. f_equal. apply map_ext. intro k. unfold re_k, im_k. ring.
Qed.
Lemma second_pass N : forall len m ob, (m + len = N + 1)%nat -> (1 <= m)%nat ->
  foldM (fun ob m =>
      let* s := rdz (map (fun j => rowsum (row0 N j) (N + 1 - j)) (seq 0 (N + 1))) m in
      let '(c, sn) := cs (m - 1) in
      Some (radd A ob (rmul A (rz A 2) (rsub A (rmul A (fst s) c) (rmul A (snd s) sn)))))
    (map (fun j => Z.of_nat j + 1) (seq m len)) ob
  = Some (radd A ob (lsum (map (row_term N) (seq m len)))).
Proof.
  induction len as [|len IH]; intros m ob H Hm.
  - cbn [seq map foldM]. rewrite lsum_nil. f_equal. ring.
  - cbn [seq map foldM]. rewrite rdz_nth, nth_error_map, (nth_error_nth' _ 0%nat) by (rewrite seq_length; lia).
    rewrite seq_nth by lia. cbn [option_map bind Nat.add].
    replace (Z.of_nat m + 1 - 1) with (Z.of_nat m) by lia.
    destruct (cs (Z.of_nat m)) as [c sn] eqn:Ecs. cbn [bind]. rewrite IH by lia. f_equal.
    rewrite lsum_cons. unfold row_term at 2. destruct (Nat.eqb_spec m 0); [lia|]. rewrite Ecs. cbn [fst snd]. ring.
Qed.
Lemma sum_rows N : forall len m, (m + len = N + 1)%nat ->
  lsum (map (row_term N) (seq m len))
  = lsum (map (fun e => term (fst e) (fst (snd e))) (enum (row0 N m) (rows N m len))).
Proof.
  induction len as [|len IH]; intros m H; [reflexivity|].
  rewrite rows_S, enum_app, map_app, lsum_app. cbn [seq map]. 
  change (lsum (row_term N m :: map (row_term N) (seq (S m) len))) with (radd A (row_term N m) (lsum (map (row_term N) (seq (S m) len)))).
  f_equal.
  - rewrite row_term_sum. rewrite enum_map, map_map, seq_enum, map_map. cbn [fst snd].
    f_equal. assert (E : forall l a, seq a l = map (fun j => (a + j)%nat) (seq 0 l)).
    { clear. intros l a; apply nth_error_ext_all; intro i; rewrite nth_error_map.
      destruct (Nat.lt_ge_cases i l).
      - rewrite !(nth_error_nth' _ 0%nat), !seq_nth by (rewrite ?seq_length; lia); reflexivity.
      - rewrite !(proj2 (nth_error_None _ _)) by (rewrite seq_length; lia); reflexivity. }
    rewrite (E _ (row0 N m)), map_map. reflexivity.
  - rewrite map_length, seq_length, <- row0_S by lia. apply IH. lia.
Qed.
Lemma specintrp_result N : (tri N <= length d)%nat -> (tri N <= length p)%nat ->
  specintrp A cs (Z.of_nat N) d p = Some (lsum (map (fun e => term (fst e) (fst (snd e))) (enum 0 (pairs N)))).
Proof.
  intros Hd Hp. unfold specintrp. cbv zeta.
  assert (E : dolist 1 (Z.of_nat N + 1) = map (fun j => Z.of_nat j + 1) (seq 0 (N + 1))).
  { change 1 with (Z.of_nat 1) at 1. replace (Z.of_nat N + 1) with (Z.of_nat (N + 1)) by lia. rewrite dolist_seq.
    replace (S (N + 1) - 1)%nat with (N + 1)%nat by lia. rewrite <- seq_shift, map_map; apply map_ext; intro; lia. }
  assert (E2 : dolist 2 (Z.of_nat N + 1) = map (fun j => Z.of_nat j + 1) (seq 1 N)).
  { change 2 with (Z.of_nat 2) at 1. replace (Z.of_nat N + 1) with (Z.of_nat (N + 1)) by lia. rewrite dolist_seq.
    replace (S (N + 1) - 2)%nat with N by lia. rewrite <- (seq_shift N 1), map_map; apply map_ext; intro; lia. }
  rewrite E, E2. pose proof (first_pass N Hd Hp (N + 1) 0 [] ltac:(lia)) as F.
  change (Z.of_nat (row0 N 0)) with 0 in F. cbv zeta in F. rewrite F. cbn [bind snd app].
  assert (E0 : seq 0 (N + 1) = 0%nat :: seq 1 N) by (rewrite Nat.add_1_r; reflexivity).
  replace (rdz (map (fun j => rowsum (row0 N j) (N + 1 - j)) (seq 0 (N + 1))) 1) with (Some (rowsum (row0 N 0) (N + 1 - 0)))
    by (rewrite E0; reflexivity).
  cbn [bind]. rewrite second_pass by lia. f_equal.
  change (pairs N) with (rows N 0 (N + 1)). change (enum 0 (rows N 0 (N + 1))) with (enum (row0 N 0) (rows N 0 (N + 1))).
  rewrite <- sum_rows by lia. rewrite E0. reflexivity.
Qed.
End Eval.

Section Table.
Variable A : rl.
Lemma getlegfunc_result (alf : Z -> Z -> A) N junk : length junk = tri N ->
  getlegfunc A alf (Z.of_nat N) junk = Some (map (fun q => alf (Z.of_nat (snd q)) (Z.of_nat (fst q))) (pairs N)).
Proof.
  intro Hj. unfold getlegfunc. rewrite tri_loop_visits.
  pose (v := fun e : nat * (nat * nat) => alf (Z.of_nat (snd (snd e))) (Z.of_nat (fst (snd e)))).
  rewrite (foldM_ext_in _ _ _ (fun out e => let* x := Some (v e) in wrz out (Z.of_nat (fst e) + 1) x)).
  2:{ intros out [k [m n]] _. unfold visit, v; cbn [fst snd bind]. do 2 f_equal; lia. }
  change junk with ([] ++ junk). rewrite (stream_write A (nat * nat) (fun e => Some (v e)) v);
    [|reflexivity|rewrite pairs_length; lia|reflexivity].
  cbn [app]. rewrite skipn_all2 by (rewrite pairs_length; lia). rewrite app_nil_r. f_equal.
  unfold v. clear. generalize 0%nat as k. induction (pairs N) as [|q l IH]; intro k; [reflexivity|].
  rewrite enum_cons. cbn [map snd]. f_equal. apply IH.
Qed.
End Table.
