(** The kernels: what they compute and how they compose. *)
From Coq Require Import Lia Arith ZArith List Bool Field_theory Field.
From Verif Require Import Base Buffer VH_Model VH_Proofs SH_Model SH_Spec SH_Proofs SH_Proofs2.
Import ListNotations.
Local Open Scope Z_scope.

(** Laws of the arithmetic used where values (not only positions) matter. *)
Record rlaws (A : rl) := {
  rl_inv : A -> A;
  rl_field : field_theory (rz A 0) (rz A 1) (radd A) (rmul A) (rsub A) (ropp A) (rdiv A) rl_inv eq;
  rl_add : forall a b, rz A (a + b) = radd A (rz A a) (rz A b);
  rl_nz : forall n, n <> 0 -> rz A n <> rz A 0 }.

Lemma tri_loop_ext (S : Type) N n1 (b1 b2 : Z -> Z -> Z -> S -> option S) s :
  (forall m n nm s, b1 m n nm s = b2 m n nm s) -> tri_loop N n1 b1 s = tri_loop N n1 b2 s.
Proof.
  intro H. unfold tri_loop. f_equal. apply foldM_ext_in. intros st m _.
  rewrite (foldM_ext_in _ _ _ (fun s n => b2 m n (fst st + n - m + 1) s)); [reflexivity|].
  intros; apply H.
Qed.

Lemma nmdim_tri N : Z.to_nat (nmdim_of (Z.of_nat N)) = tri N.
Proof.
  unfold nmdim_of, tri.
  replace ((Z.of_nat N + 1) * (Z.of_nat N + 2)) with (Z.of_nat ((N + 1) * (N + 2))) by lia.
  change 2 with (Z.of_nat 2). rewrite <- Nat2Z.inj_div, Nat2Z.id. reflexivity.
Qed.
Lemma nmdim_tri_Z N : nmdim_of (Z.of_nat N) = Z.of_nat (tri N).
Proof.
  unfold nmdim_of, tri.
  replace ((Z.of_nat N + 1) * (Z.of_nat N + 2)) with (Z.of_nat ((N + 1) * (N + 2))) by lia.
  change 2 with (Z.of_nat 2). rewrite <- Nat2Z.inj_div. reflexivity.
Qed.

Section Pos.
Variable A : rl.
Notation C := (T A * T A)%type.

Lemma zero2_sz nlat : sz A nlat (zero2 A nlat).
Proof. apply repeat_length. Qed.

(** Two matrices filled from one spectrum. *)
Lemma two_store (ga gb : Z -> C -> A) N nlat (d : list C) :
  (tri N <= length d)%nat -> Z.of_nat N + 1 <= nlat ->
  exists a b,
    tri_loop (Z.of_nat N) (fun m => m)
      (fun m n nm ab => let* c := rdz d nm in
         let* a := wr2 nlat (fst ab) m n (ga n c) in
         let* b := wr2 nlat (snd ab) m n (gb n c) in Some (a, b))
      (zero2 A nlat, zero2 A nlat) = Some (a, b) /\
    sz A nlat a /\ sz A nlat b /\
    is_matrix N nlat (rd2 nlat a) (rz A 0) (fun m n c => ga (Z.of_nat n + 1) c) d /\
    is_matrix N nlat (rd2 nlat b) (rz A 0) (fun m n c => gb (Z.of_nat n + 1) c) d.
Proof.
  intros Hd HN. rewrite tri_loop_visits.
  pose (val := fun (g : Z -> C -> A) (e : nat * (nat * nat)) =>
     let* c := rdz d (Z.of_nat (fst e) + 1) in Some (g (Z.of_nat (snd (snd e)) + 1) c)).
  pose (st := fun g (a : list A) e => let* x := val g e in
        wr2 nlat a (Z.of_nat (fst (snd e)) + 1) (Z.of_nat (snd (snd e)) + 1) x).
  rewrite (foldM_pair _ _ _ (st ga) (st gb)).
  2:{ intros s t [k [m n]]. unfold visit, st, val; cbn [fst snd].
      destruct (rdz d _); cbn [bind]; [|reflexivity].
      destruct (wr2 nlat s _ _ _); cbn [bind]; [|reflexivity].
      destruct (wr2 nlat t _ _ _); reflexivity. }
  assert (Hx : exists x0, nth_error d 0 = Some x0).
  { destruct (nth_error d 0) as [x|] eqn:E0; [exists x; reflexivity|].
    apply nth_error_None in E0. pose proof (tri2 N). lia. }
  destruct Hx as [x0 _].
  pose (v := fun (g : Z -> C -> A) (e : nat * (nat * nat)) => g (Z.of_nat (snd (snd e)) + 1) (nth (fst e) d x0)).
  assert (Hv : forall g e, In e (enum 0 (pairs N)) -> val g e = Some (v g e)).
  { intros g [k [m n]] He. apply enum_in in He. destruct He as [_ He]. rewrite Nat.sub_0_r in He.
    pose proof (index_unique _ _ _ _ He) as [Ek B].
    unfold val, v; cbn [fst snd]. rewrite rdz_nth.
    rewrite (nth_error_nth' d x0); [reflexivity|]. rewrite Ek. apply (Nat.lt_le_trans _ (tri N)); [apply index_lt; exact B|exact Hd]. }
  assert (M : forall g a', (forall m n, (m <= n <= N)%nat -> rd2 nlat a' (Z.of_nat m + 1) (Z.of_nat n + 1) = Some (v g (index N m n, (m, n)))) ->
     (forall i j, ~ (1 <= i <= j /\ j <= Z.of_nat N + 1) -> rd2 nlat a' i j = rd2 nlat (zero2 A nlat) i j) ->
     is_matrix N nlat (rd2 nlat a') (rz A 0) (fun m n c => g (Z.of_nat n + 1) c) d).
  { intros g a' R O. split.
    - intros m n c B Hc. rewrite R by exact B. unfold v; cbn [fst snd]. rewrite (nth_error_nth _ _ _ Hc). reflexivity.
    - intros i j Hi Hj Hij. rewrite O by lia. apply rd2_repeat; assumption. }
  destruct (store2 A nlat (val ga) (v ga) N HN (Hv ga) _ (zero2_sz nlat)) as (a & Ea & Sa & Ra & Oa).
  destruct (store2 A nlat (val gb) (v gb) N HN (Hv gb) _ (zero2_sz nlat)) as (b & Eb & Sb & Rb & Ob).
  exists a, b. unfold st. rewrite Ea, Eb.
  split; [reflexivity|]. split; [exact Sa|]. split; [exact Sb|].
  split; apply M; assumption.
Qed.

(** A spectrum gathered from two matrices. *)
Lemma gather (h : Z -> C -> C) N nlat (a b : list A) (L : list C) :
  length L = tri N ->
  (forall k m n, nth_error (pairs N) k = Some (m, n) ->
     exists x y, rd2 nlat a (Z.of_nat m + 1) (Z.of_nat n + 1) = Some x /\
       rd2 nlat b (Z.of_nat m + 1) (Z.of_nat n + 1) = Some y /\
       nth_error L k = Some (h (Z.of_nat n + 1) (x, y))) ->
  tri_loop (Z.of_nat N) (fun m => m)
    (fun m n nm out => let* x := rd2 nlat a m n in let* y := rd2 nlat b m n in wrz out nm (h n (x, y)))
    (zero1 A (Z.of_nat N)) = Some L.
Proof.
  intros HL H. rewrite tri_loop_visits.
  pose (val := fun e : nat * (nat * nat) =>
     let* x := rd2 nlat a (Z.of_nat (fst (snd e)) + 1) (Z.of_nat (snd (snd e)) + 1) in
     let* y := rd2 nlat b (Z.of_nat (fst (snd e)) + 1) (Z.of_nat (snd (snd e)) + 1) in
     Some (h (Z.of_nat (snd (snd e)) + 1) (x, y))).
  rewrite (foldM_ext_in _ _ _ (fun out e => let* x := val e in wrz out (Z.of_nat (fst e) + 1) x)).
  2:{ intros out [k [m n]] _. unfold visit, val; cbn [fst snd].
      destruct (rd2 nlat a _ _); [|reflexivity]. cbn [bind]. destruct (rd2 nlat b _ _); reflexivity. }
  pose (v := fun e : nat * (nat * nat) => nth (fst e) L (czero A)).
  change (zero1 A (Z.of_nat N)) with ([] ++ zero1 A (Z.of_nat N)).
  rewrite (stream_write C (nat * nat) val v).
  - cbn [app]. f_equal. rewrite skipn_all2 by (unfold zero1; rewrite repeat_length, nmdim_tri, pairs_length; lia).
    rewrite app_nil_r. apply nth_error_ext_all; intro i. rewrite nth_error_map, enum_nth.
    destruct (nth_error (pairs N) i) as [[m n]|] eqn:E; cbn [option_map].
    + destruct (H i m n E) as (x & y & _ & _ & EL). unfold v; cbn [fst Nat.add]. rewrite EL.
      f_equal. apply nth_error_nth; exact EL.
    + symmetry. apply nth_error_None. apply nth_error_None in E. rewrite pairs_length in E. lia.
  - reflexivity.
  - unfold zero1; rewrite repeat_length, nmdim_tri, pairs_length; lia.
  - intros [k [m n]] He. apply enum_in in He. destruct He as [_ He]. rewrite Nat.sub_0_r in He.
    destruct (H k m n He) as (x & y & E1 & E2 & EL). unfold val, v; cbn [fst snd].
    rewrite E1, E2. cbn [bind]. f_equal. symmetry. apply nth_error_nth; exact EL.
Qed.
End Pos.

Section Vals.
Variable A : rl.
Variable LW : rlaws A.
Notation C := (T A * T A)%type.
Definition fth := rl_field A LW.
Add Field Afield : fth.
Notation "0f" := (rz A 0). Notation "1f" := (rz A 1).
Lemma rz_sub1 n : rsub A (rz A n) 1f = rz A (n - 1).
Proof.
  pose proof (rl_add A LW (n - 1) 1) as H. replace (n - 1 + 1) with n in H by lia. rewrite H. ring.
Qed.
Lemma two_nz : rz A 2 <> 0f. Proof. apply (rl_nz A LW); lia. Qed.
Lemma half2 (x : A) : rmul A (half A) (rmul A (rz A 2) x) = x.
Proof. unfold half. field. exact two_nz. Qed.
Lemma two_half (x : A) : rmul A (rz A 2) (rmul A (half A) x) = x.
Proof. unfold half. field. exact two_nz. Qed.
Lemma mul_nz (x y : A) : x <> 0f -> y <> 0f -> rmul A x y <> 0f.
Proof.
  intros Hx Hy E. apply Hy. transitivity (rdiv A (rmul A x y) x); [field; exact Hx|]. rewrite E. field; exact Hx.
Qed.
Lemma nn1_nz n : 2 <= n -> rmul A (rz A n) (rsub A (rz A n) 1f) <> 0f.
Proof. intro H. rewrite rz_sub1. apply mul_nz; apply (rl_nz A LW); lia. Qed.

(** ** Scalar conversion *)
Lemma onedtotwod_result N nlat (d : list C) : (tri N <= length d)%nat -> Z.of_nat N + 1 <= nlat ->
  exists a b, onedtotwod_at A (Z.of_nat N) nlat d = Some (a, b) /\ sz A nlat a /\ sz A nlat b /\
    is_matrix N nlat (rd2 nlat a) 0f (fun m n c => rmul A (rz A 2) (fst c)) d /\
    is_matrix N nlat (rd2 nlat b) 0f (fun m n c => rmul A (rz A 2) (snd c)) d.
Proof.
  intros Hd HN.
  exact (two_store A (fun n c => fst (cscale A (rz A 2) c)) (fun n c => snd (cscale A (rz A 2) c)) N nlat d Hd HN).
Qed.
Lemma roundtrip_12 N nlat (d : list C) : length d = tri N -> Z.of_nat N + 1 <= nlat ->
  exists a b, onedtotwod_at A (Z.of_nat N) nlat d = Some (a, b) /\ twodtooned A nlat (Z.of_nat N) a b = Some d.
Proof.
  intros Hd HN. destruct (onedtotwod_result N nlat d ltac:(lia) HN) as (a & b & E & _ & _ & [Ma _] & [Mb _]).
  exists a, b. split; [exact E|]. apply (gather A (fun n c => cscale A (half A) c)); [exact Hd|].
  intros k m n Hk. destruct (index_unique _ _ _ _ Hk) as [-> B].
  destruct (nth_error d (index N m n)) as [c|] eqn:Ec.
  2:{ apply nth_error_None in Ec. pose proof (index_lt N m n B). lia. }
  exists (rmul A (rz A 2) (fst c)), (rmul A (rz A 2) (snd c)).
  split; [apply Ma; assumption|]. split; [apply Mb; assumption|].
  destruct c as [re im]. unfold cscale; cbn [fst snd]. rewrite !half2. reflexivity.
Qed.
Definition get2 nlat (a : list A) m n : A := match rd2 nlat a m n with Some x => x | None => 0f end.
Lemma twodtooned_result N nlat (a b : list A) : sz A nlat a -> sz A nlat b -> Z.of_nat N + 1 <= nlat ->
  twodtooned A nlat (Z.of_nat N) a b
  = Some (map (fun p => (rmul A (half A) (get2 nlat a (Z.of_nat (fst p) + 1) (Z.of_nat (snd p) + 1)),
                         rmul A (half A) (get2 nlat b (Z.of_nat (fst p) + 1) (Z.of_nat (snd p) + 1)))) (pairs N)).
Proof.
  intros Sa Sb HN. apply (gather A (fun n c => cscale A (half A) c)); [rewrite map_length; apply pairs_length|].
  intros k m n Hk. destruct (index_unique _ _ _ _ Hk) as [Ek B]. rewrite nth_error_map, Hk. cbn [option_map fst snd].
  assert (G : forall x, sz A nlat x -> rd2 nlat x (Z.of_nat m + 1) (Z.of_nat n + 1) = Some (get2 nlat x (Z.of_nat m + 1) (Z.of_nat n + 1))).
  { intros x Sx. unfold get2. destruct (rd2 nlat x _ _) eqn:E; [reflexivity|]. exfalso.
    destruct (wr2_ok A nlat x (Z.of_nat m + 1) (Z.of_nat n + 1) 0f Sx) as (x' & _ & _ & R & _); [lia|lia|].
    unfold rd2, rdz in E. rewrite (proj2 (in2_iff _ _ _)) in E by lia.
    pose proof (flat_bounds nlat (Z.of_nat m + 1) (Z.of_nat n + 1) ltac:(lia) ltac:(lia)) as Bd.
    destruct (Z.ltb_spec ((Z.of_nat n + 1 - 1) * nlat + (Z.of_nat m + 1)) 1); [lia|].
    unfold sz in Sx.
    assert (L : (1 <= Z.to_nat ((Z.of_nat n + 1 - 1) * nlat + (Z.of_nat m + 1)) <= length x)%nat) by nia.
    destruct (rd_Some _ L) as [w Hw]. congruence. }
  exists (get2 nlat a (Z.of_nat m + 1) (Z.of_nat n + 1)), (get2 nlat b (Z.of_nat m + 1) (Z.of_nat n + 1)).
  split; [apply G; exact Sa|]. split; [apply G; exact Sb|]. reflexivity.
Qed.
Lemma roundtrip_21 N nlat (a b : list A) : sz A nlat a -> sz A nlat b -> Z.of_nat N + 1 <= nlat ->
  exists d a' b', twodtooned A nlat (Z.of_nat N) a b = Some d /\ length d = tri N /\
    onedtotwod_at A (Z.of_nat N) nlat d = Some (a', b') /\
    (forall m n, 1 <= m <= n -> n <= Z.of_nat N + 1 -> rd2 nlat a' m n = rd2 nlat a m n /\ rd2 nlat b' m n = rd2 nlat b m n) /\
    (forall m n, 1 <= m <= nlat -> 1 <= n <= nlat -> ~ (m <= n <= Z.of_nat N + 1) ->
       rd2 nlat a' m n = Some 0f /\ rd2 nlat b' m n = Some 0f).
Proof.
  intros Sa Sb HN. pose proof (twodtooned_result N nlat a b Sa Sb HN) as E.
  match type of E with _ = Some ?L => set (d := L) in E end.
  assert (Hd : length d = tri N) by (unfold d; rewrite map_length; apply pairs_length).
  destruct (onedtotwod_result N nlat d ltac:(lia) HN) as (a' & b' & E' & Sa' & Sb' & [Ma Za] & [Mb Zb]).
  exists d, a', b'. split; [exact E|]. split; [exact Hd|]. split; [exact E'|]. split.
  - intros m n H1 H2.
    assert (B : (Z.to_nat (m - 1) <= Z.to_nat (n - 1) <= N)%nat) by lia.
    assert (Hc : nth_error d (index N (Z.to_nat (m - 1)) (Z.to_nat (n - 1))) =
      Some (rmul A (half A) (get2 nlat a m n), rmul A (half A) (get2 nlat b m n))).
    { unfold d. rewrite nth_error_map, (nth_pairs _ _ _ B). cbn [option_map fst snd].
      replace (Z.of_nat (Z.to_nat (m - 1)) + 1) with m by lia. replace (Z.of_nat (Z.to_nat (n - 1)) + 1) with n by lia. reflexivity. }
    pose proof (Ma _ _ _ B Hc) as Ra. pose proof (Mb _ _ _ B Hc) as Rb. cbn [fst snd] in Ra, Rb.
    rewrite two_half in Ra, Rb.
    replace (Z.of_nat (Z.to_nat (m - 1)) + 1) with m in Ra, Rb by lia.
    replace (Z.of_nat (Z.to_nat (n - 1)) + 1) with n in Ra, Rb by lia.
    assert (G : forall x, sz A nlat x -> rd2 nlat x m n = Some (get2 nlat x m n)).
    { intros x Sx. unfold get2. destruct (rd2 nlat x m n) eqn:Ex; [reflexivity|]. exfalso.
      unfold rd2, rdz in Ex. rewrite (proj2 (in2_iff _ _ _)) in Ex by lia.
      pose proof (flat_bounds nlat m n ltac:(lia) ltac:(lia)) as Bd.
      destruct (Z.ltb_spec ((n - 1) * nlat + m) 1); [lia|]. unfold sz in Sx.
      assert (L : (1 <= Z.to_nat ((n - 1) * nlat + m) <= length x)%nat) by nia.
      destruct (rd_Some _ L) as [w Hw]. congruence. }
    rewrite Ra, Rb, (G a Sa), (G b Sb). split; reflexivity.
  - intros m n H1 H2 H3. split; [apply Za|apply Zb]; assumption.
Qed.

(** ** Laplacian *)
Definition lapf (r : A) (n : Z) : A :=
  rmul A (rmul A (ropp A (rz A n)) (rsub A (rz A n) 1f)) (rdiv A 1f (rmul A r r)).
Definition ilapf (r : A) (n : Z) : A :=
  rdiv A (ropp A (rmul A r r)) (rmul A (rz A n) (rsub A (rz A n) 1f)).
Lemma lap_result N r (d junk : list C) : (tri N <= length d)%nat -> (tri N <= length junk)%nat ->
  lap_at A (Z.of_nat N) r d junk
  = Some (pointwise N (fun m n c => cscale A (lapf r (Z.of_nat n + 1)) c) d ++ skipn (tri N) junk).
Proof.
  intros Hd Hj.
  exact (spectral_loop C N d junk (fun m n => Some (cscale A (lapf r n)))
    (fun m n => cscale A (lapf r (Z.of_nat n + 1))) Hd Hj (fun _ _ _ => eq_refl)).
Qed.
Lemma pairs_head N : exists l, pairs N = (0%nat, 0%nat) :: l.
Proof.
  unfold pairs. assert (E : seq 0 (N + 1) = 0%nat :: seq 1 N) by (rewrite Nat.add_1_r; reflexivity).
  rewrite E. cbn [flat_map]. rewrite Nat.sub_0_r, E. cbn [map app]. eexists; reflexivity.
Qed.
Lemma pairs_tail N k m n : nth_error (tl (pairs N)) k = Some (m, n) -> (m <= n <= N)%nat /\ (1 <= n)%nat.
Proof.
  destruct (pairs_head N) as [l E]. rewrite E. cbn [tl]. intro H.
  assert (H' : nth_error (pairs N) (S k) = Some (m, n)) by (rewrite E; exact H).
  destruct (index_unique _ _ _ _ H') as [Ek B]. split; [exact B|].
  destruct n as [|n]; [|lia]. exfalso. assert (m = 0)%nat by lia. subst.
  unfold index in Ek. cbn in Ek. discriminate.
Qed.
End Vals.
