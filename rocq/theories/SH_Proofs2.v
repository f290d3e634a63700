(** What the loop nests store. *)
From Coq Require Import Lia Arith ZArith List Bool.
From Verif Require Import Base Buffer VH_Model VH_Proofs SH_Model SH_Spec SH_Proofs IS_Proofs TG_Proofs.
Import ListNotations.
Local Open Scope Z_scope.

Lemma rdz_nth (X : Type) (a : list X) k : rdz a (Z.of_nat k + 1) = nth_error a k.
Proof.
  unfold rdz. destruct (Z.ltb_spec (Z.of_nat k + 1) 1); [lia|].
  replace (Z.to_nat (Z.of_nat k + 1)) with (S k) by lia. reflexivity.
Qed.
Lemma wrz_app (X : Type) (pre : list X) x rest k v : k = length pre ->
  wrz (pre ++ x :: rest) (Z.of_nat k + 1) v = Some (pre ++ v :: rest).
Proof.
  intros ->. unfold wrz. destruct (Z.ltb_spec (Z.of_nat (length pre) + 1) 1); [lia|].
  replace (Z.to_nat (Z.of_nat (length pre) + 1)) with (S (length pre)) by lia.
  rewrite wrx_ok by (rewrite app_length; cbn [length]; lia). f_equal.
  unfold wr. cbn [Nat.eqb Nat.sub]. rewrite ?Nat.sub_0_r, upd0_app_r, Nat.sub_diag by lia. reflexivity.
Qed.

(** Writing positions k, k+1, ... one after the other. *)
Lemma stream_write (X P : Type) (val : nat * P -> option X) (v : nat * P -> X) (l : list P) :
  forall k pre rest, length pre = k -> (length l <= length rest)%nat ->
  (forall e, In e (enum k l) -> val e = Some (v e)) ->
  foldM (fun out e => let* x := val e in wrz out (Z.of_nat (fst e) + 1) x) (enum k l) (pre ++ rest)
  = Some (pre ++ map v (enum k l) ++ skipn (length l) rest).
Proof.
  induction l as [|p l IH]; intros k pre rest Hk Hr Hv; [reflexivity|].
  destruct rest as [|x rest]; [cbn in Hr; lia|]. rewrite enum_cons in *. cbn [foldM].
  rewrite (Hv (k, p)) by (left; reflexivity). cbn [bind fst].
  rewrite wrz_app by lia. cbn [bind].
  replace (pre ++ v (k, p) :: rest) with ((pre ++ [v (k, p)]) ++ rest) by (rewrite <- app_assoc; reflexivity).
  rewrite IH.
  - rewrite <- app_assoc; reflexivity.
  - rewrite app_length; cbn [length]; lia.
  - cbn [length] in Hr; lia.
  - intros e He; apply Hv; right; exact He.
Qed.

Lemma map_enum_pointwise (X Y : Type) N (f : nat -> nat -> X -> Y) (d : list X) (v : nat * (nat * nat) -> Y) :
  (tri N <= length d)%nat ->
  (forall k m n x, nth_error d k = Some x -> nth_error (pairs N) k = Some (m, n) -> v (k, (m, n)) = f m n x) ->
  map v (enum 0 (pairs N)) = pointwise N f d.
Proof.
  intros Hd Hv. unfold pointwise. apply nth_error_ext_all; intro i. rewrite !nth_error_map, enum_nth.
  destruct (nth_error (pairs N) i) as [[m n]|] eqn:E.
  - assert (Hi : (i < length d)%nat) by (apply (Nat.lt_le_trans _ (tri N)); [rewrite <- pairs_length; apply nth_error_Some; rewrite E; discriminate|exact Hd]).
    destruct (nth_error d i) as [x|] eqn:Ed; [|apply nth_error_None in Ed; lia].
    assert (C : nth_error (combine d (pairs N)) i = Some (x, (m, n))).
    { clear -E Ed. revert i Ed E. generalize (pairs N) as l. induction d as [|y d IH]; intros [|p l] [|i]; cbn; try discriminate.
      - intros E1 E2; injection E1 as ->; injection E2 as ->; reflexivity.
      - apply IH. }
    rewrite C; cbn [option_map fst snd Nat.add]. f_equal. apply Hv; assumption.
  - cbn [option_map]. symmetry. apply nth_error_None in E.
    rewrite (proj2 (nth_error_None _ _)); [reflexivity|]. rewrite combine_length; lia.
Qed.

Lemma pointwise_length (X Y : Type) N (f : nat -> nat -> X -> Y) d : (tri N <= length d)%nat -> length (pointwise N f d) = tri N.
Proof. intro H; unfold pointwise; rewrite map_length, combine_length, pairs_length; lia. Qed.
Lemma pointwise_nth (X Y : Type) N (f : nat -> nat -> X -> Y) d k m n x :
  nth_error d k = Some x -> nth_error (pairs N) k = Some (m, n) -> nth_error (pointwise N f d) k = Some (f m n x).
Proof.
  intros E1 E2. unfold pointwise. rewrite nth_error_map.
  assert (C : nth_error (combine d (pairs N)) k = Some (x, (m, n))); [|rewrite C; reflexivity].
  revert k E1 E2. generalize (pairs N) as l. induction d as [|y d IH]; intros [|p l] [|k]; cbn; try discriminate.
  - intros A B; injection A as ->; injection B as ->; reflexivity.
  - apply IH.
Qed.

(** A spectrum computed elementwise from another one. *)
Lemma spectral_loop (X : Type) N (inp junk : list X) (g : Z -> Z -> option (X -> X)) (f : nat -> nat -> X -> X) :
  (tri N <= length inp)%nat -> (tri N <= length junk)%nat ->
  (forall m n, (m <= n <= N)%nat -> g (Z.of_nat m + 1) (Z.of_nat n + 1) = Some (f m n)) ->
  tri_loop (Z.of_nat N) (fun m => m)
    (fun m n nm out => let* h := g m n in let* c := rdz inp nm in wrz out nm (h c)) junk
  = Some (pointwise N f inp ++ skipn (tri N) junk).
Proof.
  intros Hi Hj Hg. rewrite tri_loop_visits.
  pose (val := fun e : nat * (nat * nat) =>
      let* h := g (Z.of_nat (fst (snd e)) + 1) (Z.of_nat (snd (snd e)) + 1) in
      let* c := rdz inp (Z.of_nat (fst e) + 1) in Some (h c)).
  rewrite (foldM_ext_in _ _ _ (fun out e => let* x := val e in wrz out (Z.of_nat (fst e) + 1) x)).
  2:{ intros out [k [m n]] _. unfold visit, val; cbn [fst snd].
      destruct (g _ _); [|reflexivity]. cbn [bind]. destruct (rdz inp _); reflexivity. }
  assert (Hx : exists x0, nth_error inp 0 = Some x0).
  { destruct (nth_error inp 0) as [x|] eqn:E0; [exists x; reflexivity|].
    apply nth_error_None in E0. pose proof (tri2 N). lia. }
  destruct Hx as [x0 _].
  pose (v := fun e : nat * (nat * nat) => f (fst (snd e)) (snd (snd e)) (nth (fst e) inp x0)).
  change junk with ([] ++ junk) at 1.
  rewrite (stream_write X (nat * nat) val v); [|reflexivity|rewrite pairs_length; exact Hj|].
  - cbn [app]. rewrite pairs_length. do 2 f_equal. apply (map_enum_pointwise X X N f inp v Hi).
    intros k m n x E1 E2. unfold v; cbn [fst snd]. rewrite (nth_error_nth _ _ _ E1). reflexivity.
  - intros [k [m n]] He. apply enum_in in He. destruct He as [_ He]. rewrite Nat.sub_0_r in He.
    pose proof (index_unique _ _ _ _ He) as [Ek B].
    unfold val, v; cbn [fst snd]. rewrite Hg by exact B. cbn [bind]. rewrite rdz_nth.
    rewrite (nth_error_nth' inp x0); [reflexivity|]. rewrite Ek. apply (Nat.lt_le_trans _ (tri N)); [apply index_lt; exact B|exact Hi].
Qed.

(** ** The first row without its first entry (invlap.f90:31-32) *)
Lemma tri_loop_skip (S : Type) (body : Z -> Z -> Z -> S -> option S) (N : nat) s :
  tri_loop (Z.of_nat N) (fun m => if (m =? 1)%Z then 2 else m) body s
  = foldM (visit S body) (tl (enum 0 (pairs N))) s.
Proof.
  unfold tri_loop. change (pairs N) with (rows N 0 (N + 1)).
  replace (N + 1)%nat with (Datatypes.S N) by lia. rewrite rows_S, enum_app.
  replace (N + 1 - 0)%nat with (Datatypes.S N) by lia.
  assert (E : dolist 1 (Z.of_nat N + 1) = 1 :: map (fun j => Z.of_nat j + 1) (seq 1 N)).
  { change 1 with (Z.of_nat 1). rewrite <- Nat2Z.inj_add, dolist_seq.
    replace (Datatypes.S (N + 1) - 1)%nat with (Datatypes.S N) by lia.
    cbn [seq map]. f_equal. rewrite <- seq_shift, map_map; apply map_ext; intro; lia. }
  rewrite E. cbn [foldM fst snd]. change (1 =? 1) with true. cbv iota.
  cbn [seq map]. rewrite enum_cons. cbn [app tl]. rewrite foldM_app.
  assert (R : forall s, foldM (fun s n => body 1 n (0 + n - 1 + 1) s) (dolist 2 (Z.of_nat N + 1)) s
     = foldM (visit S body) (enum 1 (map (fun n : nat => (0%nat, n)) (seq 1 N))) s).
  { intro s0. pose proof (row_loop S body N 0 0 s0 ltac:(lia)) as H.
    replace (dolist 2 (Z.of_nat N + 1)) with (map (fun j => Z.of_nat j + 1) (seq 1 N)).
    2:{ change 2 with (Z.of_nat 2). rewrite <- Nat2Z.inj_add || idtac.
        replace (Z.of_nat N + 1) with (Z.of_nat (N + 1)) by lia. rewrite dolist_seq.
        replace (Datatypes.S (N + 1) - 2)%nat with N by lia.
        rewrite <- (seq_shift N 1), map_map; apply map_ext; intro; lia. }
    rewrite enum_map, seq_enum, !foldM_map.
    rewrite <- seq_shift, foldM_map. apply foldM_ext_in. intros s' j _.
    unfold visit; cbn [fst snd]. f_equal; lia. }
  rewrite R. destruct (foldM (visit S body) _ s) as [s'|]; [|reflexivity]. cbn [bind].
  cbn [length]; rewrite map_length, seq_length.
  rewrite <- (rows_loop S body N N 1 (0 + Datatypes.S N)) by lia.
  replace (0 + Z.of_nat N - 1 + 2) with (Z.of_nat (0 + Datatypes.S N)) by lia.
  f_equal. apply foldM_ext_in. intros st m Hm. apply in_map_iff in Hm. destruct Hm as (j & <- & Hj).
  apply in_seq in Hj. destruct (Z.eqb_spec (Z.of_nat j + 1) 1); [lia|]. reflexivity.
Qed.

(** ** Pairs of loops *)
Lemma foldM_pair (X S1 S2 : Type) (f : S1 -> X -> option S1) (g : S2 -> X -> option S2)
    (h : S1 * S2 -> X -> option (S1 * S2)) (l : list X) :
  (forall s t x, h (s, t) x = match f s x, g t x with Some s', Some t' => Some (s', t') | _, _ => None end) ->
  forall s t, foldM h l (s, t)
    = match foldM f l s, foldM g l t with Some s', Some t' => Some (s', t') | _, _ => None end.
Proof.
  intro H. induction l as [|x l IH]; intros s t; [reflexivity|]. cbn [foldM]. rewrite H.
  destruct (f s x) as [s'|]; [|reflexivity].
  destruct (g t x) as [t'|]; cbn [bind]; [apply IH|]. destruct (foldM f l s'); reflexivity.
Qed.

(** ** Two-dimensional arrays *)
Section TwoD.
Variable X : Type.
Lemma in2_iff nlat m n : in2 nlat m n = true <-> 1 <= m <= nlat /\ 1 <= n <= nlat.
Proof.
  unfold in2. rewrite !andb_true_iff, !Z.leb_le. lia.
Qed.
Definition sz (nlat : Z) (a : list X) : Prop := length a = (Z.to_nat nlat * Z.to_nat nlat)%nat.
Lemma flat_bounds nlat m n : 1 <= m <= nlat -> 1 <= n <= nlat -> 1 <= (n - 1) * nlat + m <= nlat * nlat.
Proof. nia. Qed.
Lemma wr2_ok nlat a m n v : sz nlat a -> 1 <= m <= nlat -> 1 <= n <= nlat ->
  exists a', wr2 nlat a m n v = Some a' /\ sz nlat a' /\ rd2 nlat a' m n = Some v /\
    (forall i j, (i, j) <> (m, n) -> rd2 nlat a' i j = rd2 nlat a i j).
Proof.
  intros Ha Hm Hn. unfold wr2, rd2. rewrite (proj2 (in2_iff nlat m n)) by (split; assumption).
  pose proof (flat_bounds nlat m n Hm Hn) as B. unfold wrz, rdz, sz in *.
  destruct (Z.ltb_spec ((n - 1) * nlat + m) 1); [lia|].
  assert (Hl : (1 <= Z.to_nat ((n - 1) * nlat + m) <= length a)%nat) by (rewrite Ha; nia).
  rewrite wrx_ok by exact Hl.
  eexists; split; [reflexivity|]. split; [rewrite wr_length; exact Ha|].
  split; [apply rd_wr_eq; exact Hl|].
  intros i j Hij. destruct (in2 nlat i j) eqn:E; [|reflexivity]. apply in2_iff in E.
  pose proof (flat_bounds nlat i j ltac:(lia) ltac:(lia)) as B'.
  destruct (Z.ltb_spec ((j - 1) * nlat + i) 1); [lia|]. apply rd_wr_neq.
  intro F. apply Z2Nat.inj in F; [|lia|lia]. apply Hij.
  assert (n = j) by nia. subst j. f_equal; lia.
Qed.
Lemma rd2_repeat nlat (z : X) m n : 1 <= m <= nlat -> 1 <= n <= nlat ->
  rd2 nlat (repeat z (Z.to_nat nlat * Z.to_nat nlat)) m n = Some z.
Proof.
  intros Hm Hn. unfold rd2, rdz. rewrite (proj2 (in2_iff nlat m n)) by (split; assumption).
  pose proof (flat_bounds nlat m n Hm Hn) as B.
  destruct (Z.ltb_spec ((n - 1) * nlat + m) 1); [lia|].
  assert (L : (1 <= Z.to_nat ((n - 1) * nlat + m) <= length (repeat z (Z.to_nat nlat * Z.to_nat nlat)))%nat)
    by (rewrite repeat_length; nia).
  destruct (rd_Some _ L) as [v Hv].
  rewrite Hv. apply rd_In in Hv. apply repeat_spec in Hv. subst; reflexivity.
Qed.

(** Storing a value for every (m, n) of the triangle. *)
Lemma store2 (nlat : Z) (val : nat * (nat * nat) -> option X) (v : nat * (nat * nat) -> X) N :
  Z.of_nat N + 1 <= nlat ->
  (forall e, In e (enum 0 (pairs N)) -> val e = Some (v e)) ->
  forall a, sz nlat a ->
  exists a', foldM (fun a e => let* x := val e in
        wr2 nlat a (Z.of_nat (fst (snd e)) + 1) (Z.of_nat (snd (snd e)) + 1) x) (enum 0 (pairs N)) a = Some a' /\
    sz nlat a' /\
    (forall m n, (m <= n <= N)%nat -> rd2 nlat a' (Z.of_nat m + 1) (Z.of_nat n + 1) = Some (v (index N m n, (m, n)))) /\
    (forall i j, ~ (1 <= i <= j /\ j <= Z.of_nat N + 1) -> rd2 nlat a' i j = rd2 nlat a i j).
Proof.
  intros HN Hv.
  assert (G : forall l k, NoDup l -> (forall e, In e (enum k l) -> val e = Some (v e)) ->
      (forall m n, In (m, n) l -> (m <= n <= N)%nat) -> forall a, sz nlat a ->
      exists a', foldM (fun a e => let* x := val e in
        wr2 nlat a (Z.of_nat (fst (snd e)) + 1) (Z.of_nat (snd (snd e)) + 1) x) (enum k l) a = Some a' /\
      sz nlat a' /\
      (forall i m n, In (i, (m, n)) (enum k l) -> rd2 nlat a' (Z.of_nat m + 1) (Z.of_nat n + 1) = Some (v (i, (m, n)))) /\
      (forall i j, (forall m n, In (m, n) l -> (i, j) <> (Z.of_nat m + 1, Z.of_nat n + 1)) ->
          rd2 nlat a' i j = rd2 nlat a i j)).
  { clear Hv. induction l as [|[m n] l IH]; intros k D Hv Hin a Ha.
    - exists a; repeat split; [exact Ha|intros ? ? ? []].
    - inversion D as [|? ? Hnot D']; subst. rewrite enum_cons in *. cbn [foldM].
      rewrite (Hv (k, (m, n))) by (left; reflexivity). cbn [bind fst snd].
      pose proof (Hin m n (or_introl eq_refl)) as B.
      destruct (wr2_ok nlat a (Z.of_nat m + 1) (Z.of_nat n + 1) (v (k, (m, n))) Ha) as (a1 & E1 & S1 & R1 & O1); [lia|lia|].
      rewrite E1. destruct (IH (S k) D') with (a := a1) as (a' & E & S' & R & O); [intros e He; apply Hv; right; exact He|intros; apply Hin; right; assumption|exact S1|].
      exists a'. split; [exact E|]. split; [exact S'|]. split.
      + intros i p q [F|F].
        * injection F as <- <- <-. rewrite O; [exact R1|]. intros p q Hpq F. apply Hnot. injection F as F1 F2.
          replace m with p by lia. replace n with q by lia. exact Hpq.
        * apply R; exact F.
      + intros i j Hij. rewrite O by (intros; apply Hij; right; assumption). apply O1. apply Hij; left; reflexivity. }
  intros a Ha. destruct (G (pairs N) 0%nat (pairs_nodup N) Hv) with (a := a) as (a' & E & S' & R & O).
  - intros m n H; apply pairs_in; exact H.
  - exact Ha.
  - exists a'. split; [exact E|]. split; [exact S'|]. split.
    + intros m n B. apply R. apply enum_in. split; [lia|]. rewrite Nat.sub_0_r. apply nth_pairs; exact B.
    + intros i j B. apply O. intros m n Hmn F. injection F as -> ->. apply pairs_in in Hmn. apply B. lia.
Qed.
End TwoD.
