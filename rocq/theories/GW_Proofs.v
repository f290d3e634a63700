(** Proofs about the geostrophic kernel (any arithmetic): loops, the padded
    array, and the value of z2guv at a point. *)
From Verif Require Import Base NdArray AX_Model TP_Model GW_Model GW_Spec.
Local Close Scope Qc_scope.
Local Open Scope nat_scope.

Lemma loop_ind {S} (P : nat -> S -> Prop) body : forall a b s, a <= b + 1 -> P a s ->
  (forall k s, a <= k <= b -> P k s -> P (k + 1) (body s k)) -> P (b + 1) (loop a b body s).
Proof.
  intros a b s L H0 HS. unfold loop.
  assert (G : forall n a s, a + n = b + 1 -> P a s -> (forall k s, a <= k <= b -> P k s -> P (k + 1) (body s k)) ->
             P (b + 1) (fold_left body (seq a n) s)).
  { clear. induction n as [|n IH]; intros a s E H0 HS.
    - cbn [seq fold_left]. replace (b + 1) with a by lia. auto.
    - cbn [seq fold_left]. apply IH; [lia| |].
      + replace (Datatypes.S a) with (a + 1) by lia. apply HS; [lia|auto].
      + intros k s' Hk. apply HS. lia. }
  apply G; auto; lia.
Qed.
Lemma loop_empty {S} a b body (s : S) : b < a -> loop a b body s = s.
Proof. intros H. unfold loop. replace (b + 1 - a) with 0 by lia. reflexivity. Qed.

Lemma set1_eq {T} (f : nat -> T) i v : set1 f i v i = v.
Proof. unfold set1. rewrite Nat.eqb_refl. auto. Qed.
Lemma set1_neq {T} (f : nat -> T) i v k : k <> i -> set1 f i v k = f k.
Proof. intros H. unfold set1. destruct (Nat.eqb_spec k i); [lia|auto]. Qed.
Lemma set2_eq {T} (f : nat -> nat -> T) i j v : set2 f i j v i j = v.
Proof. unfold set2. rewrite !Nat.eqb_refl. auto. Qed.
Lemma set2_neq {T} (f : nat -> nat -> T) i j v k l : k <> i \/ l <> j -> set2 f i j v k l = f k l.
Proof. intros H. unfold set2. destruct (Nat.eqb_spec k i), (Nat.eqb_spec l j); cbn [andb]; auto. lia. Qed.

Lemma loop_set1 {T} a b (v : nat -> T) s k :
  (a <= k <= b -> loop a b (fun s i => set1 s i (v i)) s k = v k) /\
  (~ (a <= k <= b) -> loop a b (fun s i => set1 s i (v i)) s k = s k).
Proof.
  destruct (Nat.lt_ge_cases b a) as [L|L]; [rewrite loop_empty by lia; split; intros; [lia|auto]|].
  pose proof (loop_ind (fun i f => (a <= k < i -> f k = v k) /\ (~ (a <= k < i) -> f k = s k)) (fun s i => set1 s i (v i)) a b s) as H.
  destruct H as [H1 H2]; [lia|split; [lia|auto]| |].
  - intros i f Hi [G1 G2]. split; intros Hk.
    + destruct (Nat.eq_dec k i) as [->|N]; [apply set1_eq|]. rewrite set1_neq by auto. apply G1. lia.
    + rewrite set1_neq by lia. apply G2. lia.
  - split; intros; [apply H1|apply H2]; lia.
Qed.

(** Nested loops that write every cell once, the value at (i,j) depending on the
    old value of that cell only. *)
Lemma loop2_cell {T} a b c d (upd : nat -> nat -> T -> T) s k l :
  (a <= k <= b /\ c <= l <= d ->
   loop a b (fun s i => loop c d (fun s j => set2 s i j (upd i j (s i j))) s) s k l = upd k l (s k l)) /\
  (~ (a <= k <= b /\ c <= l <= d) ->
   loop a b (fun s i => loop c d (fun s j => set2 s i j (upd i j (s i j))) s) s k l = s k l).
Proof.
  assert (IN : forall i s k l,
    (k = i /\ c <= l <= d -> loop c d (fun s j => set2 s i j (upd i j (s i j))) s k l = upd k l (s k l)) /\
    (~ (k = i /\ c <= l <= d) -> loop c d (fun s j => set2 s i j (upd i j (s i j))) s k l = s k l)).
  { clear. intros i s k l. destruct (Nat.lt_ge_cases d c) as [L|L]; [rewrite loop_empty by lia; split; intros; [lia|auto]|].
    pose proof (loop_ind (fun j f => (k = i /\ c <= l < j -> f k l = upd k l (s k l)) /\ (~ (k = i /\ c <= l < j) -> f k l = s k l))
                  (fun s j => set2 s i j (upd i j (s i j))) c d s) as H.
    destruct H as [H1 H2]; [lia|split; [lia|auto]| |].
    - intros j f Hj [G1 G2]. split; intros Hk.
      + destruct Hk as [-> Hk]. destruct (Nat.eq_dec l j) as [->|N].
        * rewrite set2_eq. f_equal. apply G2. lia.
        * rewrite set2_neq by lia. apply G1. lia.
      + rewrite set2_neq by lia. apply G2. lia.
    - split; intros; [apply H1|apply H2]; lia. }
  destruct (Nat.lt_ge_cases b a) as [L|L]; [rewrite loop_empty by lia; split; intros; [lia|auto]|].
  pose proof (loop_ind (fun i f => (a <= k < i /\ c <= l <= d -> f k l = upd k l (s k l)) /\
                                   (~ (a <= k < i /\ c <= l <= d) -> f k l = s k l))
                (fun s i => loop c d (fun s j => set2 s i j (upd i j (s i j))) s) a b s) as H.
  destruct H as [H1 H2]; [lia|split; [lia|auto]| |].
  - intros i f Hi [G1 G2]. split; intros Hk.
    + destruct (Nat.eq_dec k i) as [->|N].
      * rewrite (proj1 (IN i f i l)) by lia. f_equal. apply G2. lia.
      * rewrite (proj2 (IN i f k l)) by lia. apply G1. lia.
    + rewrite (proj2 (IN i f k l)) by lia. apply G2. lia.
  - split; intros; [apply H1|apply H2]; lia.
Qed.

Section Any.
Variable A : fl.
Variables (sn cs : A -> A) (pi : A).

(** ** The padded array *)
Lemma padded_ok nlat mlon iopt z u nl ml : 1 <= nlat -> 1 <= mlon -> 1 <= nl <= nlat -> 1 <= ml <= mlon ->
  let zz := padded A nlat mlon iopt z u in
  let c := (iopt =? 1)%Z in
  zz (nl + 1) ml = z (north nlat nl) ml /\ zz (nl - 1) ml = z (south nl) ml /\
  zz nl (ml + 1) = z nl (east c mlon ml) /\ zz nl (ml - 1) = z nl (west c mlon ml).
Proof.
  intros Hn Hm Hl Hc zz c. subst zz. unfold padded.
  set (z1 := loop 1 nlat _ u).
  assert (E1 : forall k l, 1 <= k <= nlat -> 1 <= l <= mlon -> z1 k l = z k l).
  { intros k l Hk Hl'. subst z1. apply (proj1 (loop2_cell 1 nlat 1 mlon (fun i j _ => z i j) u k l)). lia. }
  set (z2 := loop 1 mlon _ z1).
  assert (E2 : forall k l, k <= nlat + 1 -> 1 <= l <= mlon -> z2 k l = z (if k =? 0 then 1 else if k =? nlat + 1 then nlat else k) l).
  { pose proof (loop_ind (fun j f => (forall k l, 1 <= k <= nlat -> 1 <= l <= mlon -> f k l = z k l) /\
        (forall l, 1 <= l < j -> f 0 l = z 1 l /\ f (nlat + 1) l = z nlat l))
      (fun zz ml => let zz := set2 zz 0 ml (zz 1 ml) in set2 zz (nlat + 1) ml (zz nlat ml)) 1 mlon z1) as H.
    destruct H as [H1 H2]; [lia|split; [auto|intros; lia]| |].
    - intros j f Hj [G1 G2]. cbv zeta. split.
      + intros k l Hk Hl'. rewrite !set2_neq by lia. auto.
      + intros l Hl'. destruct (Nat.eq_dec l j) as [->|N].
        * split; [rewrite set2_neq by lia; rewrite set2_eq; apply G1; lia|]. rewrite set2_eq. rewrite set2_neq by lia. apply G1; lia.
        * rewrite !set2_neq by lia. apply G2. lia.
    - intros k l Hk Hl'. unfold z2. destruct (Nat.eqb_spec k 0) as [->|N0]; [apply H2; lia|].
      destruct (Nat.eqb_spec k (nlat + 1)) as [->|N1]; [apply H2; lia|]. apply H1; lia. }
  assert (E3 : forall zw ze (zz : nat -> nat -> A), 1 <= zw <= mlon -> 1 <= ze <= mlon ->
     zz = loop 0 (nlat + 1) (fun zz nl => let zz := set2 zz nl 0 (zz nl zw) in set2 zz nl (mlon + 1) (zz nl ze)) z2 ->
     (forall k l, k <= nlat + 1 -> 1 <= l <= mlon -> zz k l = z2 k l) /\
     (forall k, k <= nlat + 1 -> zz k 0 = z2 k zw /\ zz k (mlon + 1) = z2 k ze)).
  { intros zw ze zz Hw He ->.
    pose proof (loop_ind (fun j f => (forall k l, k <= nlat + 1 -> 1 <= l <= mlon -> f k l = z2 k l) /\
        (forall k, k < j -> f k 0 = z2 k zw /\ f k (mlon + 1) = z2 k ze))
      (fun zz nl => let zz := set2 zz nl 0 (zz nl zw) in set2 zz nl (mlon + 1) (zz nl ze)) 0 (nlat + 1) z2) as H.
    destruct H as [H1 H2]; [lia|split; [auto|intros; lia]| |].
    - intros j f Hj [G1 G2]. cbv zeta. split.
      + intros k l Hk Hl'. rewrite !set2_neq by lia. auto.
      + intros k Hk. destruct (Nat.eq_dec k j) as [->|N].
        * split; [rewrite set2_neq by lia; rewrite set2_eq; apply G1; lia|]. rewrite set2_eq. rewrite set2_neq by lia. apply G1; lia.
        * rewrite !set2_neq by lia. apply G2. lia.
    - split; [auto|]. intros k Hk. apply H2. lia. }
  match goal with |- context [if (iopt =? 1)%Z then ?x else ?y] => set (zz := if (iopt =? 1)%Z then x else y) end.
  assert (EZ : (forall k l, k <= nlat + 1 -> 1 <= l <= mlon -> zz k l = z2 k l) /\
     (forall k, k <= nlat + 1 -> zz k 0 = z2 k (if c then mlon else 1) /\ zz k (mlon + 1) = z2 k (if c then 1 else mlon))).
  { subst zz. unfold c. destruct (iopt =? 1)%Z; (eapply E3; [| |reflexivity]); lia. }
  destruct EZ as [EI EB]. repeat split.
  - rewrite EI by lia. rewrite E2 by lia. unfold north. f_equal.
    destruct (Nat.eqb_spec (nl + 1) 0), (Nat.eqb_spec (nl + 1) (nlat + 1)), (Nat.eqb_spec nl nlat); lia.
  - rewrite EI by lia. rewrite E2 by lia. unfold south. f_equal.
    destruct (Nat.eqb_spec (nl - 1) 0), (Nat.eqb_spec (nl - 1) (nlat + 1)), (Nat.eqb_spec nl 1); lia.
  - unfold east. destruct (Nat.eqb_spec ml mlon) as [->|N].
    + rewrite (proj2 (EB nl ltac:(lia))). rewrite E2 by (destruct c; lia).
      destruct (Nat.eqb_spec nl 0), (Nat.eqb_spec nl (nlat + 1)); try lia. reflexivity.
    + rewrite EI by lia. rewrite E2 by lia.
      destruct (Nat.eqb_spec nl 0), (Nat.eqb_spec nl (nlat + 1)); try lia. reflexivity.
  - unfold west. destruct (Nat.eqb_spec ml 1) as [->|N].
    + replace (1 - 1) with 0 by lia. rewrite (proj1 (EB nl ltac:(lia))). rewrite E2 by (destruct c; lia).
      destruct (Nat.eqb_spec nl 0), (Nat.eqb_spec nl (nlat + 1)); try lia. reflexivity.
    + rewrite EI by lia. rewrite E2 by lia.
      destruct (Nat.eqb_spec nl 0), (Nat.eqb_spec nl (nlat + 1)); try lia. reflexivity.
Qed.

(** ** The row coefficients *)
Definition row_at nlat (zmsg dlon2 : A) (glat : nat -> A) (nl : nat) : row A :=
  let r := row_coef A sn cs pi zmsg dlon2 (glat nl) in
  if (nl =? 1) && fltb A (glat 1) (fneg A (fc A 89999 1000)) || (nl =? nlat) && fltb A (fc A 89999 1000) (glat nlat)
  then zero_dx A r else r.
Definition inv_dy_at nlat (glat : nat -> A) (nl : nat) : A :=
  fdiv A (fc A 1 1) (fmul A (fsub A (glat (north nlat nl)) (glat (south nl))) (rr A pi)).

Lemma row_coefs_ok nlat zmsg dlon2 glat u nl : 2 <= nlat -> 1 <= nl <= nlat ->
  row_coefs A sn cs pi nlat zmsg dlon2 glat u nl = row_at nlat zmsg dlon2 glat nl.
Proof.
  intros Hn Hl. unfold row_coefs, row_at.
  set (r1 := loop 1 nlat _ u).
  assert (E1 : forall k, 1 <= k <= nlat -> r1 k = row_coef A sn cs pi zmsg dlon2 (glat k)).
  { intros k Hk. exact (proj1 (loop_set1 1 nlat (fun i => row_coef A sn cs pi zmsg dlon2 (glat i)) u k) Hk). }
  destruct (fltb A (glat 1) _); destruct (fltb A _ (glat nlat)).
  - destruct (Nat.eqb_spec nl 1) as [->|N1].
    + rewrite set1_neq by lia. rewrite set1_eq. rewrite E1 by lia. reflexivity.
    + destruct (Nat.eqb_spec nl nlat) as [->|N2].
      * rewrite set1_eq. rewrite set1_neq by lia. rewrite E1 by lia. reflexivity.
      * rewrite !set1_neq by lia. rewrite E1 by lia. reflexivity.
  - rewrite andb_false_r, orb_false_r, andb_true_r. destruct (Nat.eqb_spec nl 1) as [->|N1].
    + rewrite set1_eq, E1 by lia. reflexivity.
    + rewrite set1_neq, E1 by lia. reflexivity.
  - rewrite andb_false_r, andb_true_r. cbn [orb]. destruct (Nat.eqb_spec nl nlat) as [->|N1].
    + rewrite set1_eq, E1 by lia. reflexivity.
    + rewrite set1_neq, E1 by lia. reflexivity.
  - rewrite !andb_false_r. cbn [orb]. apply E1. lia.
Qed.
Lemma inv_dys_ok nlat glat u nl : 2 <= nlat -> 1 <= nl <= nlat -> inv_dys A pi nlat glat u nl = inv_dy_at nlat glat nl.
Proof.
  intros Hn Hl. unfold inv_dys, inv_dy_at, north, south.
  destruct (Nat.eqb_spec nl nlat) as [->|N].
  - rewrite set1_eq. destruct (Nat.eqb_spec nlat 1); [lia|]. reflexivity.
  - rewrite set1_neq by auto. destruct (Nat.eqb_spec nl 1) as [->|N1].
    + match goal with |- loop ?a ?b (fun d nl => set1 d nl (@?v nl)) ?s ?k = _ =>
        rewrite (proj2 (loop_set1 a b v s k)) by lia end. rewrite set1_eq. reflexivity.
    + match goal with |- loop ?a ?b (fun d nl => set1 d nl (@?v nl)) ?s ?k = _ =>
        rewrite (proj1 (loop_set1 a b v s k)) by lia end. reflexivity.
Qed.

(** ** z2guv at a point *)
Definition cell_at nlat mlon (iopt : Z) (zmsg : A) (glon glat : nat -> A) (zn zs ze zw : A) (nl ml : nat) : A * A :=
  let r := row_at nlat zmsg (fmul A (fc A 2 1) (fmul A (rr A pi) (fsub A (glon 2) (glon 1)))) glat nl in
  let w := if r_valid A r then point A zmsg (r_gf A r) (inv_dy_at nlat glat nl) (r_inv_dx A r) zn zs ze zw (zmsg, zmsg)
           else (zmsg, zmsg) in
  if edge (iopt =? 1)%Z mlon ml then doubled A zmsg w else w.

Lemma z2guv_ok J z nlat mlon zmsg glon glat iopt nl ml : 2 <= nlat -> 2 <= mlon -> 1 <= nl <= nlat -> 1 <= ml <= mlon ->
  z2guv A sn cs pi J z nlat mlon zmsg glon glat iopt nl ml =
  let c := (iopt =? 1)%Z in
  cell_at nlat mlon iopt zmsg glon glat (z (north nlat nl) ml) (z (south nl) ml) (z nl (east c mlon ml)) (z nl (west c mlon ml)) nl ml.
Proof.
  intros Hn Hm Hl Hc. cbv zeta. unfold z2guv.
  destruct (Nat.ltb_spec nlat 2) as [?|_]; [lia|]. destruct (Nat.ltb_spec mlon 2) as [?|_]; [lia|]. cbn [orb].
  set (dlon2 := fmul A (fc A 2 1) _). set (rows := row_coefs A sn cs pi nlat zmsg dlon2 glat (j_row A J)).
  set (idy := inv_dys A pi nlat glat (j_dy A J)). set (zz := padded A nlat mlon iopt z (j_zz A J)).
  set (w0 := loop 1 nlat _ (j_uv A J)).
  assert (E0 : forall k l, 1 <= k <= nlat -> 1 <= l <= mlon -> w0 k l = (zmsg, zmsg)).
  { intros k l Hk Hl'. exact (proj1 (loop2_cell 1 nlat 1 mlon (fun _ _ _ => (zmsg, zmsg)) (j_uv A J) k l) (conj Hk Hl')). }
  set (w1 := loop 1 nlat _ w0).
  set (val := fun k l => if r_valid A (rows k) then point A zmsg (r_gf A (rows k)) (idy k) (r_inv_dx A (rows k))
                   (zz (k + 1) l) (zz (k - 1) l) (zz k (l + 1)) (zz k (l - 1)) (zmsg, zmsg) else (zmsg, zmsg)).
  assert (E1 : forall k l, 1 <= k <= nlat -> 1 <= l <= mlon -> w1 k l = val k l).
  { pose proof (loop_ind (fun i f => (forall k l, 1 <= k < i -> 1 <= l <= mlon -> f k l = val k l) /\
          (forall k l, i <= k <= nlat -> 1 <= l <= mlon -> f k l = (zmsg, zmsg)))
       (fun uv nl => if r_valid A (rows nl) then
          loop 1 mlon (fun uv ml => set2 uv nl ml (point A zmsg (r_gf A (rows nl)) (idy nl) (r_inv_dx A (rows nl))
             (zz (nl + 1) ml) (zz (nl - 1) ml) (zz nl (ml + 1)) (zz nl (ml - 1)) (uv nl ml))) uv
          else uv) 1 nlat w0) as H.
    destruct H as [H1 H2]; [lia|split; [intros; lia|auto]| |intros k l Hk Hl'; apply H1; lia].
    intros i f Hi [G1 G2].
    destruct (r_valid A (rows i)) eqn:V.
    - pose proof (fun k l => loop2_cell i i 1 mlon (fun nl ml old => point A zmsg (r_gf A (rows nl)) (idy nl) (r_inv_dx A (rows nl))
             (zz (nl + 1) ml) (zz (nl - 1) ml) (zz nl (ml + 1)) (zz nl (ml - 1)) old) f k l) as L2.
      unfold loop at 1 3 in L2. replace (i + 1 - i) with 1 in L2 by lia. cbn [seq fold_left] in L2.
      split; intros k l Hk Hl'.
      + destruct (Nat.eq_dec k i) as [->|N].
        * rewrite (proj1 (L2 i l)) by lia. unfold val. rewrite V. rewrite G2 by lia. reflexivity.
        * rewrite (proj2 (L2 k l)) by lia. apply G1; lia.
      + rewrite (proj2 (L2 k l)) by lia. apply G2; lia.
    - split; intros k l Hk Hl'; [|apply G2; lia].
      destruct (Nat.eq_dec k i) as [->|N]; [|apply G1; lia]. unfold val. rewrite V. apply G2; lia. }
  assert (EV : val nl ml = (let r := row_at nlat zmsg dlon2 glat nl in
     if r_valid A r then point A zmsg (r_gf A r) (inv_dy_at nlat glat nl) (r_inv_dx A r)
        (z (north nlat nl) ml) (z (south nl) ml) (z nl (east (iopt =? 1)%Z mlon ml)) (z nl (west (iopt =? 1)%Z mlon ml)) (zmsg, zmsg) else (zmsg, zmsg))).
  { unfold val. unfold rows, idy. rewrite row_coefs_ok, inv_dys_ok by auto.
    destruct (padded_ok nlat mlon iopt z (j_zz A J) nl ml) as (P1 & P2 & P3 & P4); try lia. fold zz in P1, P2, P3, P4.
    rewrite P1, P2, P3, P4. reflexivity. }
  unfold cell_at. fold dlon2. cbv zeta in EV |- *. rewrite <- EV. clear EV.
  unfold edge. destruct (iopt =? 1)%Z; cbn [negb andb]; [apply E1; lia|].
  pose proof (loop_ind (fun i f => (forall k l, 1 <= k < i -> 1 <= l <= mlon -> f k l = if (l =? 1) || (l =? mlon) then doubled A zmsg (val k l) else val k l) /\
          (forall k l, i <= k <= nlat -> 1 <= l <= mlon -> f k l = val k l))
       (fun uv nl => let uv := set2 uv nl 1 (doubled A zmsg (uv nl 1)) in
            set2 uv nl mlon (doubled A zmsg (uv nl mlon))) 1 nlat w1) as H.
  destruct H as [H1 H2]; [lia|split; [intros; lia|auto]| |apply H1; lia].
  intros i f Hi [G1 G2]. cbv zeta. split; intros k l Hk Hl'.
  - destruct (Nat.eq_dec k i) as [->|N].
    + destruct (Nat.eqb_spec l 1) as [->|N1]; cbn [orb].
      * rewrite set2_neq by lia. rewrite set2_eq. f_equal. apply G2; lia.
      * destruct (Nat.eqb_spec l mlon) as [->|N2].
        { rewrite set2_eq. rewrite set2_neq by lia. f_equal. apply G2; lia. }
        rewrite !set2_neq by lia. apply G2; lia.
    + rewrite !set2_neq by lia. apply G1; lia.
  - rewrite !set2_neq by lia. apply G2; lia.
Qed.

(** ** zuvnew: z2guv on reversed rows, reversed back *)
Lemma zuvnew_ok J z nlat mlon zmsg glon glat iopt nl ml : 2 <= nlat -> 2 <= mlon -> 1 <= nl <= nlat -> 1 <= ml <= mlon ->
  zuvnew A sn cs pi J z nlat mlon zmsg glon glat iopt nl ml =
  z2guv A sn cs pi J (flipped_rows nlat z) nlat mlon zmsg glon (flipped_rows nlat glat) iopt (nlat + 1 - nl) ml.
Proof.
  intros Hn Hm Hl Hc. unfold zuvnew.
  match goal with |- context [loop 1 nlat ?b (j_lat A J, j_tmp A J)] => set (body := b) end.
  pose proof (loop_ind (fun i (s : (nat -> A) * (nat -> nat -> A)) =>
      (forall k, 1 <= k <= nlat -> nlat + 1 < k + i -> fst s k = glat (nlat + 1 - k)) /\
      (forall k l, 1 <= k <= nlat -> nlat + 1 < k + i -> 1 <= l <= mlon -> snd s k l = z (nlat + 1 - k) l))
    body 1 nlat (j_lat A J, j_tmp A J)) as H.
  destruct H as [H1 H2]; [lia|split; intros; lia| |].
  { intros i [gt zt] Hi [G1 G2]. cbn [fst snd] in G1, G2. unfold body. cbn [fst snd]. split.
    - intros k Hk Hki. destruct (Nat.eq_dec k (nlat + 1 - i)) as [->|N].
      + rewrite set1_eq. f_equal. lia.
      + rewrite set1_neq by auto. apply G1; lia.
    - intros k l Hk Hki Hl'.
      assert (IN : forall k l, 1 <= l <= mlon ->
         loop 1 mlon (fun zt ml => set2 zt (nlat + 1 - i) ml (z i ml)) zt k l = if k =? nlat + 1 - i then z i l else zt k l).
      { clear. intros k l Hl.
        pose proof (loop_ind (fun j f => forall l, 1 <= l <= mlon ->
             f k l = if (k =? nlat + 1 - i) && (l <? j) then z i l else zt k l)
           (fun zt ml => set2 zt (nlat + 1 - i) ml (z i ml)) 1 mlon zt) as H.
        rewrite H; auto; try lia.
        - destruct (Nat.ltb_spec l (mlon + 1)); [|lia]. rewrite andb_true_r. reflexivity.
        - intros l0 Hl0. destruct (Nat.ltb_spec l0 1); [lia|]. rewrite andb_false_r. reflexivity.
        - intros j f Hj G l0 Hl0. unfold set2. rewrite G by auto.
          destruct (Nat.eqb_spec k (nlat + 1 - i)), (Nat.eqb_spec l0 j), (Nat.ltb_spec l0 j), (Nat.ltb_spec l0 (j + 1)); cbn [andb]; try lia; subst; auto. }
      rewrite IN by auto. destruct (Nat.eqb_spec k (nlat + 1 - i)) as [->|N].
      + f_equal. lia.
      + apply G2; lia. }
  destruct (loop 1 nlat body _) as [gt zt]. cbn [fst snd] in H1, H2.
  set (uv := z2guv A sn cs pi J zt nlat mlon zmsg glon gt iopt).
  assert (EU : forall k l, 1 <= k <= nlat -> 1 <= l <= mlon ->
     uv k l = z2guv A sn cs pi J (flipped_rows nlat z) nlat mlon zmsg glon (flipped_rows nlat glat) iopt k l).
  { intros k l Hk Hl'. unfold uv. rewrite !z2guv_ok by auto.
    assert (EG : forall i, 1 <= i <= nlat -> gt i = flipped_rows nlat glat i) by (intros i Hi; apply H1; lia).
    assert (EZ : forall i j, 1 <= i <= nlat -> 1 <= j <= mlon -> zt i j = flipped_rows nlat z i j) by (intros i j Hi Hj; apply H2; lia).
    assert (N1 : 1 <= north nlat k <= nlat) by (unfold north; destruct (Nat.eqb_spec k nlat); lia).
    assert (S1 : 1 <= south k <= nlat) by (unfold south; destruct (Nat.eqb_spec k 1); lia).
    assert (W1 : 1 <= west (iopt =? 1)%Z mlon l <= mlon) by (unfold west; destruct (Nat.eqb_spec l 1), (iopt =? 1)%Z; lia).
    assert (W2 : 1 <= east (iopt =? 1)%Z mlon l <= mlon) by (unfold east; destruct (Nat.eqb_spec l mlon), (iopt =? 1)%Z; lia).
    cbv zeta. unfold cell_at, row_at, inv_dy_at. rewrite !EG, !EZ by lia. reflexivity. }
  match goal with |- snd (loop 1 mlon ?b ?s) nl ml = _ => set (body2 := b); set (s0 := s) end.
  pose proof (loop_ind (fun j (s : (nat -> A * A) * (nat -> nat -> A * A)) =>
      (forall k l, 1 <= k <= nlat -> 1 <= l < j -> snd s k l = uv (nlat + 1 - k) l) /\
      (forall k l, 1 <= k <= nlat -> j <= l <= mlon -> snd s k l = uv k l)) body2 1 mlon s0) as H.
  destruct H as [K1 K2]; [lia|split; [intros; lia|auto]| |].
  { intros j [t f] Hj [G1 G2]. cbn [fst snd] in G1, G2. unfold body2. cbn [fst snd].
    set (tmp := loop 1 nlat _ t).
    assert (ET : forall k, 1 <= k <= nlat -> tmp k = f (nlat + 1 - k) j).
    { pose proof (loop_ind (fun i g => forall k, 1 <= k <= nlat -> nlat + 1 < k + i -> g k = f (nlat + 1 - k) j)
         (fun t nl => set1 t (nlat + 1 - nl) (f nl j)) 1 nlat t) as H.
      intros k Hk. apply H; try lia.
      intros i g Hi G k0 Hk0 Hki. destruct (Nat.eq_dec k0 (nlat + 1 - i)) as [->|N].
      - rewrite set1_eq. f_equal. lia.
      - rewrite set1_neq by auto. apply G; lia. }
    assert (IN : forall k l, 1 <= k <= nlat ->
         loop 1 nlat (fun uv nl => set2 uv nl j (tmp nl)) f k l = if l =? j then tmp k else f k l).
    { intros k l Hk.
      pose proof (loop_ind (fun i g => forall k, 1 <= k <= nlat ->
             g k l = if (l =? j) && (k <? i) then tmp k else f k l)
           (fun uv nl => set2 uv nl j (tmp nl)) 1 nlat f) as H.
      rewrite H; auto; try lia.
      - destruct (Nat.ltb_spec k (nlat + 1)); [|lia]. rewrite andb_true_r. reflexivity.
      - intros k0 Hk0. destruct (Nat.ltb_spec k0 1); [lia|]. rewrite andb_false_r. reflexivity.
      - intros i g Hi G k0 Hk0. unfold set2. rewrite G by auto.
        destruct (Nat.eqb_spec k0 i), (Nat.eqb_spec l j), (Nat.ltb_spec k0 i), (Nat.ltb_spec k0 (i + 1)); cbn [andb]; try lia; subst; auto. }
    split; intros k l Hk Hl'; rewrite IN by auto; destruct (Nat.eqb_spec l j) as [->|N]; try lia.
    - rewrite ET by auto. apply G2; lia.
    - apply G1; lia.
    - apply G2; lia. }
  rewrite K1 by lia. apply EU; lia.
Qed.
End Any.
