From Verif Require Import Base Buffer Loops VH_Model VH_Proofs LI_Proofs TG_Model RG_Model RG_Spec.
Local Open Scope nat_scope.

Lemma incr_after_ok l : forall p, increasing_after p l = true <-> ascending (p :: l).
Proof.
  induction l as [|a l IH]; intros p; cbn [increasing_after].
  - split; auto. intros _ i j x y H Hi Hj. destruct j as [|[|j]]; simpl in Hj; try discriminate; lia.
  - destruct (Qcltb_spec p a) as [L|L].
    + rewrite IH. split; intros H.
      * assert (F : forall j y, nth_error (a :: l) j = Some y -> (a <= y)%Qc).
        { intros [|j] y Hj; [injection Hj as ->; apply Qcle_refl|]. apply Qclt_le_weak. apply (H 0 (Datatypes.S j)); auto. lia. }
        intros [|i] [|j] x y Hij Hi Hj; try lia.
        -- injection Hi as <-. apply Qclt_le_trans with a; auto. apply (F j); auto.
        -- apply (H i j); auto. lia.
      * intros i j x y Hij Hi Hj. apply (H (Datatypes.S i) (Datatypes.S j)); auto. lia.
    + split; [discriminate|]. intros H. exfalso. apply L. apply (H 0 1); auto.
Qed.
Lemma increasing_ok l : is_strictly_increasing l = true <-> ascending l.
Proof.
  destruct l as [|a l]; [|apply incr_after_ok]. split; auto. intros _ i j x y _ H. destruct i; discriminate.
Qed.
Lemma empty_ok (A : Type) (l : list A) : empty l = false <-> 0 < length l.
Proof. destruct l; simpl; split; auto; try lia; discriminate. Qed.
Lemma nth_some (A : Type) (l : list A) k : k < length l -> exists a, nth_error l k = Some a.
Proof. intros H. destruct (nth_error l k) eqn:E; eauto. apply nth_error_None in E. lia. Qed.
Lemma nth_bound (A : Type) (l : list A) k a : nth_error l k = Some a -> k < length l.
Proof. intros H. apply nth_error_Some. congruence. Qed.

Lemma bisect_ok x v : ascending v -> forall fuel lo hi a b, lo < hi -> hi - lo <= fuel -> nth_error v lo = Some a -> nth_error v hi = Some b -> (a <= x)%Qc -> (x < b)%Qc ->
  exists k c d, bisect fuel x v lo hi = Some k /\ nth_error v k = Some c /\ nth_error v (k + 1) = Some d /\ (c <= x)%Qc /\ (x < d)%Qc.
Proof.
  intros A. induction fuel as [|fuel IH]; intros lo hi a b H F Ha Hb La Lb; [lia|]. cbn [bisect].
  destruct (Nat.leb_spec (hi - lo) 1) as [L|L].
  - exists lo, a, b. replace (lo + 1) with hi by lia. auto.
  - assert (M : lo < lo + (hi - lo) / 2 < hi).
    { pose proof (Nat.div_lt (hi - lo) 2). pose proof (Nat.div_le_lower_bound (hi - lo) 2 1). lia. }
    destruct (nth_some _ v (lo + (hi - lo) / 2)) as [c C]; [pose proof (nth_bound _ _ _ _ Hb); lia|]. rewrite C. cbn [bind].
    destruct (Qcleb_spec c x) as [X|X].
    + apply (IH _ _ c b); auto; lia.
    + apply (IH _ _ a c); auto; try lia. apply Qcnot_le_lt. auto.
Qed.
Lemma Qcfrac (x a b : Qc) : (a < b)%Qc -> ((x - a) / (b - a) * (b - a) = x - a)%Qc.
Proof. intros H. field. apply (Qcpos_neq). qclra. Qed.
Lemma bracket_ok x v : 0 < length v -> ascending v -> exists k f, bracket_clamped x v = Some (Some (k, f)) /\ position v x k f /\ k < length v.
Proof.
  intros L A. unfold bracket_clamped. destruct (Nat.leb_spec (length v) 1) as [H|H].
  { exists 0, 0%Qc. split; auto. split; [|lia]. left. split; auto. lia. }
  destruct (nth_some _ v 0) as [v0 V0]; [lia|]. destruct (nth_some _ v 1) as [v1 V1]; [lia|]. rewrite V0. cbn [bind]. destruct (Qcleb_spec x v0) as [X|X].
  { exists 0, 0%Qc. split; auto. split; [|lia]. right. exists v0, v1. auto 10. }
  destruct (nth_some _ v (length v - 1)) as [vn Vn]; [lia|]. destruct (nth_some _ v (length v - 2)) as [vm Vm]; [lia|]. rewrite Vn. cbn [bind]. destruct (Qcleb_spec vn x) as [Y|Y].
  { exists (length v - 2), 1%Qc. split; auto. split; [|lia]. right. exists vm, vn. replace (length v - 2 + 1) with (length v - 1) by lia. split; auto. split; auto. right. left. split; auto. split; auto. lia. }
  destruct (bisect_ok x v A (length v) 0 (length v - 1) v0 vn) as [k [c [d [E [C [D [P Q]]]]]]]; auto; try lia.
  { apply Qclt_le_weak, Qcnot_le_lt. auto. } { apply Qcnot_le_lt. auto. }
  rewrite E. cbn [bind]. rewrite D, C. cbn [bind]. assert (CD : (c < d)%Qc) by (apply (A k (k + 1)); auto; lia). destruct (Qcleb_spec (d - c)%Qc 0%Qc) as [Z|Z]; [exfalso; qclra|].
  exists k, ((x - c) / (d - c))%Qc. split; auto. split; [|pose proof (nth_bound _ _ _ _ C); lia]. right. exists c, d. split; auto. split; auto. right. right. split; auto. split; auto. apply Qcfrac. auto.
Qed.

Lemma emap_ok (A B : Type) (f : A -> raising B) (R : A -> B -> Prop) l : (forall a, In a l -> exists b, f a = Some (Some b) /\ R a b) ->
  exists bs, emap f l = Some (Some bs) /\ length bs = length l /\ forall i a, nth_error l i = Some a -> exists b, nth_error bs i = Some b /\ R a b.
Proof.
  induction l as [|a l IH]; intros H; cbn [emap].
  - exists []. split; auto. split; auto. intros [|i] a E; discriminate.
  - destruct (H a (or_introl eq_refl)) as [b [E Rb]]. rewrite E. cbn [ebind]. destruct IH as [bs [E2 [L K]]]; [intros; apply H; right; auto|]. rewrite E2. cbn [ebind].
    exists (b :: bs). split; auto. split; [simpl; auto|]. intros [|i] a' E'; [injection E' as <-; exists b; auto|]. apply K. auto.
Qed.
Lemma shaped_of (A B C : Type) (rows : list (list B)) (l : list A) (m : list C) : length rows = length l ->
  (forall i a, nth_error l i = Some a -> exists r, nth_error rows i = Some r /\ length r = length m) -> shaped rows (length l) (length m).
Proof.
  intros L H. split; auto. intros r I. apply In_nth_error in I. destruct I as [i E]. destruct (nth_some _ l i) as [a A']; [pose proof (nth_bound _ _ _ _ E); lia|].
  destruct (H i a A') as [r' [E' Lr]]. congruence.
Qed.

(** one value *)
Definition corner (xs : list Qc) (k : nat) : nat := if 1 <? length xs then k + 1 else k.
Lemma position_next xs x k f : position xs x k f -> k < length xs /\ corner xs k < length xs /\ (corner xs k = k + 1 \/ (corner xs k = k /\ f = 0%Qc)).
Proof.
  unfold corner. intros [[L [-> ->]]|[a [b [A [B _]]]]].
  - rewrite L. change (1 <? 1) with false. auto.
  - pose proof (nth_bound _ _ _ _ A). pose proof (nth_bound _ _ _ _ B). destruct (Nat.ltb_spec 1 (length xs)); [|lia]. auto.
Qed.
Lemma flat_bound i j n m : i < n -> j < m -> i * m + j < n * m.
Proof. nia. Qed.
Lemma value_ok field xs ys F x y k f l g : holds (length xs) (length ys) field F -> position xs x k f -> position ys y l g ->
  exists v, bilinear_value field (length xs) (length ys) (k, f) (l, g) = Some (Some v) /\ bilinear_at xs ys F x y v.
Proof.
  intros [_ H] P Q. destruct (position_next _ _ _ _ P) as [A [B C]]. destruct (position_next _ _ _ _ Q) as [D [E G]].
  unfold bilinear_value. cbn [fst snd]. fold (corner xs k). fold (corner ys l). rewrite !H by auto. cbn [bind csub cadd cmul]. eexists. split; [reflexivity|].
  exists k, f, l, g. split; auto. split; auto. destruct C as [->|[-> ->]], G as [->|[-> ->]]; ring.
Qed.
Lemma core_ok field xs ys tx ty F : 0 < length xs -> 0 < length ys -> ascending xs -> ascending ys -> holds (length xs) (length ys) field F ->
  exists rows, bilinear_core field xs ys tx ty = Some (Some rows) /\ shaped rows (length tx) (length ty) /\
    forall i j x y, nth_error tx i = Some x -> nth_error ty j = Some y -> exists v, entry rows i j = Some (Some v) /\ bilinear_at xs ys F x y v.
Proof.
  intros Lx Ly Ax Ay H. unfold bilinear_core.
  destruct (emap_ok _ _ (fun x => ebind (bracket_clamped x xs) (fun px => emap (fun y => ebind (bracket_clamped y ys) (fun py => ok (bilinear_value field (length xs) (length ys) px py))) ty))
    (fun x r => length r = length ty /\ forall j y, nth_error ty j = Some y -> exists v, nth_error r j = Some (Some v) /\ bilinear_at xs ys F x y v) tx) as [rows [E [L K]]].
  - intros x _. destruct (bracket_ok x xs Lx Ax) as [k [f [B [P _]]]]. rewrite B. cbn [ebind].
    destruct (emap_ok _ _ (fun y => ebind (bracket_clamped y ys) (fun py => ok (bilinear_value field (length xs) (length ys) (k, f) py)))
      (fun y c => exists v, c = Some v /\ bilinear_at xs ys F x y v) ty) as [r [E [L K]]].
    + intros y _. destruct (bracket_ok y ys Ly Ay) as [l [g [B2 [Q _]]]]. rewrite B2. cbn [ebind].
      destruct (value_ok field xs ys F x y k f l g H P Q) as [v [E V]]. rewrite E. eexists. split; [reflexivity|]. eauto.
    + exists r. split; auto. split; auto. intros j y Ey. destruct (K j y Ey) as [b [Eb [v [-> V]]]]. eauto.
  - exists rows. split; auto. split.
    + apply shaped_of; auto. intros i x Ex. destruct (K i x Ex) as [r [Er [Lr _]]]. eauto.
    + intros i j x y Ex Ey. destruct (K i x Ex) as [r [Er [_ Kr]]]. unfold entry. rewrite Er. apply Kr. auto.
Qed.

(** what the interpolant is *)
Lemma position_fun xs x k f k' f' : ascending xs -> position xs x k f -> position xs x k' f' ->
  k = k' /\ f = f'.
Proof.
  intros A [[L [-> ->]]|[a [b [Ea [Eb H]]]]] [[L' [-> ->]]|[a' [b' [Ea' [Eb' H']]]]]; auto.
  - pose proof (nth_bound _ _ _ _ Eb'). lia.
  - pose proof (nth_bound _ _ _ _ Eb). lia.
  - pose proof (nth_bound _ _ _ _ Eb) as B1. pose proof (nth_bound _ _ _ _ Eb') as B2. 
    assert (ab : (a < b)%Qc) by (apply (A k (k + 1)); auto; lia). assert (ab' : (a' < b')%Qc) by (apply (A k' (k' + 1)); auto; lia).
    assert (LE : forall i j c d, i <= j -> nth_error xs i = Some c -> nth_error xs j = Some d -> (c <= d)%Qc).
    { intros i j c d Hij Hc Hd. destruct (Nat.eq_dec i j) as [->|N]; [replace d with c by congruence; apply Qcle_refl|]. apply Qclt_le_weak. apply (A i j); auto. lia. }
    assert (T : k = k' \/ k + 1 <= k' \/ k' + 1 <= k) by lia.
    assert (CAN : forall f c d, (f * (d - c) = 0)%Qc -> (c < d)%Qc -> f = 0%Qc).
    { intros h c d E L. apply Qcmult_integral in E. destruct E as [E|E]; auto. exfalso. assert (c = d) by (replace d with (d - c + c)%Qc by ring; rewrite E; ring). subst. revert L. apply Qcle_not_lt, Qcle_refl. }
    assert (ONE : forall f f' c d, (f * (d - c) = f' * (d - c))%Qc -> (c < d)%Qc -> f = f').
    { intros h h' c d E L. assert (X : ((h - h') * (d - c) = 0)%Qc) by (replace ((h - h') * (d - c))%Qc with (h * (d - c) - h' * (d - c))%Qc by ring; rewrite E; ring). apply CAN in X; auto. replace h with (h - h' + h')%Qc by ring. rewrite X. ring. }
    destruct T as [<-|[T|T]].
    + replace a' with a in * by congruence. replace b' with b in * by congruence. split; auto.
      destruct H as [[H1 [H2 ->]]|[[H1 [H2 ->]]|[H1 [H2 H3]]]], H' as [[H1' [H2' ->]]|[[H1' [H2' ->]]|[H1' [H2' H3']]]]; auto; try (exfalso; qclra).
      * symmetry. apply (CAN f' a b); auto. rewrite H3'. assert (x = a) by (apply Qcle_antisym; auto). subst. ring.
      * apply (CAN f a b); auto. rewrite H3. assert (x = a) by (apply Qcle_antisym; auto). subst. ring.
      * apply (ONE f f' a b); auto. congruence.
    + assert (ba : (b <= a')%Qc) by (apply (LE (k + 1) k'); auto). 
      destruct H as [[H1 [H2 ->]]|[[H1 [H2 ->]]|[H1 [H2 H3]]]], H' as [[H1' [H2' ->]]|[[H1' [H2' ->]]|[H1' [H2' H3']]]]; try (exfalso; first [qclra|lia]).
    + assert (ba : (b' <= a)%Qc) by (apply (LE (k' + 1) k); auto).
      destruct H as [[H1 [H2 ->]]|[[H1 [H2 ->]]|[H1 [H2 H3]]]], H' as [[H1' [H2' ->]]|[[H1' [H2' ->]]|[H1' [H2' H3']]]]; try (exfalso; first [qclra|lia]).
Qed.

Lemma bilinear_fun xs ys F x y v v' : ascending xs -> ascending ys -> bilinear_at xs ys F x y v -> bilinear_at xs ys F x y v' -> v = v'.
Proof.
  intros A B [k [f [l [g [P [Q ->]]]]]] [k' [f' [l' [g' [P' [Q' ->]]]]]].
  destruct (position_fun _ _ _ _ _ _ A P P') as [-> ->]. destruct (position_fun _ _ _ _ _ _ B Q Q') as [-> ->]. reflexivity.
Qed.
Lemma position_frac xs x k f : ascending xs -> position xs x k f -> (0 <= f)%Qc /\ (f <= 1)%Qc.
Proof.
  intros A [[L [-> ->]]|[a [b [Ea [Eb [[H [_ ->]]|[[H [_ ->]]|[H [H2 H3]]]]]]]]]; try (split; discriminate).
  assert (ab : (0 < b - a)%Qc). { assert (a < b)%Qc by (apply (A k (k + 1)); auto; lia). qclra. }
  split; apply Qcmult_lt_0_le_reg_r with (b - a)%Qc; auto; rewrite ?H3; qclra.
Qed.
(** a function of position [u + w * x] interpolates to its value at the position moved into the range *)
Lemma position_coordinate xs x k f : ascending xs -> position xs x k f ->
  exists c, into_range xs x c /\ ((1 - f) * nth k xs 0 + f * nth (k + 1) xs 0 = c)%Qc.
Proof.
  intros A [[L [-> ->]]|[a [b [Ea [Eb H]]]]].
  - destruct xs as [|a [|? ?]]; try discriminate. exists a. split; [|simpl; ring]. exists a, a. simpl. split; auto. split; auto.
    destruct (Qclt_le_dec x a) as [X|X]; auto. destruct (Qclt_le_dec a x) as [Y|Y]; auto. right. left. split; auto. apply Qcle_antisym; auto.
  - pose proof (nth_bound _ _ _ _ Eb) as N. destruct (nth_some _ xs 0) as [lo Lo]; [lia|]. destruct (nth_some _ xs (length xs - 1)) as [hi Hi]; [lia|].
    assert (LE : forall i j c d, i <= j -> nth_error xs i = Some c -> nth_error xs j = Some d -> (c <= d)%Qc).
    { intros i j c d Hij Hc Hd. destruct (Nat.eq_dec i j) as [->|Ne]; [replace d with c by congruence; apply Qcle_refl|]. apply Qclt_le_weak. apply (A i j); auto. lia. }
    assert (l1 : (lo <= a)%Qc) by (apply (LE 0 k); auto; lia). assert (l2 : (b <= hi)%Qc) by (apply (LE (k + 1) (length xs - 1)); auto; lia). assert (ab : (a < b)%Qc) by (apply (A k (k + 1)); auto; lia).
    rewrite (nth_error_nth _ _ _ Ea), (nth_error_nth _ _ _ Eb).
    destruct H as [[H [-> ->]]|[[H [K ->]]|[H [H2 H3]]]].
    + replace lo with a in * by congruence. exists a. split; [|ring]. exists a, hi. split; auto. split; auto. destruct (Qclt_le_dec x a) as [X|X]; auto. right. left. assert (x = a) by (apply Qcle_antisym; auto). subst. split; auto. split; [apply Qcle_refl|qclra].
    + replace (length xs - 1) with (k + 1) in * by lia. replace hi with b in * by congruence. exists b. split; [|ring]. exists lo, b. split; auto. split; [replace (length xs - 1) with (k + 1) by lia; auto|]. destruct (Qclt_le_dec b x) as [X|X]; auto. right. left. assert (x = b) by (apply Qcle_antisym; auto). subst. split; auto. split; [qclra|apply Qcle_refl].
    + exists x. split; [|replace ((1 - f) * a + f * b)%Qc with (a + f * (b - a))%Qc by ring; rewrite H3; ring]. exists lo, hi. split; auto. split; auto. right. left. split; auto. split; qclra.
Qed.
Lemma position_nth xs i x : nth_error xs i = Some x -> ascending xs -> exists k f, position xs x k f /\ ((i = k /\ f = 0%Qc) \/ (i = k + 1 /\ f = 1%Qc)).
Proof.
  intros E A. pose proof (nth_bound _ _ _ _ E) as L. destruct (Nat.eq_dec (length xs) 1) as [O|O].
  - exists 0, 0%Qc. split; [left; auto|]. left. split; auto. lia.
  - destruct (Nat.eq_dec i (length xs - 1)) as [I|I].
    + destruct (nth_some _ xs (i - 1)) as [a Ea]; [lia|]. exists (i - 1), 1%Qc. split; [|right; split; auto; lia]. right. exists a, x. replace (i - 1 + 1) with i by lia. split; auto. split; auto. right. left. split; [apply Qcle_refl|]. split; auto. lia.
    + destruct (nth_some _ xs (i + 1)) as [b Eb]; [lia|]. exists i, 0%Qc. split; [|left; auto]. right. exists x, b. split; auto. split; auto. right. right. split; [apply Qcle_refl|]. split; [apply (A i (i + 1)); auto; lia|ring].
Qed.
Lemma bilinear_node xs ys F i j x y v : ascending xs -> ascending ys -> nth_error xs i = Some x -> nth_error ys j = Some y -> bilinear_at xs ys F x y v -> v = F i j.
Proof.
  intros A B Ex Ey H. destruct (position_nth xs i x Ex A) as [k [f [P Pf]]]. destruct (position_nth ys j y Ey B) as [l [g [Q Qg]]].
  apply (bilinear_fun xs ys F x y); auto. exists k, f, l, g. split; auto. split; auto. destruct Pf as [[-> ->]|[-> ->]], Qg as [[-> ->]|[-> ->]]; ring.
Qed.
Lemma bilinear_plane xs ys F x y v a b c d : ascending xs -> ascending ys ->
  (forall i j X Y, nth_error xs i = Some X -> nth_error ys j = Some Y -> F i j = (a + b * X + c * Y + d * (X * Y))%Qc) ->
  bilinear_at xs ys F x y v -> exists X Y, into_range xs x X /\ into_range ys y Y /\ v = (a + b * X + c * Y + d * (X * Y))%Qc.
Proof.
  intros A B H [k [f [l [g [P [Q ->]]]]]]. destruct (position_coordinate _ _ _ _ A P) as [X [RX EX]]. destruct (position_coordinate _ _ _ _ B Q) as [Y [RY EY]].
  exists X, Y. split; auto. split; auto.
  assert (G : forall i j, i < length xs -> j < length ys -> F i j = (a + b * nth i xs 0 + c * nth j ys 0 + d * (nth i xs 0 * nth j ys 0))%Qc).
  { intros i j Hi Hj. apply H; apply nth_error_nth'; auto. }
  assert (Px : k < length xs /\ (k + 1 < length xs \/ f = 0%Qc)). { destruct (position_next _ _ _ _ P) as [U [V [W|[_ ->]]]]; split; auto. left. lia. }
  assert (Qy : l < length ys /\ (l + 1 < length ys \/ g = 0%Qc)). { destruct (position_next _ _ _ _ Q) as [U [V [W|[_ ->]]]]; split; auto. left. lia. }
  rewrite <- EX, <- EY. destruct Px as [Kx [Kx'| ->]], Qy as [Ly [Ly'| ->]]; rewrite (G k l) by auto; rewrite ?(G (k + 1) l), ?(G k (l + 1)), ?(G (k + 1) (l + 1)) by auto; ring.
Qed.
Lemma bilinear_range xs ys F x y v lo hi : ascending xs -> ascending ys -> (forall i j, i < length xs -> j < length ys -> (lo <= F i j <= hi)%Qc) -> bilinear_at xs ys F x y v -> (lo <= v <= hi)%Qc.
Proof.
  intros A B H [k [f [l [g [P [Q ->]]]]]]. destruct (position_frac _ _ _ _ A P) as [f0 f1]. destruct (position_frac _ _ _ _ B Q) as [g0 g1].
  assert (MIX : forall t u w, (0 <= t)%Qc -> (t <= 1)%Qc -> (lo <= u <= hi)%Qc -> (t = 0%Qc \/ (lo <= w <= hi)%Qc) -> (lo <= (1 - t) * u + t * w <= hi)%Qc).
  { intros t u w T0 T1 [U1 U2] W. destruct W as [->|[W1 W2]]; [replace ((1 - 0) * u + 0 * w)%Qc with u by ring; auto|].
    assert (n : (0 <= 1 - t)%Qc) by qclra. split.
    - pose proof (Qcmul_nonneg n (y := (u - lo)%Qc)) as X1. pose proof (Qcmul_nonneg T0 (y := (w - lo)%Qc)) as X2. assert (Y1 : (0 <= u - lo)%Qc) by qclra. assert (Y2 : (0 <= w - lo)%Qc) by qclra. specialize (X1 Y1). specialize (X2 Y2).
      replace ((1 - t) * u + t * w)%Qc with (lo + (1 - t) * (u - lo) + t * (w - lo))%Qc by ring. qclra.
    - pose proof (Qcmul_nonneg n (y := (hi - u)%Qc)) as X1. pose proof (Qcmul_nonneg T0 (y := (hi - w)%Qc)) as X2. assert (Y1 : (0 <= hi - u)%Qc) by qclra. assert (Y2 : (0 <= hi - w)%Qc) by qclra. specialize (X1 Y1). specialize (X2 Y2).
      replace ((1 - t) * u + t * w)%Qc with (hi - (1 - t) * (hi - u) - t * (hi - w))%Qc by ring. qclra. }
  assert (Px : k < length xs /\ (f = 0%Qc \/ k + 1 < length xs)). { destruct (position_next _ _ _ _ P) as [U [V [W|[_ ->]]]]; split; auto. right. lia. }
  assert (Qy : l < length ys /\ (g = 0%Qc \/ l + 1 < length ys)). { destruct (position_next _ _ _ _ Q) as [U [V [W|[_ ->]]]]; split; auto. right. lia. }
  replace ((1 - f) * (1 - g) * F k l + f * (1 - g) * F (k + 1)%nat l + (1 - f) * g * F k (l + 1)%nat + f * g * F (k + 1)%nat (l + 1)%nat)%Qc
    with ((1 - g) * ((1 - f) * F k l + f * F (k + 1)%nat l) + g * ((1 - f) * F k (l + 1)%nat + f * F (k + 1)%nat (l + 1)%nat))%Qc by ring.
  destruct Px as [Kx Px], Qy as [Ly Qy].
  apply MIX; auto.
  - apply MIX; auto. destruct Px as [->|Px]; auto.
  - destruct Qy as [->|Qy]; auto. right. apply MIX; auto. destruct Px as [->|Px]; auto.
Qed.
