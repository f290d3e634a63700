(** Tools for the passes of general radix: decoding of positions, rotations,
    and the accumulation loops. *)
From Coq Require Import Reals List Arith Lia Lra Bool.
From Verif Require Import Base Buffer VH_Model RS_Spec RS_Dft FF_Model FF_Proofs FF_Proofs2 FF_Proofs3.
Import ListNotations.
Local Open Scope R_scope.

(** ** Positions *)
Definition at3 (n1 n2 : nat) (G : nat -> nat -> nat -> R) (n : nat) : R := G (n mod n1)%nat ((n / n1) mod n2)%nat (n / n1 / n2)%nat.
Lemma at3_flat n1 n2 G t k s : (t < n1)%nat -> (k < n2)%nat -> at3 n1 n2 G (t + n1 * (k + n2 * s)) = G t k s.
Proof.
  intros. unfold at3.
  replace (t + n1 * (k + n2 * s))%nat with (t + (k + n2 * s) * n1)%nat by nia.
  rewrite Nat.mod_add, Nat.div_add by lia. rewrite (Nat.mod_small t), (Nat.div_small t) by lia. cbn [Nat.add].
  replace (k + n2 * s)%nat with (k + s * n2)%nat by nia.
  rewrite Nat.mod_add, Nat.div_add by lia. rewrite (Nat.mod_small k), (Nat.div_small k) by lia. reflexivity.
Qed.
Lemma at3_c3 n1 n2 G i j k : (1 <= i <= n1)%nat -> (1 <= j <= n2)%nat -> at3 n1 n2 G (c3 n1 n2 i j k) = G (i - 1)%nat (j - 1)%nat (k - 1)%nat.
Proof. intros. unfold c3. apply at3_flat; lia. Qed.
Lemma flat_inj n e e' s s' : (e < n)%nat -> (e' < n)%nat -> (e + n * s = e' + n * s')%nat -> e = e' /\ s = s'.
Proof.
  intros H1 H2 H3. destruct (Nat.lt_trichotomy s s') as [H|[->|H]]; [exfalso|lia|exfalso].
  - assert (n * s + n <= n * s')%nat by nia. lia.
  - assert (n * s' + n <= n * s)%nat by nia. lia.
Qed.
Lemma c2_c3 ido l1 i k j : (1 <= i)%nat -> (1 <= k)%nat -> c2 (ido * l1) (i + ido * (k - 1)) j = c3 ido l1 i k j.
Proof. intros. unfold c2, c3. nia. Qed.
Lemma split_idl ido l1 e : (e < ido * l1)%nat -> exists t k, (t < ido)%nat /\ (k < l1)%nat /\ e = (t + ido * k)%nat.
Proof.
  intros. exists (e mod ido)%nat, (e / ido)%nat. assert (ido <> 0)%nat by (intros ->; lia).
  pose proof (Nat.div_mod_eq e ido). pose proof (Nat.mod_upper_bound e ido ltac:(lia)).
  split; auto. split; [apply Nat.div_lt_upper_bound; lia|lia].
Qed.

(** ** Rotations *)
Lemma turn_angle b u n : turn (cos b) (sin b) (cos u, sin u) n = (cos (u + INR n * b), sin (u + INR n * b)).
Proof.
  induction n; cbn [turn].
  - cbn [INR]. rewrite Rmult_0_l, Rplus_0_r. reflexivity.
  - rewrite IHn, S_INR. replace (u + (INR n + 1) * b) with (b + (u + INR n * b)) by ring.
    rewrite (cos_plus b), (sin_plus b). f_equal; ring.
Qed.
Lemma turn_first ip n : turn (cos (arg ip)) (sin (arg ip)) (1, 0) n = (cos (th ip n), sin (th ip n)).
Proof.
  replace (1, 0) with (cos 0, sin 0) by (rewrite cos_0, sin_0; reflexivity). rewrite turn_angle.
  replace (0 + INR n * arg ip) with (th ip n); [reflexivity|]. unfold th, arg, Rdiv. ring.
Qed.
Lemma turn_second ip s n : turn (cos (th ip s)) (sin (th ip s)) (cos (th ip s), sin (th ip s)) n
  = (cos (th ip (s * S n)), sin (th ip (s * S n))).
Proof.
  rewrite turn_angle. replace (th ip s + INR n * th ip s) with (th ip (s * S n)); [reflexivity|].
  unfold th, Rdiv. rewrite mult_INR, S_INR. ring.
Qed.

(** ** The written array is ch (true) or cc (false); the other is only read *)
Definition both (b : bool) (X Y : list R) : list R * list R := if b then (X, Y) else (Y, X).
Definition other (b : bool) (a c : list R) : list R := if b then a else c.
Definition mine (b : bool) (a c : list R) : list R := if b then c else a.

Section Pol.
Variable d : R.
Variable b : bool.
Lemma run_pol (F : nat -> R) p X Y :
  (forall z, In z p -> a_ch z = b /\ (a_ix z < length Y)%nat /\ (forall Y', a_val z (fst (both b X Y')) (snd (both b X Y')) = F (a_ix z))) ->
  exists Y', run p (both b X Y) = Some (both b X Y') /\ length Y' = length Y /\
    (forall i, Exists (fun z => a_ix z = i) p -> nth i Y' d = F i) /\
    (forall i, ~ Exists (fun z => a_ix z = i) p -> nth i Y' d = nth i Y d).
Proof. destruct b; intros H; [apply run_ch|apply run_cc]; exact H. Qed.
Lemma run_once_pol (F : nat -> R -> R) p X Y :
  NoDup (map a_ix p) ->
  (forall z, In z p -> a_ch z = b /\ (a_ix z < length Y)%nat /\
     (forall Y', a_val z (fst (both b X Y')) (snd (both b X Y')) = F (a_ix z) (nth (a_ix z) Y' d))) ->
  exists Y', run p (both b X Y) = Some (both b X Y') /\ length Y' = length Y /\
    (forall i, Exists (fun z => a_ix z = i) p -> nth i Y' d = F i (nth i Y d)) /\
    (forall i, ~ Exists (fun z => a_ix z = i) p -> nth i Y' d = nth i Y d).
Proof. destruct b; intros N H; [apply run_once|apply run_once_cc]; auto; exact H. Qed.

Lemma run_steps (f : nat -> list asg) (P : nat -> list R -> Prop) X n lo Y :
  P lo Y -> (forall m Y', (lo <= m < lo + n)%nat -> P m Y' -> exists Y'', run (f m) (both b X Y') = Some (both b X Y'') /\ P (S m) Y'') ->
  exists Y', run (flat_map f (seq lo n)) (both b X Y) = Some (both b X Y') /\ P (lo + n)%nat Y'.
Proof.
  revert lo Y. induction n; intros lo Y H0 H; cbn [seq flat_map].
  - exists Y. rewrite Nat.add_0_r. split; auto.
  - destruct (H lo Y ltac:(lia) H0) as (Y1 & R1 & P1). rewrite run_app, R1. cbn [bind].
    destruct (IHn (S lo) Y1 P1) as (Y2 & R2 & P2). { intros m Y' Hm. apply H; lia. }
    exists Y2. split; auto. replace (lo + S n)%nat with (S lo + n)%nat by lia. auto.
Qed.

Variables n ip : nat.
(** One loop over the elements of two different rows s and s' *)
Lemma two_rows s s' (e1 e2 : nat -> list R -> list R -> R) (v v' : nat -> R -> R) X Y :
  length Y = (n * ip)%nat -> (s < ip)%nat -> (s' < ip)%nat -> s <> s' ->
  (forall ik Y', (1 <= ik <= n)%nat ->
     e1 ik (fst (both b X Y')) (snd (both b X Y')) = v (ik - 1)%nat (nth (ik - 1 + n * s) Y' d) /\
     e2 ik (fst (both b X Y')) (snd (both b X Y')) = v' (ik - 1)%nat (nth (ik - 1 + n * s') Y' d)) ->
  exists Y', run (loop 1 n (fun ik => [mkasg b (c2 n ik (S s)) (e1 ik); mkasg b (c2 n ik (S s')) (e2 ik)])) (both b X Y)
      = Some (both b X Y') /\ length Y' = length Y /\
    (forall e, (e < n)%nat -> nth (e + n * s) Y' d = v e (nth (e + n * s) Y d) /\ nth (e + n * s') Y' d = v' e (nth (e + n * s') Y d)) /\
    (forall e u, (e < n)%nat -> u <> s -> u <> s' -> nth (e + n * u) Y' d = nth (e + n * u) Y d).
Proof.
  intros HY Hs Hs' Hne He.
  set (p := loop 1 n _).
  assert (C : forall ik u, (1 <= ik <= n)%nat -> c2 n ik (S u) = (ik - 1 + n * u)%nat).
  { intros. unfold c2. cbn [Nat.sub]. now rewrite Nat.sub_0_r. }
  assert (ND : NoDup (map a_ix p)).
  { unfold p, loop. rewrite flat_map_concat_map, concat_map, map_map. rewrite <- flat_map_concat_map. cbn [map a_ix].
    apply NoDup_flat_map.
    - apply seq_NoDup.
    - intros ik Hik. apply in_seq in Hik. rewrite !C by lia. constructor; [|constructor; auto; constructor].
      intros [E|[]]. apply Hne. destruct (flat_inj n (ik - 1) (ik - 1) s' s); auto; lia.
    - intros ik ik' z Z1 Z2 Z3 Z4. apply in_seq in Z1, Z2. cbn [In] in Z3, Z4. rewrite !C in Z3, Z4 by lia.
      assert (ik - 1 = ik' - 1)%nat; [|lia].
      destruct Z3 as [<-|[<-|[]]]; destruct Z4 as [Z4|[Z4|[]]]; apply flat_inj in Z4; lia. }
  set (F := fun i old => if (i / n =? s)%nat then v (i mod n)%nat old else v' (i mod n)%nat old).
  destruct (run_once_pol F p X Y ND) as (Y' & R1 & R2 & R3 & R4).
  { intros z Hz. unfold p in Hz. apply in_loop in Hz. destruct Hz as (ik & Hik & Hz). cbn [In] in Hz.
    assert (B : forall u, (u < ip)%nat -> (ik - 1 + n * u < length Y)%nat) by (intros; rewrite HY; nia).
    assert (DM : forall u, ((ik - 1 + n * u) / n = u /\ (ik - 1 + n * u) mod n = ik - 1)%nat).
    { intros u. replace (ik - 1 + n * u)%nat with (ik - 1 + u * n)%nat by lia. rewrite Nat.div_add, Nat.mod_add by lia.
      rewrite Nat.div_small, Nat.mod_small by lia. lia. }
    destruct Hz as [<-|[<-|[]]]; cbn [a_ch a_ix a_val]; rewrite C by lia; (split; [reflexivity|]); (split; [auto|]);
      intros Y'; unfold F; destruct (DM s) as [D1 D2]; destruct (DM s') as [D1' D2'].
    - rewrite D1, D2, Nat.eqb_refl. apply He; auto.
    - rewrite D1', D2'. replace (s' =? s)%nat with false by (symmetry; apply Nat.eqb_neq; auto). apply He; auto. }
  exists Y'. split; auto. split; auto.
  assert (DM : forall e u, (e < n)%nat -> ((e + n * u) / n = u /\ (e + n * u) mod n = e)%nat).
  { intros e u. intros. replace (e + n * u)%nat with (e + u * n)%nat by lia. rewrite Nat.div_add, Nat.mod_add by lia.
    rewrite Nat.div_small, Nat.mod_small by lia. lia. }
  split.
  - intros e Hee. split.
    + rewrite R3; [unfold F; destruct (DM e s Hee) as [-> ->]; now rewrite Nat.eqb_refl|].
      unfold p. apply (exists_loop _ _ _ _ (e + 1)%nat); [lia|]. apply Exists_cons_hd. cbn [a_ix]. rewrite C by lia. lia.
    + rewrite R3; [unfold F; destruct (DM e s' Hee) as [-> ->]|].
      * replace (s' =? s)%nat with false by (symmetry; apply Nat.eqb_neq; auto). reflexivity.
      * unfold p. apply (exists_loop _ _ _ _ (e + 1)%nat); [lia|]. apply Exists_cons_tl, Exists_cons_hd.
        cbn [a_ix]. rewrite C by lia. lia.
  - intros e u Hee U1 U2. apply R4. intros E. apply Exists_exists in E. destruct E as (z & Hz & Ez).
    unfold p in Hz. apply in_loop in Hz. destruct Hz as (ik & Hik & Hz). cbn [In] in Hz.
    destruct Hz as [<-|[<-|[]]]; cbn [a_ix] in Ez; rewrite C in Ez by lia; apply flat_inj in Ez; lia.
Qed.

(** hrfft.f90:803-836 and 1183-1217: the rotations of the rows of the other array *)
Definition rotate : list asg :=
  loop 2 ((ip + 1) / 2) (fun l => let lc := (ip + 2 - l)%nat in
    let '(ar1, ai1) := turn (cos (arg ip)) (sin (arg ip)) (1, 0) (l - 1) in
    loop 1 n (fun ik => [mkasg b (c2 n ik l) (fun x y => el2 d n (other b x y) ik 1 + ar1 * el2 d n (other b x y) ik 2);
                         mkasg b (c2 n ik lc) (fun x y => ai1 * el2 d n (other b x y) ik ip)]) ++
    loop 3 ((ip + 1) / 2) (fun j => let jc := (ip + 2 - j)%nat in
      let '(ar2, ai2) := turn ar1 ai1 (ar1, ai1) (j - 2) in
      loop 1 n (fun ik => [mkasg b (c2 n ik l) (fun x y => el2 d n (mine b x y) ik l + ar2 * el2 d n (other b x y) ik j);
                           mkasg b (c2 n ik lc) (fun x y => el2 d n (mine b x y) ik lc + ai2 * el2 d n (other b x y) ik jc)]))).

Definition rowc (X : list R) (e s m : nat) : R :=
  nth (e + n * 0) X d + sumR m (fun u => cos (th ip (s * S u)) * nth (e + n * S u) X d).
Definition rows (X : list R) (e s m : nat) : R :=
  sumR m (fun u => sin (th ip (s * S u)) * nth (e + n * (ip - S u)) X d).

Lemma other_both X Y : other b (fst (both b X Y)) (snd (both b X Y)) = X.
Proof. destruct b; reflexivity. Qed.
Lemma mine_both X Y : mine b (fst (both b X Y)) (snd (both b X Y)) = Y.
Proof. destruct b; reflexivity. Qed.
Lemma el2_flat X ik j : el2 d n X ik (S j) = nth (ik - 1 + n * j) X d.
Proof. unfold el2, c2. cbn [Nat.sub]. now rewrite Nat.sub_0_r. Qed.

Lemma rotate_ok h X Y : ip = (2 * h + 1)%nat -> (1 <= h)%nat -> length Y = (n * ip)%nat ->
  exists Y', run rotate (both b X Y) = Some (both b X Y') /\ length Y' = length Y /\
    (forall e, (e < n)%nat -> nth (e + n * 0) Y' d = nth (e + n * 0) Y d) /\
    (forall e s, (e < n)%nat -> (1 <= s <= h)%nat ->
       nth (e + n * s) Y' d = rowc X e s h /\ nth (e + n * (ip - s)) Y' d = rows X e s h).
Proof.
  intros Hip Hh HY. assert (E : ((ip + 1) / 2 = h + 1)%nat) by (rewrite Hip; replace (2 * h + 1 + 1)%nat with ((h + 1) * 2)%nat by lia; apply Nat.div_mul; lia).
  unfold rotate. rewrite E. unfold loop at 1. replace (h + 1 + 1 - 2)%nat with h by lia.
  destruct (run_steps (fun l => let lc := (ip + 2 - l)%nat in
    let '(ar1, ai1) := turn (cos (arg ip)) (sin (arg ip)) (1, 0) (l - 1) in
    loop 1 n (fun ik => [mkasg b (c2 n ik l) (fun x y => el2 d n (other b x y) ik 1 + ar1 * el2 d n (other b x y) ik 2);
                         mkasg b (c2 n ik lc) (fun x y => ai1 * el2 d n (other b x y) ik ip)]) ++
    loop 3 (h + 1) (fun j => let jc := (ip + 2 - j)%nat in
      let '(ar2, ai2) := turn ar1 ai1 (ar1, ai1) (j - 2) in
      loop 1 n (fun ik => [mkasg b (c2 n ik l) (fun x y => el2 d n (mine b x y) ik l + ar2 * el2 d n (other b x y) ik j);
                           mkasg b (c2 n ik lc) (fun x y => el2 d n (mine b x y) ik lc + ai2 * el2 d n (other b x y) ik jc)])))
    (fun m Y' => length Y' = length Y /\ (forall e, (e < n)%nat -> nth (e + n * 0) Y' d = nth (e + n * 0) Y d) /\
       (forall e s, (e < n)%nat -> (1 <= s <= m - 2)%nat ->
          nth (e + n * s) Y' d = rowc X e s h /\ nth (e + n * (ip - s)) Y' d = rows X e s h))
    X h 2%nat Y) as (Y' & R1 & P1 & P2 & P3).
  - split; auto. split; auto. intros; lia.
  - intros l Y1 Hl (L1 & P1 & P2). cbv zeta. rewrite turn_first.
    destruct l as [|s]; [lia|]. replace (S s - 1)%nat with s by lia.
    replace (ip + 2 - S s)%nat with (S (ip - s)) by lia.
    rewrite run_app.
    destruct (two_rows s (ip - s) (fun ik x y => el2 d n (other b x y) ik 1 + cos (th ip s) * el2 d n (other b x y) ik 2)
      (fun ik x y => sin (th ip s) * el2 d n (other b x y) ik ip)
      (fun e _ => rowc X e s 1) (fun e _ => rows X e s 1) X Y1) as (Y2 & R2 & L2 & V2 & U2); try lia.
    { intros ik Y' Hik. rewrite other_both. rewrite !el2_flat. unfold rowc, rows. cbn [sumR].
      assert (EL : el2 d n X ik ip = nth (ik - 1 + n * (2 * h)) X d) by (rewrite <- el2_flat; f_equal; lia).
      rewrite EL, !Nat.mul_1_r.
      replace (ip - 1)%nat with (2 * h)%nat by lia. split; ring. }
    rewrite R2. cbn [bind]. unfold loop at 1. replace (h + 1 + 1 - 3)%nat with (h - 1)%nat by lia.
    destruct (run_steps (fun j => let jc := (ip + 2 - j)%nat in
      let '(ar2, ai2) := turn (cos (th ip s)) (sin (th ip s)) (cos (th ip s), sin (th ip s)) (j - 2) in
      loop 1 n (fun ik => [mkasg b (c2 n ik (S s)) (fun x y => el2 d n (mine b x y) ik (S s) + ar2 * el2 d n (other b x y) ik j);
                           mkasg b (c2 n ik (S (ip - s))) (fun x y => el2 d n (mine b x y) ik (S (ip - s)) + ai2 * el2 d n (other b x y) ik jc)]))
      (fun m Y' => length Y' = length Y /\
         (forall e, (e < n)%nat -> nth (e + n * s) Y' d = rowc X e s (m - 2) /\ nth (e + n * (ip - s)) Y' d = rows X e s (m - 2)) /\
         (forall e u, (e < n)%nat -> u <> s -> u <> (ip - s)%nat -> nth (e + n * u) Y' d = nth (e + n * u) Y1 d))
      X (h - 1)%nat 3%nat Y2) as (Y3 & R3 & L3 & V3 & U3).
    + split; [congruence|]. split; auto.
    + intros j Y3 Hj (L3 & V3 & U3). cbv zeta. rewrite turn_second. replace (S (j - 2)) with (j - 1)%nat by lia.
      destruct j as [|j]; [lia|]. replace (S j - 1)%nat with j by lia. replace (ip + 2 - S j)%nat with (S (ip - j)) by lia.
      destruct (two_rows s (ip - s)
        (fun ik x y => el2 d n (mine b x y) ik (S s) + cos (th ip (s * j)) * el2 d n (other b x y) ik (S j))
        (fun ik x y => el2 d n (mine b x y) ik (S (ip - s)) + sin (th ip (s * j)) * el2 d n (other b x y) ik (S (ip - j)))
        (fun e old => old + cos (th ip (s * j)) * nth (e + n * j) X d)
        (fun e old => old + sin (th ip (s * j)) * nth (e + n * (ip - j)) X d) X Y3) as (Y4 & R4 & L4 & V4 & U4); try lia.
      { intros ik Y' Hik. rewrite other_both, mine_both. rewrite !el2_flat. auto. }
      exists Y4. split; auto. split; [lia|]. split.
      * intros e He. destruct (V4 e He) as [V5 V6]. destruct (V3 e He) as [V7 V8]. rewrite V5, V6, V7, V8.
        replace (S (S j) - 2)%nat with (S (S j - 2)) by lia. unfold rowc, rows. cbn [sumR].
        replace (S (S j - 2)) with j by lia. split; ring.
      * intros e u He Hu1 Hu2. rewrite U4 by auto. auto.
    + exists Y3. split; auto. split; auto.
      replace (3 + (h - 1) - 2)%nat with h in V3 by lia. split.
      * intros e He. rewrite U3 by lia. auto.
      * intros e u He Hu. destruct (Nat.eq_dec u s) as [->|]; [auto|].
        rewrite !U3 by lia. apply P2; auto; lia.
  - exists Y'. split; auto. split; auto. split; auto. intros. apply P3; auto; lia.
Qed.
End Pol.
