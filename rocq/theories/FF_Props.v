(** C87 and C88: the initialisation of the real Fourier transform, and the
    forward transform for every length. *)
From Coq Require Import Reals List Arith Lia Bool Lra.
From Verif Require Import Base Buffer VH_Model RS_Spec RS_Dft FF_Model FF_Proofs FF_Proofs7 FF_Proofs8 FF_Proofs9 FF_Proofs10.
Import ListNotations.
Local Open Scope R_scope.

(** ** C87: hrffti *)

(** The product of a list of factors, and the table of the rotations: a factor
    with factors [pre] before it and [post] after it has its cosines and sines
    from position n - n / (product of pre) on. *)
Definition product (l : list nat) : nat := fold_right Nat.mul 1%nat l.
Definition rotations (d : R) (n : nat) (fac : list nat) (wa : list R) : Prop :=
  forall pre ip post, fac = pre ++ ip :: post ->
  forall s q, (1 <= s < ip)%nat -> (1 <= q)%nat -> (2 * q + 1 <= product post)%nat ->
    let p := (n - n / product pre + (s - 1) * product post + 2 * (q - 1))%nat in
    let phi := 2 * PI * INR (s * q) / INR (ip * product post) in
    nth p wa d = cos phi /\ nth (p + 1) wa d = sin phi.

Lemma product_prod l : product l = prod l.
Proof. induction l as [|a l IH]; [reflexivity|]. cbn [product fold_right]. unfold product in IH. rewrite IH. rewrite prod_cons. reflexivity. Qed.

Theorem C87_initialisation : forall (d : R) n wa0, (2 <= n)%nat -> (n <= length wa0)%nat ->
  exists wa ev od, let fac := ev ++ od in
    (forall fuel, (2 * n + 5 <= fuel)%nat -> hrffti fuel n wa0 = Some (wa, fac)) /\
    product fac = n /\ fac <> [] /\
    (forall f, In f ev -> f = 2%nat \/ f = 4%nat) /\
    (forall f, In f od -> (f mod 2 = 1)%nat /\ (3 <= f)%nat) /\
    (count_occ Nat.eq_dec fac 2%nat <= 1)%nat /\
    rotations d n fac wa /\
    length wa = length wa0 /\ (forall i, (n <= i)%nat -> nth i wa d = nth i wa0 d).
Proof.
  intros d n wa0 Hn La. destruct (factorize_total (2 * n + 5) n Hn ltac:(lia)) as (ev & od & R & F & NE).
  destruct (hrffti_ok d n (2 * n + 5) wa0 ev od Hn R F La) as (wa & R1 & R2 & R3 & R4).
  exists wa, ev, od. cbv zeta. repeat split; auto.
  - intros fuel Hf. assert (M : factorize fuel 1 4 n [] = Some (ev ++ od)) by (eapply factorize_mono; [|exact R]; lia).
    destruct (hrffti_ok d n fuel wa0 ev od Hn M F La) as (wa' & R1' & _).
    rewrite R1'. unfold hrffti in R1, R1'. rewrite R in R1. rewrite M in R1'. rewrite <- R1'. exact R1.
  - rewrite product_prod. apply F.
  - apply F.
  - eapply (p_od _ _ _ F); eauto.
  - eapply (p_od _ _ _ F); eauto.
  - rewrite count_occ_app. pose proof (p_two _ _ _ F) as T. unfold twos in T.
    assert (count_occ Nat.eq_dec od 2 = 0)%nat; [|lia].
    apply count_occ_not_In. intros I. destruct (p_od _ _ _ F _ I). lia.
  - rewrite (product_prod pre). rewrite (product_prod post) in *. destruct (R3 _ _ _ H s q ltac:(lia) ltac:(lia) ltac:(lia)) as [C _].
    replace (n - n / prod pre + (s - 1) * prod post + 2 * (q - 1))%nat with (n - n / prod pre + (s - 1) * prod post + 2 * q - 2)%nat by (generalize (n - n / prod pre + (s - 1) * prod post)%nat; intros; lia).
    rewrite C. reflexivity.
  - rewrite (product_prod pre). rewrite (product_prod post) in *. destruct (R3 _ _ _ H s q ltac:(lia) ltac:(lia) ltac:(lia)) as [_ C].
    replace (n - n / prod pre + (s - 1) * prod post + 2 * (q - 1) + 1)%nat with (n - n / prod pre + (s - 1) * prod post + 2 * q - 1)%nat by (generalize (n - n / prod pre + (s - 1) * prod post)%nat; intros; lia).
    rewrite C. reflexivity.
Qed.

(** The factor list and its two leading entries fit the declared fac(15) for
    every length below 2 * 3^13 = 3188646 ... *)
Theorem C87_capacity_partial : forall fuel n wa0 wa fac, (2 <= n)%nat -> (n < 2 * 3 ^ 13)%nat ->
  hrffti fuel n wa0 = Some (wa, fac) -> (2 + length fac <= 15)%nat.
Proof.
  intros fuel n wa0 wa fac Hn HB H. unfold hrffti in H.
  destruct (n =? 1)%nat eqn:E1; [apply Nat.eqb_eq in E1; lia|].
  destruct (factorize fuel 1 4 n []) as [l|] eqn:E; [|discriminate]. cbn [bind] in H.
  assert (fac = l) as ->.
  { match type of H with context [foldM ?f ?a ?b] => destruct (foldM f a b); [|discriminate] end. cbn [bind] in H. congruence. }
  destruct (factorize_sound fuel n l Hn E) as (ev & od & -> & F & NE).
  pose proof (factors_count n ev od F NE) as C. assert (D : (3 ^ (length (ev ++ od) - 1) < 3 ^ 13)%nat) by lia.
  apply Nat.pow_lt_mono_r_iff in D; lia.
Qed.
(** ... and not for that length itself: fourteen factors need fac(16). *)
Theorem C87_capacity_refuted : exists n, forall wa0, (n <= length wa0)%nat ->
  exists fuel wa fac, hrffti fuel n wa0 = Some (wa, fac) /\ (2 + length fac = 16)%nat.
Proof.
  exists (2 * 3 ^ 13)%nat. intros wa0 La.
  assert (Hn : (2 <= 2 * 3 ^ 13)%nat) by (pose proof (Nat.pow_nonzero 3 13 ltac:(lia)); lia).
  pose proof (factorize_two_threes 13 16 ltac:(lia) ltac:(lia)) as F.
  destruct (factorize_sound _ _ _ Hn F) as (ev & od & E & P & NE). rewrite E in F.
  destruct (hrffti_ok 0 _ 16 wa0 ev od Hn F P La) as (wa & R1 & _).
  exists 16%nat, wa, (ev ++ od). split; [exact R1|]. rewrite <- E. reflexivity.
Qed.

Example C87_example : forall d, exists wa,
  hrffti 65 30 (repeat 0 30) = Some (wa, [2; 3; 5]%nat) /\ nth 16 wa d = sin (2 * PI * INR 1 / INR 15).
Proof.
  intros d. destruct (C87_initialisation d 30 (repeat 0 30) ltac:(lia) ltac:(rewrite repeat_length; lia)) as (wa & ev & od & A & _ & _ & _ & _ & _ & R & _).
  specialize (A 65%nat ltac:(lia)). exists wa.
  assert (ev ++ od = [2; 3; 5]%nat) as E.
  { unfold hrffti in A. cbn [Nat.eqb] in A. change (factorize 65 1 4 30 []) with (Some [2; 3; 5]%nat) in A. cbn [bind] in A.
    match type of A with context [foldM ?f ?a ?b] => destruct (foldM f a b); [|discriminate] end. cbn [bind] in A. congruence. }
  rewrite E in *. split; auto.
  destruct (R (2%nat :: nil) 3%nat (5%nat :: nil) eq_refl 1%nat 1%nat ltac:(lia) ltac:(lia) ltac:(cbn; lia)) as [_ H]. exact H.
Qed.
Example C87_capacity_example : (6 < 2 * 3 ^ 13)%nat /\ exists wa, hrffti 17 6 (repeat 0 6) = Some (wa, [2; 3]%nat).
Proof.
  split.
  - apply (Nat.lt_le_trans _ (2 * 3 ^ 2)); [cbn; lia|]. apply Nat.mul_le_mono_l. apply Nat.pow_le_mono_r; lia.
  - eexists. unfold hrffti. cbn [Nat.eqb]. change (factorize 17 1 4 6 []) with (Some [2; 3]%nat). cbn [bind]. reflexivity.
Qed.

(** ** C88: hrfftf *)
Theorem C88_forward : forall d fuel n wa0 r work ws, (1 <= n)%nat -> length r = n -> length work = n -> (n <= length wa0)%nat ->
  hrffti fuel n wa0 = Some ws ->
  exists work', hrfftf d n r work ws = Some (forward n r, work') /\ length work' = n.
Proof. exact forward_ok. Qed.

(** initialised and transformed, with nothing assumed but the lengths *)
Theorem C88_total : forall d n wa0 r work, (1 <= n)%nat -> length r = n -> length work = n -> (n <= length wa0)%nat ->
  exists ws work', hrffti (2 * n + 5) n wa0 = Some ws /\ hrfftf d n r work ws = Some (forward n r, work').
Proof.
  intros d n wa0 r work Hn Lr Lw La.
  destruct (hrffti_total d n (2 * n + 5) wa0 Hn La ltac:(lia)) as (wa & fac & I & _).
  destruct (C88_forward d _ n wa0 r work _ Hn Lr Lw La I) as (work' & R & _). eauto.
Qed.

(** neither the previous contents of the work arrays nor the value of a read
    outside an array matter *)
Theorem C88_deterministic : forall d1 d2 n f1 f2 wa1 wa2 r work1 work2 ws1 ws2 o1 o2, (1 <= n)%nat -> length r = n ->
  length work1 = n -> length work2 = n -> (n <= length wa1)%nat -> (n <= length wa2)%nat ->
  hrffti f1 n wa1 = Some ws1 -> hrffti f2 n wa2 = Some ws2 ->
  hrfftf d1 n r work1 ws1 = Some o1 -> hrfftf d2 n r work2 ws2 = Some o2 -> fst o1 = fst o2.
Proof.
  intros d1 d2 n f1 f2 wa1 wa2 r w1 w2 ws1 ws2 o1 o2 Hn Lr L1 L2 A1 A2 I1 I2 R1 R2.
  destruct (C88_forward d1 _ n _ r w1 _ Hn Lr L1 A1 I1) as (x1 & E1 & _).
  destruct (C88_forward d2 _ n _ r w2 _ Hn Lr L2 A2 I2) as (x2 & E2 & _).
  rewrite E1 in R1. rewrite E2 in R2. injection R1 as <-. injection R2 as <-. reflexivity.
Qed.

(** a length that takes a radix 4, 2 and 3 pass and two passes of the general
    radix, with rows of length eleven and one (1848 = 4 * 2 * 3 * 7 * 11) *)
Example C88_example : factorize 40 1 4 1848 [] = Some [4; 2; 3; 7; 11]%nat /\
  exists ws work', hrffti (2 * 1848 + 5) 1848 (repeat 0 1848) = Some ws /\
    hrfftf 0 1848 (repeat 1 1848) (repeat 0 1848) ws = Some (forward 1848 (repeat 1 1848), work').
Proof.
  split; [reflexivity|]. apply (C88_total 0 1848); try (rewrite repeat_length); lia.
Qed.
Example C88_small : exists ws work', hrffti 9 2 [0; 0] = Some ws /\ hrfftf 0 2 [3; 5] [0; 0] ws = Some ([8; -2], work').
Proof.
  destruct (C88_total 0 2 [0; 0] [3; 5] [0; 0] ltac:(lia) eq_refl eq_refl ltac:(cbn; lia)) as (ws & w & H1 & H2).
  exists ws, w. split; [exact H1|]. rewrite H2. f_equal. f_equal. unfold forward, angle. cbn [map seq Nat.even negb andb Nat.eqb sumR nth].
  change (1 / 2)%nat with 0%nat. change (2 / 2)%nat with 1%nat. cbn [Nat.mul Nat.add INR].
  replace (2 * PI * 0 * 0 / (1 + 1)) with 0 by lra. replace (2 * PI * 0 * 1 / (1 + 1)) with 0 by lra.
  replace (2 * PI * 1 * 0 / (1 + 1)) with 0 by lra. replace (2 * PI * 1 * 1 / (1 + 1)) with PI by lra.
  rewrite cos_0, cos_PI. f_equal; [lra|]. f_equal. lra.
Qed.

Print Assumptions C87_initialisation.
Print Assumptions C87_capacity_partial.
Print Assumptions C87_capacity_refuted.
Print Assumptions C88_forward.
Print Assumptions C88_total.
Print Assumptions C88_deterministic.
