(** C89 and C90: the backward real Fourier transform for every length, and the
    round trip. *)
From Coq Require Import Reals List Arith Lia Bool Lra.
From Verif Require Import Base Buffer VH_Model RS_Spec RS_Dft FF_Model FF_Model2 FF_Proofs FF_Proofs9 FF_Proofs14 FF_Props.
Import ListNotations.
Local Open Scope R_scope.

(** ** C89: hrfftb *)
(** The Fourier series of the packed coefficients ([backward] of RS_Spec), with
    the table of hrffti, whatever the work array held. *)
Theorem C89_backward : forall d fuel n wa0 r work ws, (1 <= n)%nat -> length r = n -> length work = n -> (n <= length wa0)%nat ->
  hrffti fuel n wa0 = Some ws ->
  exists work', hrfftb d n r work ws = Some (backward n r, work') /\ length work' = n.
Proof. exact backward_ok. Qed.

Theorem C89_total : forall d n wa0 r work, (1 <= n)%nat -> length r = n -> length work = n -> (n <= length wa0)%nat ->
  exists ws work', hrffti (2 * n + 5) n wa0 = Some ws /\ hrfftb d n r work ws = Some (backward n r, work').
Proof.
  intros d n wa0 r work Hn Lr Lw La.
  destruct (hrffti_total d n (2 * n + 5) wa0 Hn La ltac:(lia)) as (wa & fac & I & _).
  destruct (C89_backward d _ n wa0 r work _ Hn Lr Lw La I) as (work' & R & _). eauto.
Qed.

Theorem C89_deterministic : forall d1 d2 n f1 f2 wa1 wa2 r work1 work2 ws1 ws2 o1 o2, (1 <= n)%nat -> length r = n ->
  length work1 = n -> length work2 = n -> (n <= length wa1)%nat -> (n <= length wa2)%nat ->
  hrffti f1 n wa1 = Some ws1 -> hrffti f2 n wa2 = Some ws2 ->
  hrfftb d1 n r work1 ws1 = Some o1 -> hrfftb d2 n r work2 ws2 = Some o2 -> fst o1 = fst o2.
Proof.
  intros d1 d2 n f1 f2 wa1 wa2 r w1 w2 ws1 ws2 o1 o2 Hn Lr L1 L2 A1 A2 I1 I2 R1 R2.
  destruct (C89_backward d1 _ n _ r w1 _ Hn Lr L1 A1 I1) as (x1 & E1 & _).
  destruct (C89_backward d2 _ n _ r w2 _ Hn Lr L2 A2 I2) as (x2 & E2 & _).
  rewrite E1 in R1. rewrite E2 in R2. injection R1 as <-. injection R2 as <-. reflexivity.
Qed.

Example C89_example : exists ws work', hrffti (2 * 1848 + 5) 1848 (repeat 0 1848) = Some ws /\
    hrfftb 0 1848 (repeat 1 1848) (repeat 0 1848) ws = Some (backward 1848 (repeat 1 1848), work').
Proof. apply (C89_total 0 1848); try (rewrite repeat_length); lia. Qed.
Example C89_small : exists ws work', hrffti 9 2 [0; 0] = Some ws /\ hrfftb 0 2 [8; -2] [0; 0] ws = Some ([6; 10], work').
Proof.
  destruct (C89_total 0 2 [0; 0] [8; -2] [0; 0] ltac:(lia) eq_refl eq_refl ltac:(cbn; lia)) as (ws & w & H1 & H2).
  exists ws, w. split; [exact H1|]. rewrite H2. f_equal. f_equal. unfold backward, angle. cbn [map seq Nat.even Nat.sub sumR nth].
  change (1 / 2)%nat with 0%nat. change (2 / 2)%nat with 1%nat. cbn [sumR Nat.mul Nat.add INR].
  replace (2 * PI * 1 * 0 / (1 + 1)) with 0 by lra. replace (2 * PI * 1 * 1 / (1 + 1)) with PI by lra.
  rewrite cos_0, cos_PI. f_equal; [lra|]. f_equal. lra.
Qed.

(** ** C90: the round trips *)
(** Forward, then backward (with the same table): every value times n. *)
Theorem C90_round_trip : forall d fuel n wa0 x work ws, (1 <= n)%nat -> length x = n -> length work = n -> (n <= length wa0)%nat ->
  hrffti fuel n wa0 = Some ws ->
  exists y work' work'', hrfftf d n x work ws = Some (y, work') /\
    hrfftb d n y work' ws = Some (map (fun v => INR n * v) x, work'').
Proof. exact round_trip. Qed.

(** Backward, then forward: every packed coefficient times n. *)
Theorem C90_back_and_forth : forall d fuel n wa0 r work ws, (1 <= n)%nat -> length r = n -> length work = n -> (n <= length wa0)%nat ->
  hrffti fuel n wa0 = Some ws ->
  exists y work' work'', hrfftb d n r work ws = Some (y, work') /\
    hrfftf d n y work' ws = Some (map (fun v => INR n * v) r, work'').
Proof.
  intros d fuel n wa0 r work ws Hn Lr Lw La HI.
  destruct (C89_backward d fuel n wa0 r work ws Hn Lr Lw La HI) as (w1 & R1 & L1).
  assert (LB : length (backward n r) = n) by (unfold backward; now rewrite map_length, seq_length).
  destruct (C88_forward d fuel n wa0 (backward n r) w1 ws Hn LB L1 La HI) as (w2 & R2 & L2).
  exists (backward n r), w1, w2. split; [exact R1|]. rewrite R2. f_equal. f_equal.
  assert (LF : length (forward n (backward n r)) = n) by (unfold forward; now rewrite map_length, seq_length).
  apply (nth_ext _ _ 0 (INR n * 0)); [rewrite map_length; congruence|]. intros t Ht. rewrite LF in Ht.
  rewrite (map_nth (fun v => INR n * v)). rewrite FF_Proofs2.forward_hc by auto. apply FF_Proofs11.hc_backward; auto.
Qed.

(** Neither transform identifies two inputs *)
Theorem C90_injective : forall d fuel n wa0 x x' work work' ws o o', (1 <= n)%nat -> length x = n -> length x' = n ->
  length work = n -> length work' = n -> (n <= length wa0)%nat -> hrffti fuel n wa0 = Some ws ->
  hrfftf d n x work ws = Some o -> hrfftf d n x' work' ws = Some o' -> fst o = fst o' -> x = x'.
Proof.
  intros d fuel n wa0 x x' work work' ws o o' Hn Lx Lx' Lw Lw' La HI R R' E.
  destruct (C90_round_trip d fuel n wa0 x work ws Hn Lx Lw La HI) as (y & w1 & w2 & A & B).
  destruct (C90_round_trip d fuel n wa0 x' work' ws Hn Lx' Lw' La HI) as (y' & w1' & w2' & A' & B').
  rewrite R in A. injection A as ->. rewrite R' in A'. injection A' as ->. cbn [fst] in E. subst y'.
  destruct (C88_forward d fuel n wa0 x work ws Hn Lx Lw La HI) as (v & V & VL). rewrite R in V. injection V as V1 V2. subst v.
  destruct (C88_forward d fuel n wa0 x' work' ws Hn Lx' Lw' La HI) as (v & V & VL'). rewrite R' in V. injection V as V1' V2'. subst v.
  assert (Ly : length y = n) by (rewrite V1; unfold forward; now rewrite map_length, seq_length).
  assert (M : map (fun v => INR n * v) x = map (fun v => INR n * v) x').
  { pose proof (C89_deterministic d d n fuel fuel wa0 wa0 y w1 w1' ws ws _ _ Hn Ly VL VL' La La HI HI B B') as Z. exact Z. }
  assert (NZ : INR n <> 0) by (apply not_0_INR; lia).
  apply (nth_ext _ _ 0 0); [congruence|]. intros k Hk.
  pose proof (f_equal (fun l => nth k l (INR n * 0)) M) as Q. cbv beta in Q. rewrite !(map_nth (fun v => INR n * v)) in Q.
  apply Rmult_eq_reg_l in Q; auto.
Qed.

Example C90_example : exists ws y w1 w2, hrffti 300 105 (repeat 0 105) = Some ws /\
  hrfftf 0 105 (repeat 2 105) (repeat 0 105) ws = Some (y, w1) /\ hrfftb 0 105 y w1 ws = Some (map (fun v => INR 105 * v) (repeat 2 105), w2).
Proof.
  destruct (hrffti_total 0 105 300 (repeat 0 105) ltac:(lia) ltac:(rewrite repeat_length; lia) ltac:(lia)) as (wa & fac & I & _).
  destruct (C90_round_trip 0 300 105 (repeat 0 105) (repeat 2 105) (repeat 0 105) _ ltac:(lia) ltac:(apply repeat_length) ltac:(apply repeat_length) ltac:(rewrite repeat_length; lia) I) as (y & w1 & w2 & A & B).
  exists (wa, fac), y, w1, w2. auto.
Qed.

Print Assumptions C89_backward.
Print Assumptions C89_total.
Print Assumptions C89_deterministic.
Print Assumptions C90_round_trip.
Print Assumptions C90_back_and_forth.
Print Assumptions C90_injective.
