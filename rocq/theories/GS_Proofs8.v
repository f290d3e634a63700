(** Lengths of the workspaces, and the Gaussian grid of three rows. *)
From Coq Require Import Reals List Arith ZArith Lia Bool Lra Nsatz.
From Verif Require Import Base Buffer VH_Model RS_Spec RS_Dft RS_Table GS_Spec GS_Model GS_Proofs1 GS_Proofs3.
Import ListNotations.
Local Open Scope nat_scope.

Lemma even_prod n : exists k, n * (n - 1) = 2 * k.
Proof. destruct n; [exists 0; auto|]. destruct (Nat.Even_or_Odd n) as [[k ->]|[k ->]]; [exists ((S (2 * k)) * k)|exists ((k + 1) * (2 * k + 1))]; rewrite ?Nat.sub_succ, ?Nat.sub_0_r; nia. Qed.
Lemma halfz (x k : Z) : x = (2 * k)%Z -> (x / 2 = k)%Z.
Proof. intros ->. rewrite Z.mul_comm. apply Z.div_mul. lia. Qed.
Lemma evenz (l : Z) : exists k, (l * (l - 1) = 2 * k)%Z.
Proof. destruct (Z.Even_or_Odd l) as [[k ->]|[k ->]]; [exists (k * (2 * k - 1))%Z|exists ((2 * k + 1) * k)%Z]; ring. Qed.

Lemma pos1 A n B : 1 <= A + 1 + n + 15 + B.
Proof. lia. Qed.
Lemma saved_length nlat nlon l late : 1 <= l <= nlat ->
  let ifft := nlat + 2 * nlat * late + 3 * (l * (l - 1) / 2 + (nlat - l) * (l - 1)) + 1 in
  Z.of_nat (ifft + nlon + 15 + late * npm_of nlat l - 1) = lp_of (Z.of_nat nlat) (Z.of_nat nlon) (Z.of_nat l) (Z.of_nat late).
Proof.
  intros Hl. cbv zeta. unfold lp_of. rewrite npm_tri by lia. pose proof (tri_sum_closed nlat l ltac:(lia)) as T.
  destruct (even_prod l) as [x X]. rewrite X, (Nat.mul_comm 2 x), Nat.div_mul by lia.
  assert (X' : (Z.of_nat l * (Z.of_nat l - 1) = 2 * Z.of_nat x)%Z) by nia.
  set (L := Z.of_nat l) in *. set (N := Z.of_nat nlat) in *. set (E := Z.of_nat late) in *.
  destruct (evenz L) as [k0 K0]. destruct (evenz (2 * N - L)) as [k1 K1].
  assert (HZ : exists z, ((L - 1) * (E * (2 * N - L) - 3 * L) = 2 * z)%Z).
  { exists ((L - 1) * E * N - E * k0 - 3 * k0)%Z. nia. }
  destruct HZ as [z HZ]. rewrite (halfz _ z HZ).
  rewrite Nat2Z.inj_sub by apply pos1. rewrite !Nat2Z.inj_add, !Nat2Z.inj_mul, !Nat2Z.inj_add, Nat2Z.inj_mul, !Nat2Z.inj_sub by lia. fold L N E.
  assert (T' : (2 * Z.of_nat (tri_sum nlat l) + L * L = L * (2 * N + 1))%Z) by (unfold L, N; nia).
  set (TT := Z.of_nat (tri_sum nlat l)) in *. set (XX := Z.of_nat x) in *. set (NL := Z.of_nat nlon).
  change (Z.of_nat 1) with 1%Z. change (Z.of_nat 2) with 2%Z. change (Z.of_nat 3) with 3%Z. change (Z.of_nat 15) with 15%Z.
  clearbody L N E TT XX NL. clear - T' X' HZ.
  assert (G : (2 * (N + 2 * N * E + 3 * (XX + (N - L) * (L - 1)) + 1 + NL + 15 + E * TT - 1) = 2 * (N * (3 * (L + E) - 2) + z + NL + 15))%Z).
  { replace (2 * (N + 2 * N * E + 3 * (XX + (N - L) * (L - 1)) + 1 + NL + 15 + E * TT - 1))%Z
      with (2 * N + 4 * N * E + 3 * (2 * XX) + 6 * (N - L) * (L - 1) + 2 * NL + 30 + E * (2 * TT))%Z by ring.
    replace (2 * TT)%Z with (L * (2 * N + 1) - L * L)%Z by (rewrite <- T'; ring). rewrite <- X'.
    replace (2 * (N * (3 * (L + E) - 2) + z + NL + 15))%Z with (2 * (N * (3 * (L + E) - 2)) + 2 * z + 2 * NL + 30)%Z by ring. rewrite <- HZ. ring. }
  lia.
Qed.

Lemma z_l nlat nlon : Z.of_nat (l_of nlat nlon) = Z.min ((Z.of_nat nlon + 2) / 2) (Z.of_nat nlat).
Proof. unfold l_of. rewrite Nat2Z.inj_min, Nat2Z.inj_div, Nat2Z.inj_add. auto. Qed.
Lemma z_late nlat : Z.of_nat (late_of nlat) = ((Z.of_nat nlat + Z.of_nat nlat mod 2) / 2)%Z.
Proof. unfold late_of. rewrite Nat2Z.inj_div, Nat2Z.inj_add, Nat2Z.inj_mod. auto. Qed.

Lemma n1_ok nlat nlon : (0 <= nlon)%Z -> n1_of nlat nlon = Z.min ((nlon + 2) / 2) nlat.
Proof.
  intros H. unfold n1_of. rewrite Z.min_comm. f_equal. destruct (Z.eqb_spec (nlon mod 2) 0); auto.
  pose proof (Z.div_mod nlon 2 ltac:(lia)). pose proof (Z.mod_pos_bound nlon 2 ltac:(lia)).
  replace (nlon + 1)%Z with ((nlon / 2 + 1) * 2)%Z by lia. rewrite Z.div_mul by lia. apply Z.div_unique with 1%Z; lia.
Qed.
Lemma n2_ok nlat : (0 <= nlat)%Z -> n2_of nlat = ((nlat + nlat mod 2) / 2)%Z.
Proof.
  intros H. unfold n2_of. pose proof (Z.mod_pos_bound nlat 2 ltac:(lia)). destruct (Z.eqb_spec (nlat mod 2) 0) as [E|E].
  - rewrite E. f_equal. lia.
  - do 2 f_equal. lia.
Qed.

(** ** Three Gaussian rows, truncation 2 (RS_Table) *)
Definition pmn3 : list R := flat_map (fun s => [nth s (legendre_at RS_Table.a RS_Table.b) 0%R; nth s (legendre_at 0 1) 0%R]) (seq 0 6).
Ltac open3 := unfold quadrature, pfull, legendre, val2, slot, weights3, pmn3, legendre_at, north;
  cbn -[Rplus Rmult Rdiv Ropp Rinv IZR Rminus RS_Table.w1 RS_Table.w2 RS_Table.a RS_Table.b c00 c01 c02 c11 c12 c22].
Lemma pmn3_equator nlon : zero_at_equator 3 nlon pmn3.
Proof.
  intros m n Hn Hm _ Ho. assert (n = 0 \/ n = 1 \/ n = 2) as [->|[->| ->]] by lia; (assert (m = 0 \/ m = 1 \/ m = 2) as [->|[->| ->]] by lia); try lia; try discriminate Ho; open3; ring.
Qed.
Lemma weights3_symmetric : symmetric_weights 3 weights3.
Proof. split; [reflexivity|]. intros q Hq. assert (q = 0 \/ q = 1 \/ q = 2) as [->|[->| ->]] by lia; reflexivity. Qed.
Lemma pmn3_orthonormal nlon : orthonormal_functions 3 nlon weights3 pmn3.
Proof.
  intros m n n' Hm Hn Hn'.
  assert (n = 0 \/ n = 1 \/ n = 2) as [->|[->| ->]] by lia; (assert (n' = 0 \/ n' = 1 \/ n' = 2) as [->|[->| ->]] by lia); (assert (m = 0 \/ m = 1 \/ m = 2) as [->|[->| ->]] by lia); try lia; open3; fold RS_Table.w1 RS_Table.w2; by_ideal.
Qed.
