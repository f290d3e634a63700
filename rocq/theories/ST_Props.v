(** C103-C107: grdtospec and spectogrd on a Gaussian grid with stored functions. *)
From Coq Require Import Reals List Arith ZArith Lia Bool Lra.
From Verif Require Import Base Buffer VH_Model RS_Spec RS_Dft FF_Model GS_Spec GS_Model RS_Table GS_Proofs3 GS_Proofs8 GS_Props LG_Spec LG_Model LG_Proofs4 LG_Props GQ_Spec GQ_Model GQ_Props SH_Spec ST_Spec ST_Model ST_Proofs1 ST_Proofs2 ST_Proofs3 ST_Proofs4.
From Verif Require SH_Model SH_Proofs SH_Proofs3 SH_Props FF_Proofs9.
Import ListNotations.
Local Open Scope nat_scope.

(** ** C103: an instance and its synthesis *)
(** Creating an instance succeeds whatever the memory holds; its workspace has the
    functions at the points of gaqd, and the weights of gaqd. *)
Theorem C103_instance : forall nlat nlon fuel dz rsphere m, 3 <= nlat -> 4 <= nlon -> (0 < rsphere)%R -> (0 < dz)%R -> 2 * nlon + 5 <= fuel -> memory_ok nlat nlon m ->
  exists s th, initialise fuel dz (Z.of_nat nlon) (Z.of_nat nlat) rsphere m = Done s /\
    gauss_points nlat (sqrt dz * sqrt (sqrt dz)) th (fun i => nth (i - 1) (s_wts s) 0%R) /\
    symmetric_colatitudes nlat th /\ symmetric_weights nlat (s_wts s) /\ prepared nlat nlon th s.
Proof. exact initialise_ok. Qed.
Theorem C103_rejected : forall fuel dz nlon nlat rsphere m, (rsphere <= 0)%R \/ (nlon < 4)%Z \/ (nlat < 3)%Z -> initialise fuel dz nlon nlat rsphere m = Invalid.
Proof.
  intros fuel dz nlon nlat rsphere m H. unfold initialise. destruct (Rlt_dec 0 rsphere); auto. destruct (Z.ltb_spec nlon 4); auto. destruct (Z.ltb_spec nlat 3); auto. exfalso. destruct H as [H|H]; [lra|lia].
Qed.
(** Each grid value is the series of the coefficients at that colatitude and
    longitude, field by field; orders that the row cannot carry (m >= lmax) are left
    out.  What the new output array holds has no effect. *)
Theorem C103_series : forall nlat nlon th s d row N fresh x extra, 3 <= nlat -> 4 <= nlon -> symmetric_colatitudes nlat th -> prepared nlat nlon th s -> length row = nlon ->
  N < nlat -> (Z.of_nat (tri N) < 2 ^ 31)%Z -> shape x = tri N :: extra -> total extra <> 0 -> (forall k, k < total extra -> length (fresh k) = nlat * nlon) ->
  exists y, spectogrd nlat nlon s d row fresh x = Done y /\ shape y = nlat :: nlon :: extra /\ length (elements y) = nlat * nlon * total extra /\
    forall k i j, k < total extra -> i < nlat -> j < nlon ->
      sample nlon (total extra) (elements y) k i j =
      expansion N (Nat.min N (lmax nlat nlon - 1)) (coefficient N (total extra) (elements x) k) (th (i + 1)) (longitude nlon j).
Proof.
  intros nlat nlon th s d row N fresh x extra H1 H2 HS HP LR HN HT ES NZ LF.
  destruct (spectogrd_ok nlat nlon th s H1 H2 HS HP d row LR N fresh x extra HN HT ES NZ LF) as (fs & E & L & V). eexists. split; [exact E|]. split; [reflexivity|]. split; [cbn [elements restore_grid_shape]; rewrite map_length, seq_length; reflexivity|].
  intros k i j Hk Hi Hj. rewrite sample_restore by auto. destruct (V k Hk) as (_ & _ & W). apply W; auto.
Qed.
(** It agrees with the evaluation at one point by getlegfunc and specintrp
    (SH_Model), when all orders are carried. *)
Theorem C103_point_value : forall nlat nlon th s d row N fresh c junk, 3 <= nlat -> 4 <= nlon -> symmetric_colatitudes nlat th -> prepared nlat nlon th s -> length row = nlon ->
  N < lmax nlat nlon -> (Z.of_nat (tri N) < 2 ^ 31)%Z -> length c = tri N -> length (fresh 0) = nlat * nlon -> length junk = tri N ->
  exists y, spectogrd nlat nlon s d row fresh (mk_array [tri N] c) = Done y /\
    forall i j, i < nlat -> j < nlon -> exists p,
      SH_Model.getlegfunc SH_Model.RR (fun n m => Pbar (Z.to_nat m) (Z.to_nat n) (th (i + 1))) (Z.of_nat N) junk = Some p /\
      SH_Model.specintrp SH_Model.RR (fun m => (cos (IZR m * longitude nlon j), sin (IZR m * longitude nlon j))) (Z.of_nat N) c p = Some (sample nlon 1 (elements y) 0 i j).
Proof.
  intros nlat nlon th s d row N fresh c junk H1 H2 HS HP LR HN HT LC LF LJ. pose proof (lm nlat nlon ltac:(lia) ltac:(lia)) as LM.
  destruct (C103_series nlat nlon th s d row N fresh (mk_array [tri N] c) []) as (y & E & _ & _ & V); auto; try lia; [cbn; lia|cbn; intros k Hk; replace k with 0 by lia; auto|].
  exists y. split; [exact E|]. intros i j Hi Hj.
  destruct (SH_Props.C52_point_value N (longitude nlon j) (fun n m => Pbar (Z.to_nat m) (Z.to_nat n) (th (i + 1))) c junk LC LJ) as (p & EP & ES). exists p. split; [exact EP|]. rewrite ES. f_equal.
  change (sample nlon 1) with (sample nlon (total [])). rewrite (V 0 i j) by (cbn; lia). replace (Nat.min N (lmax nlat nlon - 1)) with N by lia. rewrite (expansion_ext nlat nlon H1 H2 row LR N N _ (at_ N c)) by (auto; intros m n Hmn; unfold coefficient, at_; cbn [elements total fold_right]; f_equal; lia).
  rewrite expansion_list by auto. f_equal. apply map_ext. intros [[re im] [m n]]. rewrite !Nat2Z.id, <- !INR_IZR_INZ. reflexivity.
Qed.

(** ** C104: the analysis *)
(** Every coefficient whose order the row carries is the weighted projection of the
    field, field by field. *)
Theorem C104_projection : forall nlat nlon th s d row N ntrunc fresh x extra, 3 <= nlat -> 4 <= nlon -> symmetric_colatitudes nlat th -> prepared nlat nlon th s -> symmetric_weights nlat (s_wts s) -> length row = nlon ->
  truncation nlat ntrunc N -> shape x = nlat :: nlon :: extra -> total extra <> 0 -> (forall k, k < total extra -> length (fst (fresh k)) = nlat * nlat /\ length (snd (fresh k)) = nlat * nlat) ->
  exists y, grdtospec nlat nlon s d row fresh x ntrunc = Done y /\ shape y = tri N :: extra /\ length (elements y) = tri N * total extra /\
    forall k m n, k < total extra -> m <= n <= N -> m < lmax nlat nlon ->
      coefficient N (total extra) (elements y) k m n =
      projection nlat nlon (fun i => nth i (s_wts s) 0%R) (fun i => th (S i)) (sample nlon (total extra) (elements x) k) m n.
Proof.
  intros nlat nlon th s d row N ntrunc fresh x extra H1 H2 HS HP SW LR HT ES NZ LF.
  destruct (grdtospec_ok nlat nlon th s H1 H2 HS HP d row LR N ntrunc fresh x extra HT ES NZ SW LF) as (cs & E & L & V). eexists. split; [exact E|]. split; [reflexivity|]. split; [cbn [elements restore_spectral_shape]; rewrite map_length, seq_length; reflexivity|].
  intros k m n Hk Hmn Hm. unfold coefficient. rewrite restore_spectral by (auto; apply SH_Proofs.index_lt; auto). destruct (V k Hk) as (_ & _ & VC). pose proof (VC m n Hmn) as W. replace (m <? lmax nlat nlon) with true in W by (symmetry; apply Nat.ltb_lt; auto). exact W.
Qed.
(** With a truncation the row carries, the result depends on the field only. *)
Theorem C104_determined : forall nlat nlon th s d d' row row' N fresh fresh' x extra, 3 <= nlat -> 4 <= nlon -> symmetric_colatitudes nlat th -> prepared nlat nlon th s -> symmetric_weights nlat (s_wts s) -> length row = nlon -> length row' = nlon ->
  N < lmax nlat nlon -> shape x = nlat :: nlon :: extra -> total extra <> 0 ->
  (forall k, k < total extra -> length (fst (fresh k)) = nlat * nlat /\ length (snd (fresh k)) = nlat * nlat) -> (forall k, k < total extra -> length (fst (fresh' k)) = nlat * nlat /\ length (snd (fresh' k)) = nlat * nlat) ->
  grdtospec nlat nlon s d row fresh x (Some (Z.of_nat N)) = grdtospec nlat nlon s d' row' fresh' x (Some (Z.of_nat N)).
Proof.
  intros nlat nlon th s d d' row row' N fresh fresh' x extra H1 H2 HS HP SW LR LR' HN ES NZ LF LF'. pose proof (lm nlat nlon ltac:(lia) ltac:(lia)) as LM.
  assert (TR : truncation nlat (Some (Z.of_nat N)) N) by (split; [auto|lia]).
  destruct (C104_projection nlat nlon th s d row N _ fresh x extra H1 H2 HS HP SW LR TR ES NZ LF) as (y & E & SY & LY & V).
  destruct (C104_projection nlat nlon th s d' row' N _ fresh' x extra H1 H2 HS HP SW LR' TR ES NZ LF') as (z & E' & SZ & LZ & W).
  rewrite E, E'. f_equal. destruct y as [sy ey], z as [sz ez]. cbn [shape elements] in *. f_equal; [congruence|]. apply nth_ext with (0, 0)%R (0, 0)%R; [congruence|]. intros p Hp. rewrite LY in Hp.
  set (nt := total extra) in *. pose proof (Nat.div_mod p nt NZ) as DM. pose proof (Nat.mod_upper_bound p nt NZ) as MB. assert (HQ : p / nt < tri N) by (apply Nat.div_lt_upper_bound; [auto|lia]).
  destruct (nth_error (pairs N) (p / nt)) as [[m n]|] eqn:EP; [|apply nth_error_None in EP; rewrite SH_Proofs.pairs_length in EP; lia].
  destruct (SH_Proofs.index_unique _ _ _ _ EP) as [EI B]. specialize (V (p mod nt) m n MB B ltac:(lia)). specialize (W (p mod nt) m n MB B ltac:(lia)). unfold coefficient in V, W. rewrite <- EI in V, W. replace (p / nt * nt + p mod nt) with p in V, W by lia. congruence.
Qed.

(** ** C105: truncations beyond what the row carries *)
(** The other coefficients are whatever the new arrays a and b held. *)
Theorem C105_leftover : forall nlat nlon th s d row N ntrunc fresh x extra, 3 <= nlat -> 4 <= nlon -> symmetric_colatitudes nlat th -> prepared nlat nlon th s -> symmetric_weights nlat (s_wts s) -> length row = nlon ->
  truncation nlat ntrunc N -> shape x = nlat :: nlon :: extra -> total extra <> 0 -> (forall k, k < total extra -> length (fst (fresh k)) = nlat * nlat /\ length (snd (fresh k)) = nlat * nlat) ->
  exists y, grdtospec nlat nlon s d row fresh x ntrunc = Done y /\
    forall k m n, k < total extra -> m <= n <= N -> lmax nlat nlon <= m ->
      coefficient N (total extra) (elements y) k m n = (1 / 2 * val2 nlat (fst (fresh k)) (m + 1) (n + 1), 1 / 2 * val2 nlat (snd (fresh k)) (m + 1) (n + 1))%R.
Proof.
  intros nlat nlon th s d row N ntrunc fresh x extra H1 H2 HS HP SW LR HT ES NZ LF.
  destruct (grdtospec_ok nlat nlon th s H1 H2 HS HP d row LR N ntrunc fresh x extra HT ES NZ SW LF) as (cs & E & L & V). eexists. split; [exact E|].
  intros k m n Hk Hmn Hm. unfold coefficient. rewrite restore_spectral by (auto; apply SH_Proofs.index_lt; auto). destruct (V k Hk) as (_ & _ & VC). pose proof (VC m n Hmn) as W. replace (m <? lmax nlat nlon) with false in W by (symmetry; apply Nat.ltb_ge; auto). exact W.
Qed.
Definition zeros (nlat nlon : nat) : memory := mk_memory (repeat 0%R (nlon + 15)) (repeat 0%R nlat) (repeat 0%R nlat) (repeat 0%R (nlat * north nlat)) (repeat 0%R (nlat * (nlat + 2))) (1, 2, 3)
  (repeat 0%R (nlat * (north nlat * 3))) (repeat 0%R (north nlat * functions nlat nlon)).
Lemma zeros_ok nlat nlon : 1 <= nlat -> memory_ok nlat nlon (zeros nlat nlon).
Proof.
  intros H. unfold memory_ok, zeros. cbn [m_wfft m_theta m_wts m_tab m_work m_km m_pmn m_pmnf]. rewrite !repeat_length. repeat split; try lia.
  pose proof (Nat.div_le_upper_bound nlat 2 nlat ltac:(lia) ltac:(lia)). nia.
Qed.
(** So the default truncation nlat - 1 does not give a function of the field once
    nlon < 2 nlat - 2: any value can come out. *)
Theorem C105_determined_refuted : exists nlat nlon fuel dz rsphere m s, initialise fuel dz (Z.of_nat nlon) (Z.of_nat nlat) rsphere m = Done s /\
  forall row x v, length row = nlon -> shape x = [nlat; nlon] ->
    exists fresh y, (forall k, length (fst (fresh k)) = nlat * nlat /\ length (snd (fresh k)) = nlat * nlat) /\ grdtospec nlat nlon s 0%R row fresh x None = Done y /\ coefficient (nlat - 1) 1 (elements y) 0 4 4 = v.
Proof.
  destruct (C103_instance 5 4 13 1 1 (zeros 5 4)) as (s & th & E & _ & SC & SW & PR); try lra; try lia; [apply zeros_ok; lia|].
  exists 5, 4, 13, 1%R, 1%R, (zeros 5 4), s. split; [exact E|]. intros row x [v1 v2] LR ES. exists (fun _ => (repeat (2 * v1)%R 25, repeat (2 * v2)%R 25)).
  destruct (C105_leftover 5 4 th s 0%R row 4 None (fun _ => (repeat (2 * v1)%R 25, repeat (2 * v2)%R 25)) x []) as (y & EY & V); auto; try lia; [split; auto|cbn; lia|].
  exists y. split; [auto|]. split; [exact EY|]. change (5 - 1) with 4. change 1 with (total []). rewrite V by (cbn; lia). cbn. apply f_equal2; field.
Qed.

(** ** C106: there and back *)
(** With exact Gaussian points and weights the analysis of a synthesis gives back
    every coefficient the row carries, except imaginary parts of order 0 and nlon / 2,
    for any truncation of the way back. *)
Theorem C106_round_trip : forall nlat nlon th s d row N N' ntrunc fresh fresh' x extra, 3 <= nlat -> 4 <= nlon -> symmetric_colatitudes nlat th -> prepared nlat nlon th s -> symmetric_weights nlat (s_wts s) -> gaussian nlat (s_wts s) th -> length row = nlon ->
  N < nlat -> (Z.of_nat (tri N) < 2 ^ 31)%Z -> shape x = tri N :: extra -> total extra <> 0 -> truncation nlat ntrunc N' ->
  (forall k, k < total extra -> length (fresh k) = nlat * nlon) -> (forall k, k < total extra -> length (fst (fresh' k)) = nlat * nlat /\ length (snd (fresh' k)) = nlat * nlat) ->
  exists y z, spectogrd nlat nlon s d row fresh x = Done y /\ grdtospec nlat nlon s d row fresh' y ntrunc = Done z /\
    shape z = tri N' :: extra /\ length (elements z) = tri N' * total extra /\
    forall k m n, k < total extra -> m <= n <= N' -> m < lmax nlat nlon ->
      coefficient N' (total extra) (elements z) k m n = if n <=? N then visible nlon m (coefficient N (total extra) (elements x) k m n) else (0, 0)%R.
Proof. intros nlat nlon th s d row N N' ntrunc fresh fresh' x extra H1 H2 HS HP SW HG LR HN HT ES NZ TR LF LF'. exact (round_trip nlat nlon th s H1 H2 HS HP SW HG d row LR N N' ntrunc fresh fresh' x extra HN HT ES NZ TR LF LF'). Qed.
(** The identity on spectra with a truncation the row carries. *)
Theorem C106_identity : forall nlat nlon th s d row N fresh fresh' x extra, 3 <= nlat -> 4 <= nlon -> symmetric_colatitudes nlat th -> prepared nlat nlon th s -> symmetric_weights nlat (s_wts s) -> gaussian nlat (s_wts s) th -> length row = nlon ->
  N < lmax nlat nlon -> (Z.of_nat (tri N) < 2 ^ 31)%Z -> shape x = tri N :: extra -> total extra <> 0 -> length (elements x) = tri N * total extra ->
  (forall k m n, k < total extra -> m <= n <= N -> visible nlon m (coefficient N (total extra) (elements x) k m n) = coefficient N (total extra) (elements x) k m n) ->
  (forall k, k < total extra -> length (fresh k) = nlat * nlon) -> (forall k, k < total extra -> length (fst (fresh' k)) = nlat * nlat /\ length (snd (fresh' k)) = nlat * nlat) ->
  exists y, spectogrd nlat nlon s d row fresh x = Done y /\ grdtospec nlat nlon s d row fresh' y (Some (Z.of_nat N)) = Done x.
Proof. intros nlat nlon th s d row N fresh fresh' x extra H1 H2 HS HP SW HG LR HN HT ES NZ LX VX LF LF'. exact (identity nlat nlon th s H1 H2 HS HP SW HG d row LR N fresh fresh' x extra HN HT ES NZ LX VX LF LF'). Qed.

(** A workspace on the three Gaussian points, five longitudes, and one spectrum. *)
Lemma workspace3 : exists s, s_wts s = weights3 /\ prepared 3 5 (colatitude theta3) s.
Proof.
  destruct (FF_Proofs9.hrffti_total 0%R 5 20 (repeat 0%R 5) ltac:(lia) ltac:(rewrite repeat_length; lia) ltac:(lia)) as (wa & fac & X & _).
  destruct (C97_all_orders 3 5 theta3 3 (repeat 0%R 6) (repeat 0%R 2) (1, 2, 3) (repeat 0%R 18) (repeat 0%R 12)) as (f & _ & LF & V); try reflexivity; try (cbn; lia).
  exists (mk_saved weights3 (wa, fac) f). split; [reflexivity|]. split; [exact LF|]. split; [exact V|]. exists 20, (repeat 0%R 5). split; [rewrite repeat_length; lia|exact X].
Qed.
Example C103_example : exists s y, prepared 3 5 (colatitude theta3) s /\
  spectogrd 3 5 s 0%R (repeat 0%R 5) (fun _ => repeat 9%R 15) (mk_array [3] [(1, 0); (0, 0); (0, 0)]%R) = Done y /\ sample 5 1 (elements y) 0 2 4 = sqrt (1 / 2).
Proof.
  destruct workspace3 as (s & _ & PR). exists s.
  destruct (C103_series 3 5 (colatitude theta3) s 0%R (repeat 0%R 5) 1 (fun _ => repeat 9%R 15) (mk_array [3] [(1, 0); (0, 0); (0, 0)]%R) []) as (y & E & _ & _ & V); auto using theta3_symmetric; try lia; try reflexivity; [cbn; lia|].
  exists y. split; [exact PR|]. split; [exact E|]. change 1 with (total []) at 2. rewrite V by (cbn; lia).
  change (Nat.min 1 (lmax 3 5 - 1)) with 1. unfold expansion. change (1 + 1) with 2. cbn [sumR Nat.sub]. cbv zeta. change (1 + 0) with 1. set (t := colatitude theta3 (2 + 1)).
  set (c := coefficient 1 (total []) (elements (mk_array [3] [(1, 0); (0, 0); (0, 0)]%R)) 0). change (c 0 0) with (1, 0)%R. change (c 0 1) with (0, 0)%R. change (c 1 1) with (0, 0)%R. cbn [fst snd].
  replace (Pbar 0 0 t) with (sqrt (1 / 2)); [ring|]. unfold Pbar, pnorm. change (D 0 0 (cos t)) with 1%R. cbn [pow]. rewrite Rmult_1_r, Rmult_1_r. f_equal. cbn. field.
Qed.
Example C106_example : exists s y, s_wts s = weights3 /\ prepared 3 5 (colatitude theta3) s /\ gaussian 3 (s_wts s) (colatitude theta3) /\
  let x := mk_array [6] [(1, 0); (2, 0); (3, 0); (4, 5); (6, 7); (8, 9)]%R in
  spectogrd 3 5 s 0%R (repeat 0%R 5) (fun _ => repeat 9%R 15) x = Done y /\ grdtospec 3 5 s 0%R (repeat 0%R 5) (fun _ => (repeat 7%R 9, repeat 8%R 9)) y (Some 2%Z) = Done x.
Proof.
  destruct workspace3 as (s & EW & PR). exists s.
  set (x := mk_array [6] [(1, 0); (2, 0); (3, 0); (4, 5); (6, 7); (8, 9)]%R).
  assert (SW : symmetric_weights 3 (s_wts s)) by (rewrite EW; apply weights3_symmetric). assert (G : gaussian 3 (s_wts s) (colatitude theta3)) by (rewrite EW; apply theta3_gaussian).
  assert (VX : forall k m n, k < 1 -> m <= n <= 2 -> visible 5 m (coefficient 2 1 (elements x) k m n) = coefficient 2 1 (elements x) k m n).
  { intros k m n Hk Hmn. assert (k = 0) as -> by lia. assert (C : (m = 0 /\ (n = 0 \/ n = 1 \/ n = 2)) \/ (m = 1 /\ (n = 1 \/ n = 2)) \/ (m = 2 /\ n = 2)) by lia.
    destruct C as [[-> [->|[->| ->]]]|[[-> [->| ->]]|[-> ->]]]; reflexivity. }
  destruct (C106_identity 3 5 (colatitude theta3) s 0%R (repeat 0%R 5) 2 (fun _ => repeat 9%R 15) (fun _ => (repeat 7%R 9, repeat 8%R 9)) x [] ltac:(lia) ltac:(lia) theta3_symmetric PR SW G eq_refl ltac:(cbn; lia) eq_refl eq_refl ltac:(cbn; lia) eq_refl VX (fun _ _ => eq_refl) (fun _ _ => conj eq_refl eq_refl)) as (y & E1 & E2).
  exists y. split; [exact EW|]. split; [exact PR|]. split; [exact G|]. cbv zeta. split; [exact E1|exact E2].
Qed.

(** ** C107: errors, shapes and latitudes *)
Definition bad_grid (nlat nlon : nat) (s : list nat) : Prop := match s with a :: b :: _ => a <> nlat \/ b <> nlon | _ => True end.
Definition bad_truncation (nlat : nat) (t : option Z) : Prop := match t with Some n => (n < 0 \/ Z.of_nat nlat - 1 < n)%Z | None => False end.
(** grdtospec rejects arrays of rank below 2 or of other sizes and truncations outside
    0 .. nlat - 1; no field at all is error 4; otherwise it returns and never leaves an array. *)
Theorem C107_grdtospec : forall nlat nlon th s d row fresh x ntrunc, 3 <= nlat -> 4 <= nlon -> symmetric_colatitudes nlat th -> prepared nlat nlon th s -> symmetric_weights nlat (s_wts s) -> length row = nlon ->
  (forall k, length (fst (fresh k)) = nlat * nlat /\ length (snd (fresh k)) = nlat * nlat) ->
  let o := grdtospec nlat nlon s d row fresh x ntrunc in let nt := total (skipn 2 (shape x)) in
  (bad_grid nlat nlon (shape x) \/ bad_truncation nlat ntrunc -> o = Invalid) /\
  (~ bad_grid nlat nlon (shape x) -> ~ bad_truncation nlat ntrunc ->
     (nt = 0 -> o = Failed 4%Z) /\
     (nt <> 0 -> exists y, o = Done y /\ shape y = tri (match ntrunc with Some n => Z.to_nat n | None => nlat - 1 end) :: skipn 2 (shape x))).
Proof.
  intros nlat nlon th s d row fresh x ntrunc H1 H2 HS HP SW LR LF o nt. split.
  - unfold o, grdtospec, validate_grid_data. destruct (shape x) as [|n1 [|n2 extra]]; auto. intros B. destruct (Nat.eqb_spec n1 nlat) as [->|]; [|reflexivity]. destruct (Nat.eqb_spec n2 nlon) as [->|]; [|reflexivity].
    cbn [negb orb after]. destruct B as [[B|B]|B]; try congruence. unfold SH_Model.validate_ntrunc. destruct ntrunc as [n|]; [|contradiction]. cbn in B. replace (((n <? 0) || (Z.of_nat nlat - 1 <? n))%Z%bool) with true; [reflexivity|]. symmetry. apply orb_true_iff. rewrite !Z.ltb_lt. exact B.
  - intros NB NT. unfold nt, o in *. destruct (shape x) as [|n1 [|n2 extra]] eqn:ES; [exfalso; apply NB; exact I|exfalso; apply NB; exact I|]. cbn [bad_grid] in NB. assert (n1 = nlat) as -> by lia. assert (n2 = nlon) as -> by lia. cbn [skipn].
    set (N := match ntrunc with Some n => Z.to_nat n | None => nlat - 1 end). assert (TR : truncation nlat ntrunc N) by (unfold truncation, N, bad_truncation in *; destruct ntrunc; lia).
    destruct (grdtospec_run nlat nlon H1 H2 s d row fresh x extra ntrunc N (fun _ _ => True) ES (valid_truncation nlat ntrunc N ltac:(lia) TR)) as [R0 R1].
    { intros k Hk. destruct (LF k) as [LA LB]. destruct (analysis_field nlat nlon th s ltac:(lia) ltac:(lia) HS HP d row LR (field_of nlat nlon (total extra) (elements x) k) (fst (fresh k)) (snd (fresh k)) (field_length _ _ _ _ _) LA LB SW) as (a & b & E & La & Lb & _).
      destruct (fold_spectrum nlat N (proj2 TR) a b La Lb) as (c & EC & _). exists a, b, c. auto. }
    split; [exact R0|]. intros NZ. destruct (R1 NZ) as (cs & E & _). eexists. split; [exact E|]. reflexivity.
Qed.
(** spectogrd rejects scalars and spectra with more coefficients than truncation
    nlat - 1 has, up to the next triangular number; no spectrum at all is error 4;
    otherwise it returns and never leaves an array.  Lengths from 2^21 up are in C52. *)
Theorem C107_spectogrd : forall nlat nlon th s d row fresh x, 3 <= nlat -> 4 <= nlon -> symmetric_colatitudes nlat th -> prepared nlat nlon th s -> length row = nlon ->
  (forall k, length (fresh k) = nlat * nlon) -> (Z.of_nat (hd 0%nat (shape x)) < 2 ^ 21)%Z ->
  let o := spectogrd nlat nlon s d row fresh x in let nt := total (tl (shape x)) in
  let bad := match shape x with [] => True | nm :: _ => tri nlat <= nm end in
  (bad -> o = Invalid) /\
  (~ bad -> (nt = 0 -> o = Failed 4%Z) /\ (nt <> 0 -> exists y, o = Done y /\ shape y = nlat :: nlon :: tl (shape x))).
Proof.
  intros nlat nlon th s d row fresh x H1 H2 HS HP LR LF H21 o nt bad. unfold o, nt, bad. destruct (shape x) as [|nm extra] eqn:ES.
  - split; [intros _; unfold spectogrd, validate_spectral_data; rewrite ES; reflexivity|]. intros NB. contradiction.
  - cbn [hd tl] in *. destruct (SH_Props.C52_truncation_any_length_partial (Z.of_nat nm) ltac:(lia)) as (t & E32 & E64 & TG & TL).
    assert (TM : forall a b, (0 <= a + 1)%Z -> (a <= b)%Z -> (SH_Model.nmdim_of a <= SH_Model.nmdim_of b)%Z) by (intros a b Ha Hab; unfold SH_Model.nmdim_of; apply Z.div_le_mono; [lia|]; nia).
    assert (BI : (Z.of_nat nlat - 1 < t)%Z <-> tri nlat <= nm).
    { split; intros B.
      - pose proof (TM (Z.of_nat nlat) t ltac:(lia) ltac:(lia)) as M. rewrite SH_Proofs3.nmdim_tri_Z in M. lia.
      - destruct (Z.lt_ge_cases (Z.of_nat nlat - 1) t) as [|G]; auto. pose proof (TM (t + 1)%Z (Z.of_nat nlat) ltac:(lia) ltac:(lia)) as M. rewrite SH_Proofs3.nmdim_tri_Z in M. lia. }
    assert (EV : SH_Model.validate_spectral_data (Z.of_nat nlat) (Z.of_nat nm) = if (Z.of_nat nlat - 1 <? t)%Z then None else Some t) by (unfold SH_Model.validate_spectral_data; rewrite E64; reflexivity).
    split.
    + intros B. apply BI in B. unfold spectogrd, validate_spectral_data. rewrite ES, EV. destruct (Z.ltb_spec (Z.of_nat nlat - 1) t); [reflexivity|lia].
    + intros NB. assert (T1 : (t <= Z.of_nat nlat - 1)%Z) by (destruct (Z.lt_ge_cases (Z.of_nat nlat - 1) t) as [G|G]; [apply BI in G; contradiction|lia]).
      destruct (Z.ltb_spec (Z.of_nat nlat - 1) t); [lia|].
      destruct (spectogrd_run nlat nlon H1 H2 s d row fresh x nm extra t (fun _ _ => True) ES EV) as [R0 R1].
      { intros k Hk. set (c := column_of nm (total extra) (elements x) k). assert (LC : length c = nm) by apply column_length.
        assert (OT : exists a b, SH_Model.onedtotwod SH_Model.RR (Z.of_nat nlat) c = Some (a, b) /\ length a = nlat * nlat /\ length b = nlat * nlat).
        { unfold SH_Model.onedtotwod. replace (Z.of_nat (@length (SH_Model.T SH_Model.RR * SH_Model.T SH_Model.RR) c)) with (Z.of_nat nm) by (f_equal; symmetry; exact LC). rewrite E32. cbn [bind].
          destruct (Z.eq_dec t (-1)) as [->|NT].
          - eexists. eexists. split; [reflexivity|]. cbn [fst snd]. unfold SH_Model.zero2. rewrite repeat_length, !Nat2Z.id. auto.
          - destruct (SH_Proofs3.onedtotwod_result SH_Model.RR (Z.to_nat t) (Z.of_nat nlat) c) as (a & b & E & LA & LB & _).
            + change (tri (Z.to_nat t) <= length c). rewrite LC. pose proof (SH_Proofs3.nmdim_tri_Z (Z.to_nat t)) as M. rewrite Z2Nat.id in M by lia. lia.
            + lia.
            + rewrite Z2Nat.id in E by lia. exists a, b. split; [exact E|]. red in LA, LB. rewrite Nat2Z.id in LA, LB. auto. }
        destruct OT as (a & b & E & LA & LB). destruct (prepared_facts nlat nlon th s ltac:(lia) ltac:(lia) HS HP) as (ZE & _ & _). destruct HP as (LP & _ & fuel & wa0 & LW & HI). pose proof (lm nlat nlon ltac:(lia) ltac:(lia)) as LM.
        destruct (C92_synthesis nlat nlon 0 nlat nlon nlat nlat a b (s_pmn s) d row fuel wa0 (s_wfft s) (fresh k)) as (g & EG & _); auto; try lia. exists a, b, g. auto. }
      split; [exact R0|]. intros NZ. destruct (R1 NZ) as (fs & E & _). eexists. split; [exact E|]. reflexivity.
Qed.
(** gaussian_lats_wts: latitudes in degrees from the colatitudes of gaqd, symmetric
    about the equator; no latitude is error 1. *)
Theorem C107_latitudes : forall nlat dz theta wts, 3 <= nlat -> (0 < dz)%R -> length theta = nlat -> length wts = nlat ->
  exists lats w th, gaussian_lats_wts dz theta wts (Z.of_nat nlat) = Done (lats, w) /\ length lats = nlat /\ length w = nlat /\
    gauss_points nlat (sqrt dz * sqrt (sqrt dz)) th (fun i => nth (i - 1) w 0%R) /\
    (forall q, q < nlat -> nth q lats 0%R = (90 - 180 * th (q + 1)%nat / PI)%R) /\
    forall q, q < nlat -> nth (nlat - 1 - q) lats 0%R = (- nth q lats 0)%R.
Proof.
  intros nlat dz theta wts H1 HD L1 L2. destruct (C101_points nlat dz theta wts H1 HD L1 L2) as (th & wt & E & LT & LW & GP). pose proof PI_RGT_0 as PP.
  assert (V : forall q, q < nlat -> nth q (map (fun c => 90 - c * (180 / PI))%R th) 0%R = (90 - 180 * nth (q + 1 - 1) th 0 / PI)%R).
  { intros q Hq. rewrite (nth_indep _ 0%R (90 - 0 * (180 / PI))%R) by (rewrite map_length; lia). rewrite (map_nth (fun c => 90 - c * (180 / PI))%R). replace (q + 1 - 1) with q by lia. field. lra. }
  exists (map (fun c => 90 - c * (180 / PI))%R th), wt, (fun i => nth (i - 1) th 0%R). split; [unfold gaussian_lats_wts; rewrite E; reflexivity|]. split; [rewrite map_length; exact LT|]. split; [exact LW|]. split; [exact GP|]. split; [exact V|].
  intros q Hq. rewrite !V by lia. destruct GP as (_ & SC & _). pose proof (SC (q + 1) ltac:(lia)) as S. cbv beta in S. replace (nlat + 1 - (q + 1) - 1) with (nlat - 1 - q + 1 - 1) in S by lia. rewrite S. field. lra.
Qed.
Theorem C107_no_latitude : forall dz theta wts nlat, (nlat <= 0)%Z -> gaussian_lats_wts dz theta wts nlat = Failed 1%Z.
Proof. intros dz theta wts nlat H. unfold gaussian_lats_wts. rewrite C101_error by auto. reflexivity. Qed.
Example C107_example : exists s, prepared 3 5 (colatitude theta3) s /\ forall fresh,
  grdtospec 3 5 s 0%R (repeat 0%R 5) fresh (mk_array [3; 4] []) None = Invalid /\
  grdtospec 3 5 s 0%R (repeat 0%R 5) fresh (mk_array [3; 5; 0] []) (Some 3%Z) = Invalid /\
  grdtospec 3 5 s 0%R (repeat 0%R 5) fresh (mk_array [3; 5; 0] []) (Some 2%Z) = Failed 4%Z.
Proof. destruct workspace3 as (s & _ & PR). exists s. split; [exact PR|]. intros fresh. repeat split; reflexivity. Qed.

Print Assumptions C103_instance.
Print Assumptions C103_rejected.
Print Assumptions C103_series.
Print Assumptions C103_point_value.
Print Assumptions C104_projection.
Print Assumptions C104_determined.
Print Assumptions C105_leftover.
Print Assumptions C105_determined_refuted.
Print Assumptions C106_round_trip.
Print Assumptions C106_identity.
Print Assumptions C107_grdtospec.
Print Assumptions C107_spectogrd.
Print Assumptions C107_latitudes.
Print Assumptions C107_no_latitude.
