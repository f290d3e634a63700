(** The table that reduced_gaussian_legendre_basis fills. *)
From Coq Require Import Reals List Arith ZArith Lia Bool Lra.
From Verif Require Import Base Buffer VH_Model GS_Spec GS_Model GS_Proofs1 GS_Proofs3 LG_Spec LG_Model LG_Proofs3 LG_Proofs4 LG_Proofs7
  SH_Spec SH_Proofs RS_Spec RS_Model RS_Model2 RS_Proofs1 RS_Proofs5 RS_Proofs8 RL_Model.
Import ListNotations.
Local Open Scope nat_scope.

Lemma nm_index T m n : m <= n <= T -> spectral_offset m T + n - m + 1 = S (index T m n).
Proof. intros H. rewrite <- (offset_index T m n H). lia. Qed.

Lemma late_facts nlat : nlat <= 2 * late_of nlat /\ 2 * late_of nlat <= nlat + 1.
Proof. pose proof (halves nlat) as [A B]. rewrite late_north. lia. Qed.
Section Basis.
Variables nlat T : nat.
Hypothesis H3 : 3 <= nlat.
Hypothesis HT : T < nlat.
Notation late := (late_of nlat).
Notation nmd := (nmdim T).
Variable th : nat -> R.
Hypothesis HS : symmetric_colatitudes nlat th.
Definition reached (q j : nat) : bool := orb (j <=? q) (nlat + 1 - q <=? j).
Lemma put_column_ok pmn G k m n b F : m <= n <= T -> 1 <= k <= 3 -> view3 nlat pmn G -> holds nlat th G k m -> view nlat nmd b F ->
  exists b', put_column nlat T pmn k (S (index T m n)) n ((-1) ^ (n - m))%R b = Some b' /\
    view nlat nmd b' (fun j c => if c =? S (index T m n) then Pbar m n (th j) else F j c).
Proof using H3 HT HS.
  intros Hn Hk VG HO VB. pose proof (late_facts nlat) as [A B]. pose proof (index_lt T m n Hn) as IL. set (c0 := S (index T m n)). assert (C0 : 1 <= c0 <= nmd) by (unfold c0, nmdim, tri in *; lia).
  unfold put_column.
  match goal with |- context [foldM ?f (seq 1 late) b] => destruct (fold_seq f (fun q b => view nlat nmd b (fun j c => if andb (c =? c0) (reached q j) then Pbar m n (th j) else F j c)) late 1 b) as (b' & E & V) end.
  - intros q b1 Hq V1. rewrite (rd3_view nlat pmn G) by (auto; lia). cbn [bind]. rewrite HO by lia. replace (n + 1 - 1) with n by lia.
    destruct (wr2_view nlat nmd b1 _ (1 + q) c0 (Pbar m n (th (1 + q))) V1 ltac:(lia) C0) as (b2 & E2 & V2). rewrite E2. cbn [bind].
    destruct (Nat.eqb_spec (nlat - (1 + q) + 1) (1 + q)) as [EQ|NE].
    + exists b2. split; auto. destruct V2 as [L2 V2]. split; auto. intros j c Hj Hc. rewrite V2 by auto. unfold reached.
      destruct (Nat.eqb_spec j (1 + q)) as [->|N1].
      * destruct (Nat.eqb_spec c c0); cbn [andb]; auto. destruct (Nat.leb_spec (1 + q) (S q)); [reflexivity|lia].
      * cbn [andb]. destruct (Nat.eqb_spec c c0); cbn [andb]; auto. destruct (Nat.leb_spec j q), (Nat.leb_spec j (S q)), (Nat.leb_spec (nlat + 1 - q) j), (Nat.leb_spec (nlat + 1 - S q) j); cbn [orb]; auto; lia.
    + set (js := nlat - (1 + q) + 1) in *.
      destruct (wr2_view nlat nmd b2 _ js c0 ((-1) ^ (n - m) * Pbar m n (th (1 + q)))%R V2 ltac:(unfold js; lia) C0) as (b3 & E3 & V3). exists b3. split; auto.
      destruct V3 as [L3 V3]. split; auto. intros j c Hj Hc. rewrite V3 by auto. unfold reached.
      destruct (Nat.eqb_spec c c0) as [->|NC]; cbn [andb]; rewrite ?andb_false_r; auto. rewrite !andb_true_r.
      destruct (Nat.eqb_spec j js) as [->|N1].
      * destruct (Nat.leb_spec js (S q)), (Nat.leb_spec (nlat + 1 - S q) js); cbn [orb]; try (unfold js in *; lia);
          (rewrite <- Pbar_mirror by lia; f_equal; pose proof (HS (1 + q) ltac:(lia)) as X; replace (nlat + 1 - (1 + q)) with js in X by (unfold js; lia); rewrite X; reflexivity).
      * destruct (Nat.eqb_spec j (1 + q)) as [->|N2]; [destruct (Nat.leb_spec (1 + q) (S q)); [reflexivity|lia]|].
        destruct (Nat.leb_spec j q), (Nat.leb_spec j (S q)), (Nat.leb_spec (nlat + 1 - q) j), (Nat.leb_spec (nlat + 1 - S q) j); cbn [orb]; auto; unfold js in *; lia.
  - destruct VB as [L V]. split; auto. intros j c Hj Hc. rewrite V by auto. unfold reached. destruct (Nat.leb_spec j 0), (Nat.leb_spec (nlat + 1 - 0) j); try lia. cbn [orb]. rewrite andb_false_r. auto.
  - exists b'. split; auto. destruct V as [L V]. split; auto. intros j c Hj Hc. rewrite V by auto. unfold reached. destruct (Nat.leb_spec j late), (Nat.leb_spec (nlat + 1 - late) j); cbn [orb]; rewrite ?andb_true_r; auto; lia.
Qed.

Definition filled (b : list R) (m r : nat) : Prop :=
  length b = nlat * nmd /\ forall m' n j, m' <= n <= T -> m' < m \/ (m' = m /\ n < m + r) -> 1 <= j <= nlat -> val2 nlat b j (S (index T m' n)) = Pbar m' n (th j).
Lemma put_order_ok pmn G k m b : m <= T -> 1 <= k <= 3 -> view3 nlat pmn G -> holds nlat th G k m -> filled b m 0 ->
  exists b', put_order nlat T pmn k m b = Some b' /\ filled b' (S m) 0.
Proof using H3 HT HS.
  intros Hm Hk VG HO FB. unfold put_order.
  match goal with |- context [foldM ?f (seq m ?N) ?s0] => destruct (fold_seq f (fun r s => filled (fst s) m r /\ snd s = ((-1) ^ r)%R) N m s0) as ([b' p] & E & FB' & _) end.
  - intros r [b1 p] Hr [F1 ->]. cbn [fst snd] in *. rewrite nm_index by lia. destruct F1 as [L1 V1].
    destruct (put_column_ok pmn G k m (m + r) b1 _ ltac:(lia) Hk VG HO (view_self _ _ _ L1)) as (b2 & E2 & L2 & V2). replace (m + r - m) with r in E2 by lia. rewrite E2. cbn [bind].
    eexists. split; [reflexivity|]. cbn [fst snd]. split; [|cbn [pow]; ring]. split; auto. intros m' n j Hn HD Hj.
    pose proof (index_lt T m' n Hn) as IL. rewrite V2 by (auto; unfold nmdim, tri in *; lia).
    destruct (Nat.eqb_spec (S (index T m' n)) (S (index T m (m + r)))) as [EI|NI].
    + injection EI as EI. destruct (index_inj T m' n m (m + r) Hn ltac:(lia) EI) as [-> ->]. auto.
    + apply V1; auto. destruct HD as [|[-> HD]]; auto. right. split; auto. assert (n <> m + r) by (intros ->; auto). lia.
  - cbn [fst snd pow]. split; auto.
  - rewrite E. cbn [bind fst]. exists b'. split; auto. cbn [fst] in FB'. destruct FB' as [L V]. split; auto. intros m' n j Hn HD Hj. apply V; auto. lia.
Qed.
End Basis.

Lemma late_same_of nlat : late_of nlat = (nlat + 1) / 2.
Proof. apply late_north. Qed.
Lemma basis_array_ok nlat T theta len junk work km pmn : 3 <= nlat -> 2 <= T < nlat ->
  symmetric_colatitudes nlat (fun i => nth (i - 1) theta 0%R) -> length theta = nlat ->
  (T + 1) * T / 2 + (nlat - (T + 1)) * T <= len -> length junk = nlat * late_of nlat -> nlat / 2 + 1 <= length work ->
  distinct km -> length pmn = nlat * (late_of nlat * 3) ->
  exists a, basis_array nlat T theta len junk work km pmn = Some a /\ filled nlat T (fun i => nth (i - 1) theta 0%R) a (S T) 0.
Proof.
  intros H3 HT HS LT HL HJ HW HD HP. set (th := fun i => nth (i - 1) theta 0%R) in *. unfold basis_array.
  assert (EL : l_of nlat (nlon_basis T) = T + 1).
  { unfold l_of, nlon_basis. rewrite Nat.max_r by lia. replace (2 * T + 2) with ((T + 1) * 2) by lia. rewrite Nat.div_mul by lia. lia. }
  rewrite EL. assert (Hl : 1 <= T + 1 <= nlat) by lia. pose proof (late_facts nlat) as [A B].
  assert (HL' : before (T + 1) (S nlat) <= len) by (rewrite (before_len nlat (T + 1) Hl); replace (T + 1 - 1) with T by lia; auto).
  destruct (table0_ok nlat ltac:(lia) theta ltac:(lia) junk work HJ HW) as (p0 & w0 & E0 & L0 & V0). rewrite E0. cbn [bind snd].
  destruct (table1_ok nlat ltac:(lia) theta ltac:(lia) junk w0 HJ ltac:(lia)) as (p1 & w1 & F1 & E1 & L1 & V1 & HF1 & _). rewrite E1. cbn [bind].
  assert (LZ : before (T + 1) (S nlat) <= length (repeat 0%R len)) by (rewrite repeat_length; auto).
  destruct (coefficients_ok nlat (T + 1) ltac:(lia) abel_of _ LZ) as (a & Ea & La & Va). rewrite Ea. cbn [bind].
  destruct (coefficients_ok nlat (T + 1) ltac:(lia) bbel_of _ LZ) as (b & Eb & Lb & Vb). rewrite Eb. cbn [bind].
  destruct (coefficients_ok nlat (T + 1) ltac:(lia) cbel_of _ LZ) as (c & Ec & Lc & Vc). rewrite Ec. cbn [bind].
  destruct (zero3_ok nlat (T + 1) Hl pmn HP) as (z & EZ & LZ3). rewrite EZ. cbn [bind fst].
  match goal with |- context [foldM ?f (seq 0 (T + 1)) ?s] => destruct (fold_seq f (fun q (st : (nat * nat * nat) * list R * list R) => distinct (fst (fst st)) /\ (exists G, view3 nlat (snd (fst st)) G /\ ready nlat th (fst (fst st)) G q) /\ filled nlat T th (snd st) q 0) (T + 1) 0 s) as ([[km' pm'] f'] & E & _ & _ & FF) end.
  - intros q [[kk pm] f] Hq (DK & (G & VG & RG) & FF). cbn [fst snd] in *. change (0 + q) with q. destruct kk as [[k0 k1] k2].
    pose proof (legin1_ok nlat (T + 1) th p0 p1 a b c F1 V0 V1 (fun x y H _ => HF1 x y H) Va Vb Vc q (k0, k1, k2) pm G Hq ltac:(lia) DK VG RG) as LG. cbv beta iota in LG. destruct LG as (pm2 & G2 & E2 & V2 & HO & RD). rewrite E2. cbn [bind fst snd].
    destruct DK as (B0 & B1 & B2 & N01 & N02 & N12).
    destruct (put_order_ok nlat T H3 ltac:(lia) th HS pm2 G2 k0 q f ltac:(lia) B0 V2 HO FF) as (f2 & Ef & FF2). rewrite Ef. cbn [bind]. eexists. split; [reflexivity|]. cbn [fst snd].
    split; [red; lia|]. split; [exists G2; split; auto; replace (S q) with (q + 1) by lia; auto|auto].
  - cbn [fst snd]. split; auto. split; [exists (fun x y w => val2 nlat z x (pos (late_of nlat) y w)); split; [split; auto|]|].
    + destruct km as [[k0 k1] k2]. split; intros; lia.
    + split; [apply repeat_length|]. intros. lia.
  - rewrite E. cbn [bind snd]. exists f'. split; auto. cbn [snd] in FF. replace (S T) with (T + 1) by lia. auto.
Qed.
Lemma by_rows_sized nlat T a : sized nlat (tri T) (by_rows nlat T a).
Proof.
  split; [unfold by_rows; rewrite map_length, seq_length; auto|]. intros r Hr. apply in_map_iff in Hr. destruct Hr as (j & <- & _). rewrite map_length, seq_length. reflexivity.
Qed.
Lemma by_rows_entry nlat T a j m n : 1 <= j <= nlat -> m <= n <= T -> entry T (by_rows nlat T a) j m n = val2 nlat a j (S (index T m n)).
Proof.
  intros Hj Hn. pose proof (index_lt T m n Hn) as IL. unfold entry, by_rows.
  rewrite (nth_indep _ [] (map (fun nm => val2 nlat a 0 nm) (seq 1 (nmdim T)))) by (rewrite map_length, seq_length; lia).
  rewrite (map_nth (fun j => map (fun nm => val2 nlat a j nm) (seq 1 (nmdim T)))), seq_nth by lia. replace (1 + (j - 1)) with j by lia.
  rewrite (nth_indep _ 0%R (val2 nlat a j 0)) by (rewrite map_length, seq_length; unfold nmdim, tri in *; lia).
  rewrite (map_nth (fun nm => val2 nlat a j nm)), seq_nth by (unfold nmdim, tri in *; lia). reflexivity.
Qed.
