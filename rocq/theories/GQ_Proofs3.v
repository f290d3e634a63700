(** The loop over the points, the centre, the mirror and the normalisation *)
From Coq Require Import Reals List Arith ZArith Lia Lra Bool.
From Verif Require Import Base Buffer VH_Model RS_Spec RS_Dft GS_Proofs1 LG_Spec LG_Proofs4 LG_Proofs5 LG_Proofs6 GQ_Spec GQ_Model GQ_Proofs2.
Import ListNotations.
Local Open Scope R_scope.

Lemma tiny_small : tiny = small. Proof. unfold tiny, epsilon, small. lra. Qed.
Lemma clip d c : 0 < c -> (if Req_EM_T d 0 then 1 else d / Rabs d) * Rmin (Rabs d) c = Rmax (- c) (Rmin d c).
Proof.
  intros Hc. destruct (Req_EM_T d 0) as [->|N].
  - rewrite Rabs_R0. unfold Rmin, Rmax. destruct (Rle_dec 0 c); [|lra]. destruct (Rle_dec (- c) 0); lra.
  - destruct (Rdichotomy _ _ N).
    + rewrite (Rabs_left d) by auto. replace (d / - d) with (-1) by (field; lra). unfold Rmin, Rmax. destruct (Rle_dec (- d) c), (Rle_dec d c); try lra; destruct (Rle_dec (- c) d); lra.
    + rewrite (Rabs_right d) by lra. replace (d / d) with 1 by (field; lra). unfold Rmin, Rmax. destruct (Rle_dec d c); [destruct (Rle_dec (- c) d)|destruct (Rle_dec (- c) c)]; lra.
Qed.
Lemma correction_step n eps cmax t : 0 < eps -> 0 < cmax -> t - correction eps cmax (value n t) (slope n t) = step n eps cmax t.
Proof.
  intros He Hc. unfold correction, step. rewrite tiny_small. rewrite clip by auto. unfold fsign. rewrite (Rabs_right eps) by lra. reflexivity.
Qed.
Lemma iter_shift {A} (f : A -> A) k x : Nat.iter k f (f x) = Nat.iter (S k) f x.
Proof. induction k; cbn; auto. f_equal. exact IHk. Qed.
Lemma weight_raw n t : weight n t (value n t) (slope n t) = raw n t.
Proof.
  unfold weight, raw. rewrite tiny_small. rewrite !plus_INR. change (INR 1) with 1. destruct (Rlt_dec small (Rabs (sin t))); unfold Rsqr; f_equal; try (f_equal; unfold Rdiv; ring); ring.
Qed.

Section Newton.
Variables (n off : nat) (eps cmax cz : R) (cp dcp : list R).
Hypothesis He : 0 < eps.
Hypothesis Hc : 0 < cmax.
Hypothesis TP : forall t, tpdp n off t cz cp dcp = Some (value n t, slope n t).
Lemma newton_ok more : forall z0, exists z zl, newton n off eps cmax cz cp dcp more z0 = Some (z, zl, value n zl, slope n zl) /\
  exists k, (k <= more)%nat /\ zl = Nat.iter k (step n eps cmax) z0 /\ z = step n eps cmax zl /\
    (forall j, (j < k)%nat -> ~ settled eps (Nat.iter j (step n eps cmax) z0) (Nat.iter (S j) (step n eps cmax) z0)) /\
    ((k < more)%nat -> settled eps zl z).
Proof.
  assert (G : forall more z0, newton n off eps cmax cz cp dcp more z0 =
    if Rle_dec (Rabs (step n eps cmax z0 - z0)) (eps * Rmax (Rabs (step n eps cmax z0)) 1) then Some (step n eps cmax z0, z0, value n z0, slope n z0)
    else match more with O => Some (step n eps cmax z0, z0, value n z0, slope n z0) | S m => newton n off eps cmax cz cp dcp m (step n eps cmax z0) end).
  { intros m z0. destruct m; cbn [newton]; rewrite TP; cbn [bind]; rewrite correction_step by auto; reflexivity. }
  induction more; intros z0; rewrite G; destruct (Rle_dec _ _) as [S0|S0].
  - do 2 eexists. split; [reflexivity|]. exists 0%nat. repeat split; auto; intros; lia.
  - do 2 eexists. split; [reflexivity|]. exists 0%nat. repeat split; auto; intros; lia.
  - do 2 eexists. split; [reflexivity|]. exists 0%nat. repeat split; auto; try lia; intros; lia.
  - destruct (IHmore (step n eps cmax z0)) as (z & zl & E & k & Hk & Z1 & Z2 & NS & ST). exists z, zl. split; auto. exists (S k). split; [lia|]. split; [rewrite <- iter_shift; auto|]. split; auto. split; [|intros; apply ST; lia].
    intros j Hj. destruct j as [|j]; [exact S0|]. specialize (NS j ltac:(lia)). rewrite !iter_shift in NS. exact NS.
Qed.
End Newton.

Section Points.
Variable nlat : nat.
Variable eps : R.
Hypothesis Hn : (3 <= nlat)%nat.
Hypothesis He : 0 < eps.
Let ns2 := (nlat / 2)%nat.
Let nhalf := ((nlat + 1) / 2)%nat.
Lemma half_cases : (Nat.even nlat = true /\ nlat mod 2 = 0 /\ nlat = 2 * ns2 /\ nhalf = ns2)%nat \/ (Nat.even nlat = false /\ nlat mod 2 = 1 /\ nlat = 2 * ns2 + 1 /\ nhalf = ns2 + 1)%nat.
Proof.
  clear Hn He. unfold ns2, nhalf. destruct (Nat.Even_or_Odd nlat) as [[q ->]|[q ->]].
  - left. rewrite half_e, half_o, even_nat. repeat split; auto. rewrite Nat.even_mul. reflexivity.
  - right. rewrite half_o, odd_nat. replace (2 * q + 1 + 1)%nat with (2 * (q + 1))%nat by lia. rewrite half_e. repeat split; auto. rewrite Nat.even_add, Nat.even_mul. reflexivity.
Qed.
Lemma ns2_pos : (1 <= ns2)%nat. Proof. clear He. pose proof half_cases. lia. Qed.
Lemma spacing_pos : 0 < spacing nlat / 5.
Proof. clear He. unfold spacing. fold nhalf. assert (0 < INR nhalf) by (apply lt_0_INR; pose proof half_cases; lia). pose proof PI_RGT_0. apply Rdiv_lt_0_compat; [|lra]. apply Rdiv_lt_0_compat; lra. Qed.

Definition beyond (theta : list R) : R := if Nat.even nlat then PI - nth (ns2 - 1) theta 0 else PI / 2.
Definition lguess (theta : list R) (i : nat) : R :=
  if (i =? ns2)%nat then PI / 2 - (if Nat.even nlat then spacing nlat / 2 else spacing nlat)
  else 2 * nth i theta 0 - (if (i + 1 =? ns2)%nat then beyond theta else nth (i + 1) theta 0).
Definition cell (theta wts : list R) (i : nat) : Prop :=
  exists zl, iterate nlat eps (spacing nlat / 5) (lguess theta i) zl (nth (i - 1) theta 0) /\ nth (i - 1) wts 0 = raw nlat zl.
Lemma lguess_ext theta theta' i : (1 <= i <= ns2)%nat -> (forall p, (i <= p < ns2)%nat -> nth p theta' 0 = nth p theta 0) -> lguess theta' i = lguess theta i.
Proof.
  intros Hi E. unfold lguess, beyond. destruct (Nat.eqb_spec i ns2); auto. rewrite (E i) by lia. f_equal. f_equal. destruct (Nat.eqb_spec (i + 1) ns2); [|apply E; lia]. destruct (Nat.even nlat); auto. f_equal. apply E. lia.
Qed.
Lemma cell_ext theta theta' wts wts' i : (1 <= i <= ns2)%nat -> (forall p, (i - 1 <= p < ns2)%nat -> nth p theta' 0 = nth p theta 0) -> nth (i - 1) wts' 0 = nth (i - 1) wts 0 -> cell theta wts i -> cell theta' wts' i.
Proof. intros Hi E W (zl & A & B). exists zl. rewrite (lguess_ext theta theta') by (auto; intros; apply E; lia). rewrite E, W by lia. auto. Qed.

Section Loop.
Variable cz : R.
Hypothesis CZ : (nlat mod 2 = 0)%nat -> cz = G nlat (nlat / 2) / G nlat 0.
Definition loaded (theta wts : list R) : Prop := length theta = nlat /\ length wts = nlat /\ held nlat ns2 (cpv nlat) 1 theta /\ held nlat ns2 (dcpv nlat) 1 wts.
Lemma loaded_tp theta wts : loaded theta wts -> forall t, tpdp nlat ns2 t cz theta wts = Some (value nlat t, slope nlat t).
Proof.
  intros (L1 & L2 & H1 & H2) t. destruct (tpdp_ok nlat ns2 cz theta wts t) as (pb & E & V); [lia| | |auto|].
  - fold nhalf. pose proof half_cases. lia.
  - fold nhalf. pose proof half_cases. lia.
  - rewrite E, V by auto. auto.
Qed.
Lemma loaded_wr theta wts i x y : loaded theta wts -> (1 <= i <= ns2)%nat -> loaded (upd0 theta (i - 1) x) (upd0 wts (i - 1) y).
Proof.
  intros (L1 & L2 & H1 & H2) Hi. pose proof half_cases. split; [rewrite upd0_length; auto|]. split; [rewrite upd0_length; auto|].
  split; intros k Hk; rewrite nth_upd0 by lia; (destruct (Nat.eqb_spec (ns2 + k - 1) (i - 1)); [lia|auto]).
Qed.
Lemma points_ok : forall nix theta wts zero zprev, (nix <= ns2)%nat -> loaded theta wts ->
  (forall i, (nix < i <= ns2)%nat -> cell theta wts i) -> ((1 <= nix)%nat -> zero = lguess theta nix) ->
  ((nix < ns2)%nat -> zprev = Some (nth nix theta 0)) -> (Nat.even nlat = false -> nix = ns2 -> zprev = Some (PI / 2)) ->
  exists theta' wts', points nlat eps (spacing nlat / 5) cz nix theta wts zero zprev = Some (theta', wts') /\ loaded theta' wts' /\ forall i, (1 <= i <= ns2)%nat -> cell theta' wts' i.
Proof.
  induction nix; intros theta wts zero zprev Hnix LD CE Z0 ZP ZO.
  - exists theta, wts. split; [reflexivity|]. split; [auto|]. intros i Hi. apply CE. lia.
  - cbn [points]. fold ns2 nhalf. destruct (newton_ok nlat ns2 eps (spacing nlat / 5) cz theta wts He spacing_pos (loaded_tp theta wts LD) 50 zero) as (z & zl & E & IT). rewrite E. cbn [bind].
    pose proof LD as (L1 & L2 & _ & _). pose proof half_cases as HC.
    destruct (wrx_some theta (S nix) z ltac:(lia)) as [W1 L1']. rewrite W1. cbn [bind]. rewrite weight_raw. destruct (wrx_some wts (S nix) (raw nlat zl) ltac:(lia)) as [W2 L2']. rewrite W2. cbn [bind].
    pose proof (loaded_wr theta wts (S nix) z (raw nlat zl) LD ltac:(lia)) as LD'.
    set (th' := upd0 theta (S nix - 1) z) in *. set (w' := upd0 wts (S nix - 1) (raw nlat zl)) in *.
    assert (TH : forall p, (p < nlat)%nat -> nth p th' 0 = if (p =? nix)%nat then z else nth p theta 0) by (intros p Hp; unfold th'; rewrite nth_upd0 by lia; replace (S nix - 1)%nat with nix by lia; auto).
    assert (WT : forall p, (p < nlat)%nat -> nth p w' 0 = if (p =? nix)%nat then raw nlat zl else nth p wts 0) by (intros p Hp; unfold w'; rewrite nth_upd0 by lia; replace (S nix - 1)%nat with nix by lia; auto).
    assert (CE' : forall i, (nix < i <= ns2)%nat -> cell th' w' i).
    { intros i Hi. destruct (Nat.eq_dec i (S nix)) as [->|N].
      - exists zl. replace (S nix - 1)%nat with nix by lia. rewrite TH, WT, !Nat.eqb_refl by lia. split; auto. rewrite (lguess_ext theta th').
        + rewrite <- Z0 by lia. destruct IT as (k & K1 & K2 & K3 & K4 & K5). exists k. auto.
        + lia.
        + intros p Hp. rewrite TH by lia. destruct (Nat.eqb_spec p nix); [lia|auto].
      - apply cell_ext with theta wts; [lia| | |apply CE; lia].
        + intros p Hp. rewrite TH by lia. destruct (Nat.eqb_spec p nix); [lia|auto].
        + rewrite WT by lia. destruct (Nat.eqb_spec (i - 1) nix); [lia|auto]. }
    destruct nix as [|nix']; [exists th', w'; split; [reflexivity|]; split; [auto|]; intros i Hi; apply CE'; lia|].
    assert (NX : exists z1, (if (S nix' =? nhalf - 1)%nat then Some (3 * z - PI) else if (S nix' <? nhalf - 1)%nat then let* p := zprev in Some (z + z - p) else Some z) = Some z1 /\ z1 = lguess th' (S nix')).
    { unfold lguess. destruct (Nat.eqb_spec (S nix') ns2); [lia|]. rewrite (TH (S nix')), Nat.eqb_refl by lia. destruct (Nat.eqb_spec (S nix' + 1) ns2) as [E1|E1].
      - unfold beyond. replace (ns2 - 1)%nat with (S nix') by lia. rewrite (TH (S nix')), Nat.eqb_refl by lia. destruct HC as [(EV & _ & N1 & N2)|(OD & _ & N1 & N2)].
        + destruct (Nat.eqb_spec (S nix') (nhalf - 1)); [|lia]. rewrite EV. eexists. split; [reflexivity|ring].
        + destruct (Nat.eqb_spec (S nix') (nhalf - 1)); [lia|]. destruct (Nat.ltb_spec (S nix') (nhalf - 1)); [|lia]. rewrite OD. rewrite (ZO OD) by lia. cbn [bind]. eexists. split; [reflexivity|ring].
      - destruct (Nat.eqb_spec (S nix') (nhalf - 1)); [lia|]. destruct (Nat.ltb_spec (S nix') (nhalf - 1)); [|lia]. rewrite ZP by lia. cbn [bind]. eexists. split; [reflexivity|]. replace (S nix' + 1)%nat with (S (S nix')) by lia. rewrite (TH (S (S nix'))) by lia. destruct (Nat.eqb_spec (S (S nix')) (S nix')); [lia|ring]. }
    destruct NX as (z1 & E1 & Z1). rewrite E1. cbn [bind]. apply IHnix; auto; try lia.
    intros _. rewrite (TH (S nix')), Nat.eqb_refl by lia. reflexivity.
Qed.

End Loop.

Lemma centre_ok cz theta wts : length theta = nlat -> length wts = nlat -> held nlat ns2 (dcpv nlat) 1 wts ->
  exists theta' wts', centre nlat cz theta wts = Some (theta', wts') /\ length theta' = nlat /\ length wts' = nlat /\
    (forall p, (p < ns2)%nat -> nth p theta' 0 = nth p theta 0 /\ nth p wts' 0 = nth p wts 0) /\
    (Nat.even nlat = false -> nth ns2 theta' 0 = PI / 2 /\ nth ns2 wts' 0 = (2 * INR nlat + 1) / Rsqr (slope nlat (PI / 2))).
Proof.
  clear He.
  intros L1 L2 H2. unfold centre. fold ns2 nhalf. destruct half_cases as [(EV & M & N1 & N2)|(OD & M & N1 & N2)]; rewrite M; cbn [Nat.eqb].
  - exists theta, wts. repeat split; auto; congruence.
  - destruct (wrx_some theta nhalf (PI / 2) ltac:(lia)) as [W1 L1']. rewrite W1. cbn [bind].
    destruct (tpdp_ok nlat ns2 cz (upd0 theta (nhalf - 1) (PI / 2)) wts (PI / 2)) as (pb & E & _); [lia| | |auto|].
    { fold nhalf. lia. } { fold nhalf. lia. }
    rewrite E. cbn [bind]. destruct (wrx_some wts nhalf (INR (nlat + nlat + 1) / (slope nlat (PI / 2) * slope nlat (PI / 2))) ltac:(lia)) as [W2 L2']. rewrite W2. cbn [bind]. do 2 eexists. split; [reflexivity|]. split; [lia|]. split; [lia|]. split.
    + intros p Hp. rewrite !nth_upd0 by lia. destruct (Nat.eqb_spec p (nhalf - 1)); [lia|auto].
    + intros _. rewrite !nth_upd0 by lia. destruct (Nat.eqb_spec ns2 (nhalf - 1)); [|lia]. split; auto. rewrite !plus_INR. change (INR 1) with 1. unfold Rsqr. f_equal. ring.
Qed.

Lemma mirror_ok theta wts : length theta = nlat -> length wts = nlat ->
  exists theta' wts', mirror nlat theta wts = Some (theta', wts') /\ length theta' = nlat /\ length wts' = nlat /\
    (forall p, (p < nhalf)%nat -> nth p theta' 0 = nth p theta 0 /\ nth p wts' 0 = nth p wts 0) /\
    (forall i, (1 <= i <= ns2)%nat -> nth (nlat - i) theta' 0 = PI - nth (i - 1) theta 0 /\ nth (nlat - i) wts' 0 = nth (i - 1) wts 0).
Proof.
  clear He.
  intros L1 L2. pose proof half_cases as HC. unfold mirror. fold ns2.
  destruct (fold_seq (fun s i => let* w := rd (snd s) i in let* wts := wrx (snd s) (nlat - i + 1) w in let* t := rd (fst s) i in let* theta := wrx (fst s) (nlat - i + 1) (PI - t) in Some (theta, wts))
    (fun q s => length (fst s) = nlat /\ length (snd s) = nlat /\ (forall p, (p < nlat - q)%nat -> nth p (fst s) 0 = nth p theta 0 /\ nth p (snd s) 0 = nth p wts 0) /\
      (forall i, (1 <= i <= q)%nat -> nth (nlat - i) (fst s) 0 = PI - nth (i - 1) theta 0 /\ nth (nlat - i) (snd s) 0 = nth (i - 1) wts 0)) ns2 1%nat (theta, wts)) as ([th' w'] & E & A & B & C' & D').
  - intros q [th w] Hq (A & B & C' & D'). cbn [fst snd] in *. rewrite rd_nth0 by lia. cbn [bind]. destruct (wrx_some w (nlat - (1 + q) + 1) (nth (1 + q - 1) w 0) ltac:(lia)) as [W1 L1']. rewrite W1. cbn [bind]. rewrite rd_nth0 by lia. cbn [bind].
    destruct (wrx_some th (nlat - (1 + q) + 1) (PI - nth (1 + q - 1) th 0) ltac:(lia)) as [W2 L2']. rewrite W2. cbn [bind]. eexists. split; [reflexivity|]. cbn [fst snd]. split; [lia|]. split; [lia|]. split.
    + intros p Hp. rewrite !nth_upd0 by lia. destruct (Nat.eqb_spec p (nlat - (1 + q) + 1 - 1)); [lia|]. apply C'. lia.
    + intros i Hi. rewrite !nth_upd0 by lia. destruct (Nat.eqb_spec (nlat - i) (nlat - (1 + q) + 1 - 1)).
      * assert (i = 1 + q)%nat as -> by lia. destruct (C' (1 + q - 1)%nat ltac:(lia)) as [-> ->]. auto.
      * apply D'. lia.
  - cbn [fst snd]. repeat split; auto; lia.
  - cbn [fst snd] in *. exists th', w'. split; [exact E|]. split; auto. split; auto. split; auto. intros p Hp. apply C'. lia.
Qed.
Lemma total_ok (w : list R) : length w = nlat -> total nlat w = Some (let s := sumR nlat (fun q => nth q w 0) in if Rlt_dec (Rabs s) (INR nlat / 2 ^ 52) then 2 else s).
Proof.
  clear He.
  intros L. unfold total. replace (epsilon * INR nlat) with (INR nlat / 2 ^ 52) by (unfold epsilon; lra).
  assert (S1 : foldM (fun sum i => let* x := rd w i in Some (sum + x)) (seq 1 nlat) 0 = Some (sumR nlat (fun q => nth q w 0))).
  { destruct (fold_seq (fun sum i => let* x := rd w i in Some (sum + x)) (fun q s => s = sumR q (fun q => nth q w 0)) nlat 1%nat 0) as (s & E & ->); auto.
    intros q s Hq ->. rewrite rd_nth0 by lia. cbn [bind]. eexists. split; [reflexivity|]. cbn [sumR]. f_equal. f_equal. lia. }
  assert (S2 : kahan_sum nlat w = Some (sumR nlat (fun q => nth q w 0))).
  { unfold kahan_sum. destruct (fold_seq (fun s i => let '(result, c) := s in let* x := rd w i in Some (result + (x - c), ((result + (x - c)) - result) - (x - c))) (fun q s => s = (sumR q (fun q => nth q w 0), 0)) nlat 1%nat (0, 0)) as (s & E & ->); auto.
    - intros q s Hq ->. rewrite rd_nth0 by lia. cbn [bind]. eexists. split; [reflexivity|]. cbn [sumR]. replace (1 + q - 1)%nat with q by lia. apply f_equal2; ring.
    - cbv zeta. rewrite E. reflexivity. }
  destruct (1000 <? nlat)%nat; rewrite ?S1, ?S2; reflexivity.
Qed.
Lemma scale_ok (w : list R) s : length w = nlat -> exists w', scale nlat s w = Some w' /\ length w' = nlat /\ forall p, (p < nlat)%nat -> nth p w' 0 = 2 * nth p w 0 / s.
Proof.
  clear He.
  intros L. unfold scale. destruct (fold_seq (fun wts i => let* x := rd wts i in wrx wts i (2 * x / s))
    (fun q a => length a = nlat /\ (forall p, (p < q)%nat -> nth p a 0 = 2 * nth p w 0 / s) /\ (forall p, (q <= p)%nat -> nth p a 0 = nth p w 0)) nlat 1%nat w) as (w' & E & A & B & _).
  - intros q a Hq (A & B & C'). rewrite rd_nth0 by lia. cbn [bind]. destruct (wrx_some a (1 + q) (2 * nth (1 + q - 1) a 0 / s) ltac:(lia)) as [W L']. rewrite W. eexists. split; [reflexivity|]. split; [lia|]. split.
    + intros p Hp. rewrite nth_upd0 by lia. destruct (Nat.eqb_spec p (1 + q - 1)) as [->|]; [rewrite C' by lia; auto|apply B; lia].
    + intros p Hp. rewrite nth_upd0 by lia. destruct (Nat.eqb_spec p (1 + q - 1)); [lia|apply C'; lia].
  - repeat split; auto. intros; lia.
  - exists w'. split; [exact E|auto].
Qed.
(** what follows the loop, cell by cell *)
Lemma finish_ok cz theta wts : length theta = nlat -> length wts = nlat -> held nlat ns2 (dcpv nlat) 1 wts ->
  exists theta' wts' (w : nat -> R), finish nlat cz theta wts = Some (theta', wts') /\ length theta' = nlat /\ length wts' = nlat /\
    symmetric_colatitudes nlat (fun i => nth (i - 1) theta' 0) /\
    (forall i, (1 <= i <= nlat)%nat -> w (nlat + 1 - i)%nat = w i) /\
    (forall p, (p < ns2)%nat -> nth p theta' 0 = nth p theta 0 /\ w (S p) = nth p wts 0) /\
    (Nat.even nlat = false -> w nhalf = (2 * INR nlat + 1) / Rsqr (slope nlat (PI / 2))) /\
    let s := sumR nlat (fun q => w (S q)) in
    forall i, (1 <= i <= nlat)%nat -> nth (i - 1) wts' 0 = 2 * w i / (if Rlt_dec (Rabs s) (INR nlat / 2 ^ 52) then 2 else s).
Proof.
  clear He.
  intros L1 L2 H2. pose proof half_cases as HC. unfold finish.
  destruct (centre_ok cz theta wts L1 L2 H2) as (t1 & w1 & E1 & LT1 & LW1 & C1 & M1). rewrite E1. cbn [bind fst snd].
  destruct (mirror_ok t1 w1 LT1 LW1) as (t2 & w2 & E2 & LT2 & LW2 & C2 & M2). rewrite E2. cbn [bind fst snd].
  rewrite total_ok by auto. cbn [bind]. cbv zeta.
  destruct (scale_ok w2 (if Rlt_dec (Rabs (sumR nlat (fun q => nth q w2 0))) (INR nlat / 2 ^ 52) then 2 else sumR nlat (fun q => nth q w2 0)) LW2) as (w3 & E3 & LW3 & V3). rewrite E3. cbn [bind].
  exists t2, w3, (fun i => nth (i - 1) w2 0). split; [reflexivity|]. split; auto. split; auto.
  assert (MID : Nat.even nlat = false -> nth ns2 t2 0 = PI / 2 /\ nth ns2 w2 0 = (2 * INR nlat + 1) / Rsqr (slope nlat (PI / 2))).
  { intros OD. destruct (C2 ns2) as [-> ->]; [|apply M1; auto]. destruct HC as [(X & _)|(_ & _ & _ & X)]; [congruence|lia]. }
  assert (SYM : forall i, (1 <= i <= nlat)%nat -> nth (nlat + 1 - i - 1) t2 0 = PI - nth (i - 1) t2 0 /\ nth (nlat + 1 - i - 1) w2 0 = nth (i - 1) w2 0).
  { intros i Hi. replace (nlat + 1 - i - 1)%nat with (nlat - i)%nat by lia. destruct (le_dec i ns2) as [LE|GT].
    - destruct (M2 i ltac:(lia)) as [-> ->]. destruct (C2 (i - 1)%nat ltac:(lia)) as [-> ->]. auto.
    - destruct (le_dec (nlat + 1 - i) ns2) as [LE|GT2].
      + destruct (M2 (nlat + 1 - i)%nat ltac:(lia)) as [A B]. replace (nlat - (nlat + 1 - i))%nat with (i - 1)%nat in * by lia. rewrite A, B. replace (nlat + 1 - i - 1)%nat with (nlat - i)%nat by lia. destruct (C2 (nlat - i)%nat ltac:(lia)) as [-> ->]. split; ring.
      + destruct HC as [(EV & _ & N1 & N2)|(OD & _ & N1 & N2)]; [lia|]. assert (i = ns2 + 1)%nat as -> by lia. replace (nlat - (ns2 + 1))%nat with ns2 by lia. replace (ns2 + 1 - 1)%nat with ns2 by lia. destruct (MID OD) as [-> _]. split; [lra|auto]. }
  split; [intros i Hi; apply SYM; auto|]. split; [intros i Hi; apply SYM; auto|]. split; [|split].
  - intros p Hp. cbn [Nat.sub]. rewrite Nat.sub_0_r. destruct (C2 p ltac:(lia)) as [-> ->]. apply C1. auto.
  - intros OD. destruct HC as [(X & _)|(_ & _ & _ & X)]; [congruence|]. replace (nhalf - 1)%nat with ns2 by lia. apply MID. auto.
  - intros i Hi. rewrite V3 by lia. assert (SE : sumR nlat (fun q => nth (S q - 1) w2 0) = sumR nlat (fun q => nth q w2 0)) by (apply sumR_ext; intros; f_equal; lia). rewrite SE. reflexivity.
Qed.
End Points.

Theorem gaqd_ok nlat dz theta wts : (3 <= nlat)%nat -> 0 < dz -> length theta = nlat -> length wts = nlat ->
  exists th wt, gaqd (Z.of_nat nlat) dz theta wts = Some (0%nat, th, wt) /\ length th = nlat /\ length wt = nlat /\
    gauss_points nlat (sqrt dz * sqrt (sqrt dz)) (fun i => nth (i - 1) th 0) (fun i => nth (i - 1) wt 0).
Proof.
  intros Hn Hdz L1 L2. unfold gaqd. destruct (Z.leb_spec (Z.of_nat nlat) 0); [lia|]. rewrite Nat2Z.id. destruct (Nat.eqb_spec nlat 1); [lia|]. destruct (Nat.eqb_spec nlat 2); [lia|]. cbv zeta.
  set (eps := sqrt dz * sqrt (sqrt dz)). assert (He : 0 < eps) by (apply Rmult_lt_0_compat; repeat apply sqrt_lt_R0; auto).
  pose proof (half_cases nlat) as HC. pose proof (ns2_pos nlat Hn) as NP.
  destruct (cpdp_ok nlat (nlat / 2) theta wts) as (cz & cp & dcp & E & OC & OD & HCp & HD & CZ); [lia|lia|lia|]. rewrite E. cbn [bind].
  assert (LD : loaded nlat cp dcp) by (destruct OC, OD; repeat split; auto; lia).
  replace (2 / 10 * (PI / 2 / INR ((nlat + 1) / 2))) with (spacing nlat / 5) by (unfold spacing; field; apply not_0_INR; lia).
  fold (spacing nlat).
  assert (PT : exists th wt, (if negb (nlat mod 2 =? 0)%nat then points nlat eps (spacing nlat / 5) cz ((nlat + 1) / 2 - 1) cp dcp (PI / 2 - spacing nlat) (Some (PI / 2)) else points nlat eps (spacing nlat / 5) cz ((nlat + 1) / 2) cp dcp (PI / 2 - spacing nlat / 2) None) = Some (th, wt) /\ loaded nlat th wt /\ forall i, (1 <= i <= nlat / 2)%nat -> cell nlat eps th wt i).
  { destruct HC as [(EV & M & N1 & N2)|(OD' & M & N1 & N2)]; rewrite M; cbn [Nat.eqb negb].
    - rewrite N2. apply (points_ok nlat eps Hn He cz CZ); auto; try lia.
      + intros _. unfold lguess. rewrite Nat.eqb_refl, EV. reflexivity.
      + congruence.
    - rewrite N2. replace (nlat / 2 + 1 - 1)%nat with (nlat / 2)%nat by lia. apply (points_ok nlat eps Hn He cz CZ); auto; try lia.
      intros _. unfold lguess. rewrite Nat.eqb_refl, OD'. reflexivity. }
  destruct PT as (th & wt & EP & LP & CE). rewrite EP. cbn [bind fst snd]. pose proof LP as (LT & LW & _ & HDW).
  destruct (finish_ok nlat Hn cz th wt LT LW HDW) as (th' & wt' & w & EF & LT' & LW' & SY & SW & KE & MI & WT). rewrite EF. cbn [bind fst snd].
  exists th', wt'. split; auto. split; auto. split; auto. exists w. split; auto. split; auto. split; [|split; auto].
  intros i Hi. destruct (CE i Hi) as (zl & IT & RW). exists zl. destruct (KE (i - 1)%nat ltac:(lia)) as [T1 W1]. replace (S (i - 1)) with i in W1 by lia. rewrite T1, W1. split; auto.
  replace (guess nlat (fun i => nth (i - 1) th' 0) i) with (lguess nlat th i); auto. unfold guess, lguess. destruct (Nat.eqb_spec i (nlat / 2)); auto.
  replace (i + 1 - 1)%nat with i by lia. replace (i + 2 - 1)%nat with (i + 1)%nat by lia. destruct (KE i ltac:(lia)) as [-> _]. f_equal. f_equal.
  destruct (Nat.eqb_spec (i + 1) (nlat / 2)) as [E1|E1]; [|symmetry; apply KE; lia]. unfold beyond. rewrite E1.
  destruct HC as [(EV & M & N1 & N2)|(OD' & M & N1 & N2)]; rewrite ?EV, ?OD'.
  - pose proof (SY (nlat / 2)%nat ltac:(lia)) as X. cbn beta in X. replace (nlat + 1 - nlat / 2 - 1)%nat with (nlat / 2)%nat in X by lia. rewrite X. f_equal. symmetry. apply KE. lia.
  - pose proof (SY (nlat / 2 + 1)%nat ltac:(lia)) as X. cbn beta in X. replace (nlat + 1 - (nlat / 2 + 1) - 1)%nat with (nlat / 2)%nat in X by lia. replace (nlat / 2 + 1 - 1)%nat with (nlat / 2)%nat in X by lia. lra.
Qed.

(** ** The description has one solution *)
Lemma iterate_unique n eps cmax g zl z zl' z' : iterate n eps cmax g zl z -> iterate n eps cmax g zl' z' -> zl = zl' /\ z = z'.
Proof.
  intros (k & K1 & K2 & K3 & K4 & K5) (k' & J1 & J2 & J3 & J4 & J5). assert (k = k').
  { destruct (lt_eq_lt_dec k k') as [[L|]|L]; auto; exfalso.
    - apply (J4 k L). cbn [Nat.iter nat_rect]. fold (Nat.iter k (step n eps cmax) g). rewrite <- K2, <- K3. apply K5. lia.
    - apply (K4 k' L). cbn [Nat.iter nat_rect]. fold (Nat.iter k' (step n eps cmax) g). rewrite <- J2, <- J3. apply J5. lia. }
  subst k'. subst. auto.
Qed.
Theorem gauss_points_unique n eps th wt th' wt' : (3 <= n)%nat -> gauss_points n eps th wt -> gauss_points n eps th' wt' -> forall i, (1 <= i <= n)%nat -> th i = th' i /\ wt i = wt' i.
Proof.
  intros Hn (w & SY & SW & IT & MI & WT) (w' & SY' & SW' & IT' & MI' & WT'). cbv zeta in WT, WT'. pose proof (half_cases n) as HC.
  assert (G : forall d i, (1 <= i <= n / 2)%nat -> (n / 2 - i <= d)%nat -> th i = th' i /\ w i = w' i).
  { induction d as [d IH] using (well_founded_induction lt_wf). intros i Hi Hd. destruct (IT i Hi) as (zl & A & B). destruct (IT' i Hi) as (zl' & A' & B').
    assert (GE : guess n th i = guess n th' i).
    { unfold guess. destruct (Nat.eqb_spec i (n / 2)); auto. destruct (IH (n / 2 - (i + 1))%nat ltac:(lia) (i + 1)%nat ltac:(lia) ltac:(lia)) as [E1 _]. rewrite E1. f_equal.
      destruct (Nat.eq_dec (i + 1) (n / 2)) as [E2|E2].
      - destruct HC as [(EV & M & N1 & N2)|(OD' & M & N1 & N2)].
        + pose proof (SY (i + 1)%nat ltac:(lia)) as X. pose proof (SY' (i + 1)%nat ltac:(lia)) as X'. replace (n + 1 - (i + 1))%nat with (i + 2)%nat in * by lia. rewrite X, X', E1. auto.
        + pose proof (SY (i + 2)%nat ltac:(lia)) as X. pose proof (SY' (i + 2)%nat ltac:(lia)) as X'. replace (n + 1 - (i + 2))%nat with (i + 2)%nat in * by lia. lra.
      - apply (IH (n / 2 - (i + 2))%nat); lia. }
    rewrite GE in A. destruct (iterate_unique _ _ _ _ _ _ _ _ A A') as [-> ->]. rewrite B, B'. auto. }
  assert (G2 : forall i, (1 <= i <= n)%nat -> th i = th' i /\ w i = w' i).
  { intros i Hi. destruct (le_dec i (n / 2)) as [LE|GT]; [apply (G (n / 2 - i)%nat); lia|]. destruct (le_dec (n + 1 - i) (n / 2)) as [LE|GT2].
    - destruct (G (n / 2 - (n + 1 - i))%nat (n + 1 - i)%nat ltac:(lia) ltac:(lia)) as [A B]. pose proof (SY (n + 1 - i)%nat ltac:(lia)) as X. pose proof (SY' (n + 1 - i)%nat ltac:(lia)) as X'. pose proof (SW (n + 1 - i)%nat ltac:(lia)) as Y. pose proof (SW' (n + 1 - i)%nat ltac:(lia)) as Y'. replace (n + 1 - (n + 1 - i))%nat with i in * by lia. rewrite X, X', Y, Y', A, B. auto.
    - destruct HC as [(EV & M & N1 & N2)|(OD' & M & N1 & N2)]; [lia|]. assert (i = n / 2 + 1)%nat as -> by lia. pose proof (SY (n / 2 + 1)%nat ltac:(lia)) as X. pose proof (SY' (n / 2 + 1)%nat ltac:(lia)) as X'. replace (n + 1 - (n / 2 + 1))%nat with (n / 2 + 1)%nat in * by lia. split; [lra|]. rewrite <- N2. rewrite MI, MI' by auto. auto. }
  intros i Hi. destruct (G2 i Hi) as [A B]. split; auto. rewrite WT, WT' by auto. rewrite B. replace (sumR n (fun q => w' (S q))) with (sumR n (fun q => w (S q))); auto. apply sumR_ext. intros q Hq. apply G2. lia.
Qed.
Theorem gaqd_inputs nlat dz theta wts theta' wts' : (3 <= nlat)%nat -> 0 < dz -> length theta = nlat -> length wts = nlat -> length theta' = nlat -> length wts' = nlat ->
  gaqd (Z.of_nat nlat) dz theta wts = gaqd (Z.of_nat nlat) dz theta' wts'.
Proof.
  intros Hn Hd L1 L2 L3 L4. destruct (gaqd_ok nlat dz theta wts Hn Hd L1 L2) as (t & w & E & A & B & C'). destruct (gaqd_ok nlat dz theta' wts' Hn Hd L3 L4) as (t' & w' & E' & A' & B' & C''). rewrite E, E'.
  pose proof (gauss_points_unique _ _ _ _ _ _ Hn C' C'') as U. cbn beta in U. f_equal. apply f_equal2; [apply f_equal2; auto|].
  - apply (nth_ext _ _ 0 0); [lia|]. intros p Hp. destruct (U (S p) ltac:(lia)) as [X _]. cbn [Nat.sub] in X. rewrite Nat.sub_0_r in X. auto.
  - apply (nth_ext _ _ 0 0); [lia|]. intros p Hp. destruct (U (S p) ltac:(lia)) as [_ X]. cbn [Nat.sub] in X. rewrite Nat.sub_0_r in X. auto.
Qed.
