(** C92-C95: the scalar transforms on a Gaussian grid (shsgs, shags). *)
From Coq Require Import Reals List Arith ZArith Lia Bool Lra.
From Verif Require Import Base Buffer VH_Model RS_Spec RS_Dft RS_Table FF_Model FF_Model2 FF_Proofs9 GS_Spec GS_Model GS_Proofs1 GS_Proofs2 GS_Proofs3 GS_Proofs4 GS_Proofs5 GS_Proofs6 GS_Proofs7 GS_Proofs8.
Import ListNotations.
Local Open Scope nat_scope.

Lemma rows_lat nlat mode : rows nlat mode = lat_of nlat mode.
Proof. unfold rows, lat_of. rewrite late_north. auto. Qed.
Lemma functions_npm nlat nlon : functions nlat nlon = npm_of nlat (l_of nlat nlon).
Proof. rewrite npm_tri by (unfold l_of; lia). rewrite l_lmax. reflexivity. Qed.

(** ** C92: synthesis *)
(** Every grid value is the truncated series; the rest of the output array is as
    it was.  Any array sizes that hold the data, any number of rows and points. *)
Theorem C92_synthesis : forall nlat nlon mode idg jdg mdab ndab a b pmn d junk fuel wa0 ws gs,
  1 <= nlat -> 1 <= nlon -> mode <= 2 ->
  length pmn = north nlat * functions nlat nlon -> zero_at_equator nlat nlon pmn ->
  lmax nlat nlon <= mdab -> nlat <= ndab -> length a = mdab * ndab -> length b = mdab * ndab ->
  rows nlat mode <= idg -> nlon <= jdg -> length gs = idg * jdg ->
  length junk = nlon -> nlon <= length wa0 -> hrffti fuel nlon wa0 = Some ws ->
  exists gs', shsgs1 nlat nlon mode d junk idg jdg mdab ndab a b pmn ws gs = Some gs' /\ length gs' = idg * jdg /\
    (forall i j, 1 <= i <= rows nlat mode -> 1 <= j <= nlon ->
       val2 idg gs' i j = harmonic nlat nlon mode pmn (fun m n => val2 mdab a (m + 1) (n + 1)) (fun m n => val2 mdab b (m + 1) (n + 1)) i (j - 1)) /\
    (forall i j, 1 <= i <= idg -> 1 <= j <= jdg -> rows nlat mode < i \/ nlon < j -> val2 idg gs' i j = val2 idg gs i j).
Proof.
  intros nlat nlon mode idg jdg mdab ndab a b pmn d junk fuel wa0 ws gs H1 H2 Hm Lp HZ Hmd Hnd La Lb Hid Hjd Lg Lj Lw HI.
  rewrite rows_lat in *. rewrite functions_npm, <- late_north in Lp. rewrite <- l_lmax in Hmd.
  destruct (synthesis_ok nlat nlon mode Hm H1 H2 pmn (view_self _ _ _ Lp) HZ mdab ndab Hmd Hnd a b (view_self _ _ _ La) (view_self _ _ _ Lb)
    idg jdg Hid Hjd d junk ws fuel wa0 Lj Lw HI gs _ (view_self _ _ _ Lg)) as (gs' & E & L & V).
  exists gs'. split; [exact E|]. split; [exact L|]. split.
  - intros i j Hi Hj. rewrite V by lia. destruct (Nat.leb_spec i (lat_of nlat mode)), (Nat.leb_spec j nlon); try lia. auto.
  - intros i j Hi Hj HO. rewrite V by lia. destruct (Nat.leb_spec i (lat_of nlat mode)), (Nat.leb_spec j nlon); cbn [andb]; auto; lia.
Qed.

(** Neither what the work array held nor the old contents of the grid matter *)
Theorem C92_deterministic : forall nlat nlon mode idg jdg mdab ndab a b pmn d d' junk junk' fuel fuel' wa0 wa0' ws ws' gs gs' o o',
  1 <= nlat -> 1 <= nlon -> mode <= 2 ->
  length pmn = north nlat * functions nlat nlon -> zero_at_equator nlat nlon pmn ->
  lmax nlat nlon <= mdab -> nlat <= ndab -> length a = mdab * ndab -> length b = mdab * ndab ->
  rows nlat mode <= idg -> nlon <= jdg -> length gs = idg * jdg -> length gs' = idg * jdg ->
  length junk = nlon -> length junk' = nlon -> nlon <= length wa0 -> nlon <= length wa0' -> hrffti fuel nlon wa0 = Some ws -> hrffti fuel' nlon wa0' = Some ws' ->
  shsgs1 nlat nlon mode d junk idg jdg mdab ndab a b pmn ws gs = Some o -> shsgs1 nlat nlon mode d' junk' idg jdg mdab ndab a b pmn ws' gs' = Some o' ->
  forall i j, 1 <= i <= rows nlat mode -> 1 <= j <= nlon -> val2 idg o i j = val2 idg o' i j.
Proof.
  intros nlat nlon mode idg jdg mdab ndab a b pmn d d' junk junk' fuel fuel' wa0 wa0' ws ws' gs gs' o o' H1 H2 Hm Lp HZ Hmd Hnd La Lb Hid Hjd Lg Lg' Lj Lj' Lw Lw' HI HI' R R' i j Hi Hj.
  destruct (C92_synthesis nlat nlon mode idg jdg mdab ndab a b pmn d junk fuel wa0 ws gs) as (x & E & _ & V & _); auto.
  destruct (C92_synthesis nlat nlon mode idg jdg mdab ndab a b pmn d' junk' fuel' wa0' ws' gs') as (x' & E' & _ & V' & _); auto.
  rewrite R in E. injection E as <-. rewrite R' in E'. injection E' as <-. rewrite V, V' by auto. auto.
Qed.

(** ** C93: analysis *)
(** Every coefficient of order m < lmax and degree m <= n < nlat is the Gaussian
    quadrature of the row Fourier coefficient (of the field continued to the whole
    sphere in the half modes); those with n < m are zero; the rest of a and b is
    as it was. *)
Theorem C93_analysis : forall nlat nlon mode idg jdg mdab ndab a b gs wts pmn d junk fuel wa0 ws,
  1 <= nlat -> 1 <= nlon -> mode <= 2 ->
  length pmn = north nlat * functions nlat nlon -> (mode <> 0 -> zero_at_equator nlat nlon pmn) -> symmetric_weights nlat wts ->
  lmax nlat nlon <= mdab -> nlat <= ndab -> length a = mdab * ndab -> length b = mdab * ndab ->
  rows nlat mode <= idg -> nlon <= jdg -> length gs = idg * jdg ->
  length junk = nlon -> nlon <= length wa0 -> hrffti fuel nlon wa0 = Some ws ->
  exists a' b', shags1 nlat nlon mode d junk idg jdg mdab ndab gs wts pmn ws a b = Some (a', b') /\
    length a' = mdab * ndab /\ length b' = mdab * ndab /\
    (let row i := fun j => extended nlat mode (fun i j => val2 idg gs i (j + 1)) i j in
     forall m n, m < lmax nlat nlon -> m <= n < nlat ->
       val2 mdab a' (m + 1) (n + 1) = quadrature nlat wts pmn m n (fun i => cosine nlon (row i) m) /\
       val2 mdab b' (m + 1) (n + 1) = quadrature nlat wts pmn m n (fun i => sine nlon (row i) m)) /\
    (forall m n, m < lmax nlat nlon -> n < m -> val2 mdab a' (m + 1) (n + 1) = 0%R /\ val2 mdab b' (m + 1) (n + 1) = 0%R) /\
    (forall m n, m < mdab -> n < ndab -> lmax nlat nlon <= m \/ nlat <= n ->
       val2 mdab a' (m + 1) (n + 1) = val2 mdab a (m + 1) (n + 1) /\ val2 mdab b' (m + 1) (n + 1) = val2 mdab b (m + 1) (n + 1)).
Proof.
  intros nlat nlon mode idg jdg mdab ndab a b gs wts pmn d junk fuel wa0 ws H1 H2 Hm Lp HZ HW Hmd Hnd La Lb Hid Hjd Lg Lj Lw HI.
  assert (HL : lmax nlat nlon <= nlat) by (unfold lmax; lia).
  rewrite rows_lat in *. rewrite functions_npm, <- late_north in Lp. rewrite <- l_lmax in Hmd.
  destruct (analysis_ok nlat nlon mode Hm H1 H2 pmn (view_self _ _ _ Lp) HZ wts HW mdab ndab Hmd Hnd idg jdg Hid Hjd d junk ws fuel wa0 Lj Lw HI (val2 idg gs) gs a b _ _ (view_self _ _ _ Lg) (view_self _ _ _ La) (view_self _ _ _ Lb))
    as (a' & b' & E & [LA VA] & [LB VB]).
  exists a', b'. split; [exact E|]. split; [exact LA|]. split; [exact LB|]. rewrite l_lmax in *.
  split; [|split].
  - cbv zeta. intros m n Hmn Hn. rewrite VA, VB by lia. unfold state. rewrite l_lmax.
    destruct (Nat.leb_spec (m + 1) (lmax nlat nlon)), (Nat.leb_spec (n + 1) nlat), (Nat.leb_spec (m + 1) (n + 1)); try lia. cbn [andb].
    replace (m + 1 - 1) with m by lia. replace (n + 1 - 1) with n by lia. auto.
  - intros m n Hmn Hn. rewrite VA, VB by lia. unfold state. rewrite l_lmax.
    destruct (Nat.leb_spec (m + 1) (lmax nlat nlon)), (Nat.leb_spec (n + 1) nlat), (Nat.leb_spec (m + 1) (n + 1)); try lia. auto.
  - intros m n Hmn Hn HO. rewrite VA, VB by lia. unfold state. rewrite l_lmax.
    destruct (Nat.leb_spec (m + 1) (lmax nlat nlon)), (Nat.leb_spec (n + 1) nlat); cbn [andb]; auto; lia.
Qed.

(** ** C94: the analysis of a synthesis *)
(** With functions orthonormal under the quadrature, the coefficients used by the
    mode come back exactly; the sine coefficients of order 0, and of the highest
    order nlon/2 of an even row, have no effect on the field and come back as 0. *)
Theorem C94_round_trip : forall nlat nlon mode idg jdg mdab ndab a b gs a0 b0 wts pmn d junk fuel wa0 ws,
  1 <= nlat -> 1 <= nlon -> mode <= 2 ->
  length pmn = north nlat * functions nlat nlon -> zero_at_equator nlat nlon pmn -> symmetric_weights nlat wts ->
  orthonormal_functions nlat nlon wts pmn ->
  lmax nlat nlon <= mdab -> nlat <= ndab -> length a = mdab * ndab -> length b = mdab * ndab -> length a0 = mdab * ndab -> length b0 = mdab * ndab ->
  rows nlat mode <= idg -> nlon <= jdg -> length gs = idg * jdg ->
  length junk = nlon -> nlon <= length wa0 -> hrffti fuel nlon wa0 = Some ws ->
  exists gs' a' b', shsgs1 nlat nlon mode d junk idg jdg mdab ndab a b pmn ws gs = Some gs' /\
    shags1 nlat nlon mode d junk idg jdg mdab ndab gs' wts pmn ws a0 b0 = Some (a', b') /\
    forall m n, m < lmax nlat nlon -> m <= n < nlat ->
      val2 mdab a' (m + 1) (n + 1) = (if used mode m n then val2 mdab a (m + 1) (n + 1) else 0%R) /\
      val2 mdab b' (m + 1) (n + 1) = (if andb (used mode m n) (negb (orb (m =? 0) (2 * m =? nlon))) then val2 mdab b (m + 1) (n + 1) else 0%R).
Proof.
  intros nlat nlon mode idg jdg mdab ndab a b gs a0 b0 wts pmn d junk fuel wa0 ws H1 H2 Hm Lp HZ HW HO Hmd Hnd La Lb La0 Lb0 Hid Hjd Lg Lj Lw HI.
  destruct (C92_synthesis nlat nlon mode idg jdg mdab ndab a b pmn d junk fuel wa0 ws gs) as (gs' & E & Lg' & V & _); auto.
  destruct (C93_analysis nlat nlon mode idg jdg mdab ndab a0 b0 gs' wts pmn d junk fuel wa0 ws) as (a' & b' & E' & _ & _ & VA & _ & _); auto.
  exists gs', a', b'. split; [exact E|]. split; [exact E'|]. cbv zeta in VA. intros m n Hmn Hn. destruct (VA m n Hmn Hn) as [VA1 VB1]. rewrite VA1, VB1.
  set (A := fun m n => val2 mdab a (m + 1) (n + 1)) in *. set (B := fun m n => val2 mdab b (m + 1) (n + 1)) in *.
  assert (EXT : forall i j, 1 <= i <= nlat -> j < nlon -> extended nlat mode (fun i j => val2 idg gs' i (j + 1)) i j = harmonic nlat nlon mode pmn A B i j).
  { intros i j Hi Hj. rewrite <- (har_extended nlat nlon mode Hm H1 H2 pmn (fun _ => HZ) A B i j Hi). destruct (halves nlat) as [T1 T2].
    rewrite rows_lat in V. assert (VV : forall i, 1 <= i <= lat_of nlat mode -> val2 idg gs' i (j + 1) = harmonic nlat nlon mode pmn A B i j) by (intros i0 Hi0; rewrite V by lia; f_equal; lia).
    unfold lat_of in VV. unfold extended. rewrite late_north in VV. destruct mode as [|[|md]]; cbn [Nat.eqb] in VV.
    - apply VV. lia.
    - destruct (2 * i =? nlat + 1); auto. destruct (Nat.leb_spec i (north nlat)); rewrite VV by lia; auto.
    - destruct (Nat.leb_spec i (north nlat)); rewrite VV by lia; auto. }
  split.
  - etransitivity; [|exact (trip_cos nlat nlon mode Hm H1 H2 pmn (fun _ => HZ) wts A B HO m n Hmn Hn)]. apply quad_ext. intros i Hi. unfold cosine. f_equal. apply sumR_ext. intros j Hj.
    rewrite (har_extended nlat nlon mode Hm H1 H2 pmn (fun _ => HZ) A B i j Hi). rewrite EXT by auto. auto.
  - etransitivity; [|exact (trip_sin nlat nlon mode Hm H1 H2 pmn (fun _ => HZ) wts A B HO m n Hmn Hn)]. apply quad_ext. intros i Hi. unfold sine. f_equal. apply sumR_ext. intros j Hj.
    rewrite (har_extended nlat nlon mode Hm H1 H2 pmn (fun _ => HZ) A B i j Hi). rewrite EXT by auto. auto.
Qed.

(** The hypotheses hold for three Gaussian rows of four points (order 2 is the
    highest wave of the row) and of five points, all three modes. *)
Example C92_94_example : forall nlon mode (a b : list R), (nlon = 4 \/ nlon = 5) -> mode <= 2 -> length a = 9 -> length b = 9 ->
  exists ws gs' a' b', hrffti 20 nlon (repeat 0%R nlon) = Some ws /\
    shsgs1 3 nlon mode 0%R (repeat 0%R nlon) 3 nlon 3 3 a b pmn3 ws (repeat 0%R (3 * nlon)) = Some gs' /\
    shags1 3 nlon mode 0%R (repeat 0%R nlon) 3 nlon 3 3 gs' weights3 pmn3 ws (repeat 0%R 9) (repeat 0%R 9) = Some (a', b') /\
    val2 3 a' 2 3 = (if used mode 1 2 then val2 3 a 2 3 else 0%R) /\
    val2 3 b' 3 3 = (if andb (used mode 2 2) (nlon =? 5) then val2 3 b 3 3 else 0%R).
Proof.
  intros nlon mode a b Hn Hm La Lb.
  assert (I : exists ws, hrffti 20 nlon (repeat 0%R nlon) = Some ws).
  { destruct (FF_Proofs9.hrffti_total 0%R nlon 20 (repeat 0%R nlon) ltac:(lia) ltac:(rewrite repeat_length; lia) ltac:(lia)) as (wa & fac & X & _). eauto. }
  destruct I as [ws I].
  assert (HL : lmax 3 nlon = 3) by (destruct Hn as [->| ->]; reflexivity).
  destruct (C94_round_trip 3 nlon mode 3 nlon 3 3 a b (repeat 0%R (3 * nlon)) (repeat 0%R 9) (repeat 0%R 9) weights3 pmn3 0%R (repeat 0%R nlon) 20 (repeat 0%R nlon) ws)
    as (gs' & a' & b' & E1 & E2 & V); rewrite ?repeat_length, ?HL; auto; try lia.
  - destruct Hn as [->| ->]; reflexivity.
  - apply pmn3_equator.
  - apply weights3_symmetric.
  - apply pmn3_orthonormal.
  - unfold rows. destruct (mode =? 0); cbn; lia.
  - rewrite HL in V. exists ws, gs', a', b'. split; [exact I|]. split; [exact E1|]. split; [exact E2|]. split.
    + exact (proj1 (V 1 2 ltac:(lia) ltac:(lia))).
    + pose proof (proj2 (V 2 2 ltac:(lia) ltac:(lia))) as X. cbn [Nat.add] in X. rewrite X. destruct Hn as [->| ->]; reflexivity.
Qed.

(** ** C95: lengths and error codes *)
Local Open Scope Z_scope.
(** ierror is 0 exactly when every size is large enough, and otherwise the number
    of the first size that is not. *)
Theorem C95_codes : forall nlat nlon mode nt idg jdg mdab ndab lsave lwork,
  let l := Z.min ((nlon + 2) / 2) nlat in let late := (nlat + nlat mod 2) / 2 in let lat := if mode =? 0 then nlat else late in
  let ok k := match k with
    | 1 => 3 <= nlat | 2 => 4 <= nlon | 3 => 0 <= mode <= 2 | 4 => 1 <= nt | 5 => lat <= idg | 6 => nlon <= jdg
    | 7 => l <= mdab | 8 => nlat <= ndab | 9 => lp_of nlat nlon l late <= lsave | 10 => lat * nlon * (nt + 1) <= lwork | _ => True end in
  let e := checks nlat nlon mode nt idg jdg mdab ndab lsave lwork in
  0 <= e <= 10 /\ (e = 0 <-> forall k, 1 <= k <= 10 -> ok k) /\ (1 <= e -> ~ ok e /\ forall k, 1 <= k < e -> ok k).
Proof.
  intros nlat nlon mode nt idg jdg mdab ndab lsave lwork. cbv zeta. unfold checks.
  set (l := Z.min ((nlon + 2) / 2) nlat). set (late := (nlat + nlat mod 2) / 2). set (lat := if mode =? 0 then nlat else late).
  set (lp := lp_of nlat nlon l late).
  set (ok := fun k => match k with
    | 1 => 3 <= nlat | 2 => 4 <= nlon | 3 => 0 <= mode <= 2 | 4 => 1 <= nt | 5 => lat <= idg | 6 => nlon <= jdg
    | 7 => l <= mdab | 8 => nlat <= ndab | 9 => lp <= lsave | 10 => lat * nlon * (nt + 1) <= lwork | _ => True end).
  assert (K10 : forall k, 1 <= k <= 10 -> k = 1 \/ k = 2 \/ k = 3 \/ k = 4 \/ k = 5 \/ k = 6 \/ k = 7 \/ k = 8 \/ k = 9 \/ k = 10) by lia.
  assert (G : forall e, 1 <= e <= 10 -> ~ ok e -> (forall k, 1 <= k < e -> ok k) -> 0 <= e <= 10 /\ (e = 0 <-> forall k, 1 <= k <= 10 -> ok k) /\ (1 <= e -> ~ ok e /\ forall k, 1 <= k < e -> ok k)).
  { intros e He N Hk. split; [lia|]. split; [split; [lia|intros X; exfalso; apply N; apply X; lia]|auto]. }
  change (fun k => _) with ok. fold ok.
  destruct (Z.ltb_spec nlat 3); [apply G; [lia|cbn; lia|lia]|].
  destruct (Z.ltb_spec nlon 4); [apply G; [lia|cbn; lia|intros k Hk; assert (k = 1) by lia; subst; cbn; lia]|].
  destruct (Z.ltb_spec mode 0), (Z.ltb_spec 2 mode); cbn [orb]; try (apply G; [lia|cbn; lia|intros k Hk; assert (k = 1 \/ k = 2) as [->| ->] by lia; cbn; lia]).
  destruct (Z.ltb_spec nt 1); [apply G; [lia|cbn; lia|intros k Hk; destruct (K10 k ltac:(lia)) as [->|[->|[->|D]]]; cbn; lia]|].
  destruct (Z.ltb_spec idg lat); [apply G; [lia|cbn; lia|intros k Hk; destruct (K10 k ltac:(lia)) as [->|[->|[->|[->|D]]]]; cbn; lia]|].
  destruct (Z.ltb_spec jdg nlon); [apply G; [lia|cbn; lia|intros k Hk; destruct (K10 k ltac:(lia)) as [->|[->|[->|[->|[->|D]]]]]; cbn; lia]|].
  destruct (Z.ltb_spec mdab l); [apply G; [lia|cbn; lia|intros k Hk; destruct (K10 k ltac:(lia)) as [->|[->|[->|[->|[->|[->|D]]]]]]; cbn; lia]|].
  destruct (Z.ltb_spec ndab nlat); [apply G; [lia|cbn; lia|intros k Hk; destruct (K10 k ltac:(lia)) as [->|[->|[->|[->|[->|[->|[->|D]]]]]]]; cbn; lia]|].
  destruct (Z.ltb_spec lsave lp); [apply G; [lia|cbn; lia|intros k Hk; destruct (K10 k ltac:(lia)) as [->|[->|[->|[->|[->|[->|[->|[->|D]]]]]]]]; cbn; lia]|].
  assert (F9 : forall k, 1 <= k < 10 -> ok k) by (intros k Hk; destruct (K10 k ltac:(lia)) as [->|[->|[->|[->|[->|[->|[->|[->|[->|D]]]]]]]]]; cbn; lia).
  assert (G10 : lwork < lat * nlon * (nt + 1) -> 0 <= 10 <= 10 /\ (10 = 0 <-> forall k, 1 <= k <= 10 -> ok k) /\ (1 <= 10 -> ~ ok 10 /\ forall k, 1 <= k < 10 -> ok k)) by (intros X; apply G; [lia|cbn; lia|auto]).
  assert (G0 : lat * nlon * (nt + 1) <= lwork -> 0 <= 0 <= 10 /\ (0 = 0 <-> forall k, 1 <= k <= 10 -> ok k) /\ (1 <= 0 -> ~ ok 0 /\ forall k, 1 <= k < 0 -> ok k)).
  { intros X. split; [lia|]. split; [|lia]. split; auto. intros _ k Hk. destruct (Z.eq_dec k 10) as [->|]; [exact X|apply F9; lia]. }
  unfold lat in G10, G0. destruct (Z.eqb_spec mode 0); cbn [andb negb].
  - destruct (Z.ltb_spec lwork (nlat * nlon * (nt + 1))); auto.
  - destruct (Z.ltb_spec lwork (late * nlon * (nt + 1))); auto.
Qed.
Local Open Scope nat_scope.

(** The weights, the table of the row transform and the Legendre functions lie one
    after the other in the saved workspace and end at its required length; the
    grid and the scratch rows fill the required temporary length. *)
Theorem C95_segments : forall nlat nlon mode nt, 1 <= nlat -> 1 <= nlon ->
  let '(iwts, ifft, ipmn, (ig, iw)) := segments nlat nlon mode nt in
  let l := l_of nlat nlon in let late := late_of nlat in let lat := lat_of nlat mode in
  iwts = 1 /\ iwts + nlat <= ifft /\ ifft + (nlon + 15) = ipmn /\
  Z.of_nat (ipmn + late * npm_of nlat l - 1) = lp_of (Z.of_nat nlat) (Z.of_nat nlon) (Z.of_nat l) (Z.of_nat late) /\
  ig = 1 /\ ig + lat * nlon * nt = iw /\ iw + lat * nlon - 1 = lat * nlon * (nt + 1).
Proof.
  intros nlat nlon mode nt H1 H2. unfold segments. cbv zeta. pose proof (l_facts nlat nlon H1 H2) as (L1 & L2 & _).
  split; [auto|]. split; [plia|]. split; [plia|]. split; [apply (saved_length nlat nlon); lia|]. split; [auto|]. split; [plia|]. rewrite Nat.mul_add_distr_l, Nat.mul_1_r. plia.
Qed.

(** The lengths the Python class passes are the required ones: no call fails its
    checks once nlat >= 3, nlon >= 4 and there is at least one field. *)
Theorem C95_python : forall nlat nlon nt, (3 <= nlat)%Z -> (4 <= nlon)%Z -> (1 <= nt)%Z ->
  checks nlat nlon 0 nt nlat nlon nlat nlat (py_lshags nlat nlon) (py_lwork nlat nlon nt) = 0%Z /\
  py_lshags nlat nlon = lp_of nlat nlon (Z.min ((nlon + 2) / 2) nlat) ((nlat + nlat mod 2) / 2).
Proof.
  intros nlat nlon nt H1 H2 H3.
  assert (E : py_lshags nlat nlon = lp_of nlat nlon (Z.min ((nlon + 2) / 2) nlat) ((nlat + nlat mod 2) / 2)) by (unfold py_lshags; cbv zeta; rewrite n1_ok, n2_ok by lia; reflexivity).
  split; [|exact E]. destruct (C95_codes nlat nlon 0 nt nlat nlon nlat nlat (py_lshags nlat nlon) (py_lwork nlat nlon nt)) as (_ & C & _). apply C.
  intros k Hk. assert (D : (k = 1 \/ k = 2 \/ k = 3 \/ k = 4 \/ k = 5 \/ k = 6 \/ k = 7 \/ k = 8 \/ k = 9 \/ k = 10)%Z) by lia.
  destruct D as [->|[->|[->|[->|[->|[->|[->|[->|[->| ->]]]]]]]]]; cbn [Z.eqb]; try lia.
  unfold py_lwork. lia.
Qed.
Example C95_example :
  checks 73 144 0 5 73 144 73 73 (py_lshags 73 144) (py_lwork 73 144 5) = 0%Z /\
  checks 73 144 0 5 73 144 73 73 (py_lshags 73 144 - 1) (py_lwork 73 144 5) = 9%Z /\
  checks 73 144 1 5 37 144 73 73 (py_lshags 73 144) (37 * 144 * 6) = 0%Z /\
  checks 73 144 3 0 73 144 73 73 0 0 = 3%Z /\ segments 3 4 0 1 = (1, 25, 44, (1, 13)).
Proof. repeat split; vm_compute; reflexivity. Qed.

Print Assumptions C92_synthesis.
Print Assumptions C93_analysis.
Print Assumptions C94_round_trip.
Print Assumptions C95_codes.
Print Assumptions C95_segments.
Print Assumptions C95_python.
