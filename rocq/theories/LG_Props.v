(** C96-C99: the Legendre tables of the Gaussian scalar transforms. *)
From Coq Require Import Reals List Arith ZArith Lia Bool Lra.
From Verif Require Import Base Buffer VH_Model RS_Spec RS_Dft RS_Table FF_Model GS_Spec GS_Model GS_Proofs1 GS_Proofs3 GS_Proofs8 GS_Props
  LG_Spec LG_Proofs1 LG_Model LG_Proofs2 LG_Proofs3 LG_Proofs4 LG_Proofs5 LG_Proofs6 LG_Proofs7.
Import ListNotations.
Local Open Scope nat_scope.

(** ** C96: the functions of order 0 and 1 *)
(** What the specification calls D m n is the m-th derivative of the Legendre
    polynomial: order 0 is Bonnet's recursion, and each order is the derivative
    of the one before. *)
Theorem C96_derivative : forall m n x,
  D 0 0 x = 1%R /\ D 0 1 x = x /\ ((INR n + 2) * D 0 (S (S n)) x = (2 * INR n + 3) * x * D 0 (S n) x - (INR n + 1) * D 0 n x)%R /\
  D 0 n 1 = 1%R /\ derivable_pt_lim (D m n) x (D (S m) n x).
Proof.
  intros m n x. change (D 0) with leg. split; [reflexivity|]. split; [reflexivity|]. split; [|split; [apply leg_one|apply D_derive]].
  pose proof (leg_SS n x). lra.
Qed.
(** dnlfk followed by dnlft is the normalised function, at every colatitude and
    for every degree. *)
Theorem C96_orders_0_1 : forall m n cp, m <= 1 -> m <= n -> n / 2 + 1 <= length cp ->
  exists cp', dnlfk (Z.of_nat m) n cp = Some cp' /\ length cp' = length cp /\ forall t, dnlft m n t cp' = Some (Pbar m n t).
Proof. exact value_ok. Qed.
(** The degree 5 function of order 1 from an array of three zeros. *)
Example C96_example : exists cp, dnlfk 1 5 [0; 0; 0]%R = Some cp /\
  dnlft 1 5 (PI / 2) cp = Some (sqrt (11 / 60) * (15 / 8))%R.
Proof.
  destruct (C96_orders_0_1 1 5 [0; 0; 0]%R) as (cp & E & _ & V); [lia|lia|cbn; lia|]. exists cp. split; [exact E|]. rewrite V. f_equal. unfold Pbar, pnorm.
  rewrite sin_PI2, cos_PI2, pow1. f_equal.
  - f_equal. change (5 - 1) with 4. change (5 + 1) with 6. rewrite (fact2 4). cbn [INR]. pose proof (fact_pos 4). field. lra.
  - cbn. field.
Qed.

(** ** C97: all orders *)
(** From any colatitudes, whatever the arrays hold on entry and whatever
    permutation of 1, 2, 3 earlier calls left in the saved variables, the
    stored table is the normalised function of every order and degree on every
    northern row. *)
Theorem C97_all_orders : forall nlat nlon theta len junk work km pmn pmnf, 1 <= nlat -> 1 <= nlon ->
  let l := lmax nlat nlon in
  north nlat <= length theta -> l * (l - 1) / 2 + (nlat - l) * (l - 1) <= len -> length junk = nlat * north nlat -> nlat / 2 + 1 <= length work ->
  distinct km -> length pmn = nlat * (north nlat * 3) -> length pmnf = north nlat * functions nlat nlon ->
  exists f, shagsi_tables nlat (l_of nlat nlon) theta len junk work km pmn pmnf = Some f /\ length f = north nlat * functions nlat nlon /\
    forall m n i, m < l -> m <= n < nlat -> 1 <= i <= north nlat -> legendre nlat f m n i = Pbar m n (nth (i - 1) theta 0%R).
Proof.
  intros nlat nlon theta len junk work km pmn pmnf H1 H2 l HT HL HJ HW HD HP HF.
  assert (LL : 1 <= lmax nlat nlon <= nlat) by (unfold lmax; lia).
  assert (NF : npm_of nlat (l_of nlat nlon) = functions nlat nlon) by (rewrite l_lmax, npm_tri by lia; reflexivity).
  destruct (shagsi_tables_ok nlat (l_of nlat nlon) ltac:(rewrite l_lmax; lia) theta len junk work km pmn pmnf) as (f & E & L & V); rewrite ?late_north, ?l_lmax; auto.
  - rewrite <- l_lmax, NF. exact HF.
  - exists f. rewrite <- l_lmax. split; [exact E|]. rewrite late_north, NF in L. split; [exact L|]. intros m n i Hm Hn Hi. unfold legendre. rewrite <- late_north. apply V; rewrite ?l_lmax, ?late_north; auto.
Qed.

(** ** C98: orthonormality, the spherical harmonics and the round trip *)
Definition colatitude (theta : list R) (i : nat) : R := nth (i - 1) theta 0%R.
Theorem C98_orthonormal : forall nlat nlon theta wts f, 1 <= nlat ->
  symmetric_colatitudes nlat (colatitude theta) ->
  (forall m n i, m < lmax nlat nlon -> m <= n < nlat -> 1 <= i <= north nlat -> legendre nlat f m n i = Pbar m n (colatitude theta i)) ->
  zero_at_equator nlat nlon f /\
  (forall m n i, m < lmax nlat nlon -> m <= n < nlat -> 1 <= i <= nlat -> pfull nlat f m n i = Pbar m n (colatitude theta i)) /\
  (gaussian nlat wts (colatitude theta) -> orthonormal_functions nlat nlon wts f).
Proof.
  intros nlat nlon theta wts f H1 HS HF. split; [|split].
  - exact (equator nlat nlon H1 _ HS f HF).
  - exact (pfull_ok nlat nlon H1 _ HS f HF).
  - exact (orthonormal nlat nlon H1 _ HS f HF wts).
Qed.
(** The functions themselves are orthonormal under an exact quadrature. *)
Theorem C98_functions : forall nlat wts th m n n', gaussian nlat wts th -> m <= n < nlat -> m <= n' < nlat ->
  sumR nlat (fun q => nth q wts 0 * Pbar m n (th (S q)) * Pbar m n' (th (S q)))%R = if n =? n' then 1%R else 0%R.
Proof. intros nlat wts th m n n' HG H H'. apply (Pbar_orthonormal nlat wts th HG m n n'); lia. Qed.

(** sum over n = m .. nlat-1 of c m n times the function of order m at colatitude t *)
Definition meridian (nlat mode : nat) (c : nat -> nat -> R) (m : nat) (t : R) : R :=
  sumR (nlat - m) (fun k => let n := (m + k)%nat in ((if used mode m n then c m n else 0) * Pbar m n t)%R).
(** The truncated series of spherical harmonics at colatitude t and longitude x *)
Definition series (nlat nlon mode : nat) (a b : nat -> nat -> R) (t x : R) : R :=
  (1 / 2 * meridian nlat mode a 0 t +
   sumR (lmax nlat nlon - 1) (fun k => let m := S k in meridian nlat mode a m t * cos (INR m * x) - meridian nlat mode b m t * sin (INR m * x)))%R.
(** Initialisation, synthesis and analysis together: with Gaussian points and
    weights, the synthesis is the series of spherical harmonics on the grid and
    the analysis returns its coefficients. *)
Theorem C98_transform : forall nlat nlon mode idg jdg mdab ndab a b gs a0 b0 wts theta d junkrow fuel wa0 ws len junk work km pmn pmnf,
  1 <= nlat -> 1 <= nlon -> mode <= 2 ->
  length theta = nlat -> symmetric_colatitudes nlat (colatitude theta) -> symmetric_weights nlat wts -> gaussian nlat wts (colatitude theta) ->
  let l := lmax nlat nlon in
  l * (l - 1) / 2 + (nlat - l) * (l - 1) <= len -> length junk = nlat * north nlat -> nlat / 2 + 1 <= length work ->
  distinct km -> length pmn = nlat * (north nlat * 3) -> length pmnf = north nlat * functions nlat nlon ->
  l <= mdab -> nlat <= ndab -> length a = mdab * ndab -> length b = mdab * ndab -> length a0 = mdab * ndab -> length b0 = mdab * ndab ->
  rows nlat mode <= idg -> nlon <= jdg -> length gs = idg * jdg ->
  length junkrow = nlon -> nlon <= length wa0 -> hrffti fuel nlon wa0 = Some ws ->
  exists f gs' a' b', shagsi_tables nlat (l_of nlat nlon) theta len junk work km pmn pmnf = Some f /\
    shsgs1 nlat nlon mode d junkrow idg jdg mdab ndab a b f ws gs = Some gs' /\
    shags1 nlat nlon mode d junkrow idg jdg mdab ndab gs' wts f ws a0 b0 = Some (a', b') /\
    (forall i j, 1 <= i <= rows nlat mode -> j < nlon ->
       val2 idg gs' i (j + 1) = series nlat nlon mode (fun m n => val2 mdab a (m + 1) (n + 1)) (fun m n => val2 mdab b (m + 1) (n + 1)) (colatitude theta i) (2 * PI * INR j / INR nlon)) /\
    forall m n, m < l -> m <= n < nlat ->
      val2 mdab a' (m + 1) (n + 1) = (if used mode m n then val2 mdab a (m + 1) (n + 1) else 0%R) /\
      val2 mdab b' (m + 1) (n + 1) = (if andb (used mode m n) (negb (orb (m =? 0) (2 * m =? nlon))) then val2 mdab b (m + 1) (n + 1) else 0%R).
Proof.
  intros nlat nlon mode idg jdg mdab ndab a b gs a0 b0 wts theta d junkrow fuel wa0 ws len junk work km pmn pmnf H1 H2 Hm LT HS HW HG l HL HJ HWK HD HP HF Hmd Hnd La Lb La0 Lb0 Hid Hjd Lg Lj Lw HI.
  pose proof (halves nlat) as [N1 N2].
  destruct (C97_all_orders nlat nlon theta len junk work km pmn pmnf) as (f & E & LF & V); auto; try lia.
  destruct (C98_orthonormal nlat nlon theta wts f H1 HS V) as (ZE & PF & ORT).
  destruct (C94_round_trip nlat nlon mode idg jdg mdab ndab a b gs a0 b0 wts f d junkrow fuel wa0 ws) as (gs' & a' & b' & E1 & E2 & RT); auto.
  exists f, gs', a', b'. split; [exact E|]. split; [exact E1|]. split; [exact E2|]. split; [|exact RT].
  destruct (C92_synthesis nlat nlon mode idg jdg mdab ndab a b f d junkrow fuel wa0 ws gs) as (gs2 & E1' & _ & VS & _); auto.
  rewrite E1 in E1'. injection E1' as <-. intros i j Hi Hj. rewrite VS by lia. replace (j + 1 - 1) with j by lia.
  assert (LM : 1 <= lmax nlat nlon <= nlat) by (unfold lmax; lia).
  assert (Hi2 : 1 <= i <= nlat) by (unfold rows in Hi; destruct (mode =? 0); lia).
  assert (AM : forall c m, m < lmax nlat nlon -> amplitude nlat mode f c m i = meridian nlat mode c m (colatitude theta i)).
  { intros c m Hmm. unfold amplitude, meridian. apply sumR_ext. intros k Hk. cbv zeta. rewrite PF by lia. reflexivity. }
  unfold harmonic, series. rewrite AM by lia. f_equal. apply sumR_ext. intros k Hk. cbv zeta. rewrite !AM by lia.
  assert (EA : angle nlon (S k) j = (INR (S k) * (2 * PI * INR j / INR nlon))%R) by (unfold angle; field; apply not_0_INR; lia). rewrite EA. reflexivity.
Qed.

(** The three Gaussian colatitudes with their weights meet the hypotheses. *)
Definition theta3 : list R := [acos a; PI / 2; PI - acos a]%R.
Lemma theta3_cos : cos (nth 0 theta3 0%R) = a /\ cos (nth 1 theta3 0%R) = 0%R /\ cos (nth 2 theta3 0%R) = (- a)%R.
Proof.
  assert (A : (-1 <= a <= 1)%R) by (pose proof a2; split; nra). cbn [nth theta3]. split; [apply cos_acos; auto|]. split; [apply cos_PI2|].
  replace (PI - acos a)%R with (- (acos a - PI))%R by ring. rewrite cos_neg. rewrite cos_minus, cos_PI, sin_PI, cos_acos by auto. ring.
Qed.
Lemma theta3_gaussian : gaussian 3 weights3 (colatitude theta3).
Proof.
  intros k Hk. destruct theta3_cos as (E0 & E1 & E2). unfold colatitude. cbn [sumR Nat.sub]. rewrite E0, E1, E2. pose proof a2 as S2.
  assert (S4 : (a * a * (a * a) = 9 / 25)%R) by (rewrite S2; field). unfold weights3, w1, w2.
  do 6 (destruct k as [|k]; [cbn -[a]; lra|]). lia.
Qed.
Lemma theta3_symmetric : symmetric_colatitudes 3 (colatitude theta3).
Proof. intros i Hi. unfold colatitude. destruct i as [|[|[|[|]]]]; try lia; cbn; field. Qed.
Example C98_example : forall nlon mode (a b : list R), (nlon = 4 \/ nlon = 5) -> mode <= 2 -> length a = 9 -> length b = 9 ->
  exists ws f gs' a' b', hrffti 20 nlon (repeat 0%R nlon) = Some ws /\
    shagsi_tables 3 (l_of 3 nlon) theta3 3 (repeat 7%R 6) (repeat 8%R 2) (3, 1, 2) (repeat 9%R 18) (repeat 5%R 12) = Some f /\
    shsgs1 3 nlon mode 0%R (repeat 0%R nlon) 3 nlon 3 3 a b f ws (repeat 0%R (3 * nlon)) = Some gs' /\
    shags1 3 nlon mode 0%R (repeat 0%R nlon) 3 nlon 3 3 gs' weights3 f ws (repeat 0%R 9) (repeat 0%R 9) = Some (a', b') /\
    val2 3 a' 2 3 = (if used mode 1 2 then val2 3 a 2 3 else 0%R).
Proof.
  intros nlon mode a b Hn Hm La Lb.
  destruct (FF_Proofs9.hrffti_total 0%R nlon 20 (repeat 0%R nlon) ltac:(lia) ltac:(rewrite repeat_length; lia) ltac:(lia)) as (wa & fac & X & _).
  assert (HL : lmax 3 nlon = 3) by (destruct Hn as [->| ->]; reflexivity).
  exists (wa, fac).
  destruct (C98_transform 3 nlon mode 3 nlon 3 3 a b (repeat 0%R (3 * nlon)) (repeat 0%R 9) (repeat 0%R 9) weights3 theta3 0%R (repeat 0%R nlon) 20 (repeat 0%R nlon) (wa, fac) 3 (repeat 7%R 6) (repeat 8%R 2) (3, 1, 2) (repeat 9%R 18) (repeat 5%R 12))
    as (f & gs' & a' & b' & E0 & E1 & E2 & _ & V); rewrite ?HL, ?repeat_length; try exact X; auto; try lia.
  - apply theta3_symmetric.
  - apply weights3_symmetric.
  - apply theta3_gaussian.
  - red. lia.
  - destruct Hn as [->| ->]; reflexivity.
  - unfold rows. destruct (mode =? 0); cbn; lia.
  - exists f, gs', a', b'. split; [exact X|]. split; [exact E0|]. split; [exact E1|]. split; [exact E2|]. exact (proj1 (V 1 2 ltac:(rewrite HL; lia) ltac:(lia))).
Qed.

(** ** C99: lengths, codes and places *)
(** The code of shagsi is the number of the first requirement that fails, and
    then the inner check of shagsp passes. *)
Theorem C99_codes : forall nlat nlon lshags lwork ldwork,
  let l := Z.min ((nlon + 2) / 2) nlat in let late := ((nlat + nlat mod 2) / 2)%Z in
  let ok k := (match k with
    | 1 => 3 <= nlat | 2 => 4 <= nlon | 3 => lp_of nlat nlon l late <= lshags | 4 => 4 * nlat * (nlat + 2) + 2 <= lwork | 5 => nlat * (nlat + 4) <= ldwork | _ => True end)%Z in
  let e := shagsi_checks nlat nlon lshags lwork ldwork in
  (0 <= e <= 5)%Z /\ (e = 0%Z <-> forall k, (1 <= k <= 5)%Z -> ok k) /\ ((1 <= e)%Z -> ~ ok e /\ forall k, (1 <= k < e)%Z -> ok k) /\
  (e = 0%Z -> shagsp_checks nlat nlon lshags ldwork = 0%Z).
Proof.
  intros nlat nlon lshags lwork ldwork l late ok e.
  assert (LT : ((nlat + 1) / 2 = late)%Z).
  { unfold late. pose proof (Z.div_mod nlat 2 ltac:(lia)). pose proof (Z.mod_pos_bound nlat 2 ltac:(lia)). assert (nlat mod 2 = 0 \/ nlat mod 2 = 1)%Z as [E|E] by lia; rewrite E.
    - symmetry. apply Z.div_unique with 1%Z; [lia|]. replace ((nlat + 0) / 2)%Z with (nlat / 2)%Z by (f_equal; lia). lia.
    - auto. }
  assert (K : forall P : Z -> Prop, P 1%Z -> P 2%Z -> P 3%Z -> P 4%Z -> P 5%Z -> forall k, (1 <= k <= 5)%Z -> P k).
  { intros P P1 P2 P3 P4 P5 k Hk. assert (D : (k = 1 \/ k = 2 \/ k = 3 \/ k = 4 \/ k = 5)%Z) by lia. destruct D as [->|[->|[->|[->| ->]]]]; auto. }
  assert (CASES : (e = 0%Z /\ ok 1%Z /\ ok 2%Z /\ ok 3%Z /\ ok 4%Z /\ ok 5%Z) \/ (e = 1%Z /\ ~ ok 1%Z) \/ (e = 2%Z /\ ok 1%Z /\ ~ ok 2%Z) \/ (e = 3%Z /\ ok 1%Z /\ ok 2%Z /\ ~ ok 3%Z) \/
    (e = 4%Z /\ ok 1%Z /\ ok 2%Z /\ ok 3%Z /\ ~ ok 4%Z) \/ (e = 5%Z /\ ok 1%Z /\ ok 2%Z /\ ok 3%Z /\ ok 4%Z /\ ~ ok 5%Z)).
  { unfold e, shagsi_checks. cbv zeta. rewrite LT. fold l. fold (lp_of nlat nlon l late). unfold ok. cbv beta iota.
    destruct (Z.ltb_spec nlat 3); [right; left; split; [auto|lia]|]. destruct (Z.ltb_spec nlon 4); [right; right; left; split; [auto|lia]|].
    destruct (Z.ltb_spec lshags (lp_of nlat nlon l late)); [right; right; right; left; split; [auto|lia]|]. destruct (Z.ltb_spec lwork (4 * nlat * (nlat + 2) + 2)); [right; right; right; right; left; split; [auto|lia]|].
    destruct (Z.ltb_spec ldwork (nlat * (nlat + 4))); [right; right; right; right; right; split; [auto|lia]|]. left. split; [auto|lia]. }
  clearbody e. split; [lia|]. split; [|split].
  - split; [|intros A]. { intros ->. destruct CASES as [(_ & C1 & C2 & C3 & C4 & C5)|CC]; [apply K; auto|lia]. }
    pose proof (A 1%Z ltac:(lia)). pose proof (A 2%Z ltac:(lia)). pose proof (A 3%Z ltac:(lia)). pose proof (A 4%Z ltac:(lia)). pose proof (A 5%Z ltac:(lia)). tauto.
  - intros He. destruct CASES as [(-> & _)|[(-> & C1)|[(-> & C1 & C2)|[(-> & C1 & C2 & C3)|[(-> & C1 & C2 & C3 & C4)|(-> & C1 & C2 & C3 & C4 & C5)]]]]]; try lia; (split; [auto|]); intros k Hk.
    + lia.
    + assert (k = 1%Z) as -> by lia. auto.
    + assert (k = 1 \/ k = 2)%Z as [->| ->] by lia; auto.
    + assert (k = 1 \/ k = 2 \/ k = 3)%Z as [->|[->| ->]] by lia; auto.
    + assert (k = 1 \/ k = 2 \/ k = 3 \/ k = 4)%Z as [->|[->|[->| ->]]] by lia; auto.
  - intros ->. destruct CASES as [(_ & C1 & C2 & C3 & C4 & C5)|CC]; [|lia]. unfold ok in *. cbv beta iota in *. unfold shagsp_checks. cbv zeta. fold l late.
    destruct (Z.ltb_spec nlat 3); [lia|]. destruct (Z.ltb_spec nlon 4); [lia|].
    assert (B : (1 <= l <= nlat)%Z) by (unfold l; split; [apply Z.min_glb; [apply Z.div_le_lower_bound; lia|lia]|apply Z.le_min_r]).
    assert (LP : (1 <= late)%Z) by (rewrite <- LT; apply Z.div_le_lower_bound; lia).
    destruct (Z.ltb_spec lshags (nlat * (2 * late + 3 * l - 2) + Z.quot (3 * l * (1 - l)) 2 + nlon + 15)) as [X|_]; [|destruct (Z.ltb_spec ldwork (nlat * (nlat + 4))); [lia|auto]]. exfalso.
    unfold lp_of in C3.
    assert (EV : exists h, (l * (l - 1) = 2 * h)%Z).
    { destruct (Z.Even_or_Odd l) as [[h ->]|[h ->]]; [exists (h * (2 * h - 1))%Z|exists ((2 * h + 1) * h)%Z]; ring. }
    destruct EV as [h Hh]. replace (3 * l * (1 - l))%Z with (- (3) * (l * (l - 1)))%Z in X by ring. rewrite Hh in X. replace (- (3) * (2 * h))%Z with ((- (3 * h)) * 2)%Z in X by ring. rewrite Z.quot_mul in X by lia.
    assert (Q : ((l - 1) * (late * (2 * nlat - l) - 3 * l) / 2 >= - (3 * h))%Z).
    { apply Z.le_ge. apply Z.div_le_lower_bound; [lia|]. replace ((l - 1) * (late * (2 * nlat - l) - 3 * l))%Z with ((l - 1) * (late * (2 * nlat - l)) - 3 * (l * (l - 1)))%Z by ring. rewrite Hh.
      assert (0 <= (l - 1) * (late * (2 * nlat - l)))%Z by (apply Z.mul_nonneg_nonneg; [lia|]; apply Z.mul_nonneg_nonneg; lia). lia. }
    assert (0 <= nlat * late)%Z by (apply Z.mul_nonneg_nonneg; lia). replace (nlat * (3 * (l + late) - 2))%Z with (nlat * (2 * late + 3 * l - 2) + nlat * late)%Z in C3 by ring. lia.
Qed.
(** shagsp and legin put the six tables at the same places, one after the other
    with exactly the room they need, the row-transform table and the Legendre
    functions where shags and shsgs look for them; the scratch arrays fit in the
    lengths required. *)
Theorem C99_places : forall nlat nlon mode nt, 3 <= nlat -> 4 <= nlon ->
  let l := l_of nlat nlon in let late := late_of nlat in
  let c := l * (l - 1) / 2 + (nlat - l) * (l - 1) in
  let at_ k := nth k (places nlat l) 0 in
  at_ 0 = 1 /\ at_ 1 = at_ 0 + nlat /\ at_ 2 = at_ 1 + nlat * late /\ at_ 3 = at_ 2 + nlat * late /\ at_ 4 = at_ 3 + c /\ at_ 5 = at_ 4 + c /\ at_ 6 = at_ 5 + c /\
  places_legin nlat l = [at_ 1; at_ 2; at_ 3; at_ 4; at_ 5] /\
  (let '(iwts, ifft, ipmn, _) := segments nlat nlon mode nt in iwts = at_ 0 /\ ifft = at_ 6 /\ ipmn = ipmnf nlat nlon l) /\
  nlat * (late * 3) <= 4 * nlat * (nlat + 2) + 2 /\
  nth 2 (places_double nlat) 0 - 1 + (nlat / 2 + 1) <= nlat * (nlat + 4).
Proof.
  intros nlat nlon mode nt H1 H2 l late c at_.
  assert (LL : 1 <= l <= nlat) by (unfold l; rewrite l_lmax; unfold lmax; lia).
  assert (C2 : (2 * nlat - l) * (l - 1) / 2 = c).
  { pose proof (before_len nlat l LL) as B. fold c in B. pose proof (before_places nlat l LL) as B2. rewrite B in B2. replace ((2 * nlat - l) * (l - 1)) with (c * 2) by nia. apply Nat.div_mul. lia. }
  unfold at_, places, places_legin. fold late c. rewrite C2. cbn [nth]. repeat (split; [lia|]). split; [f_equal; lia|]. split.
  - unfold segments. cbv zeta. fold l late c. unfold ipmnf. fold late c. split; [lia|]. split; lia.
  - pose proof (halves nlat) as [N1 N2]. unfold late. rewrite late_north. unfold places_double. cbn [nth]. split; nia.
Qed.
(** The lengths passed by the Python class are the required ones. *)
Theorem C99_python : forall nlat nlon, (3 <= nlat)%Z -> (4 <= nlon)%Z ->
  shagsi_checks nlat nlon (py_lshags nlat nlon) (py_lwork_init nlat) (py_ldwork_init nlat) = 0%Z.
Proof.
  intros nlat nlon H1 H2. destruct (C99_codes nlat nlon (py_lshags nlat nlon) (py_lwork_init nlat) (py_ldwork_init nlat)) as (_ & C & _). apply C. intros k Hk.
  destruct (C95_python nlat nlon 1 H1 H2 ltac:(lia)) as [_ E]. unfold py_lwork_init, py_ldwork_init.
  assert (D : (k = 1 \/ k = 2 \/ k = 3 \/ k = 4 \/ k = 5)%Z) by lia. destruct D as [->|[->|[->|[->| ->]]]]; cbv beta iota; lia.
Qed.
Example C99_example :
  shagsi_checks 73 144 (py_lshags 73 144) (py_lwork_init 73) (py_ldwork_init 73) = 0%Z /\
  shagsi_checks 73 144 (py_lshags 73 144 - 1) (py_lwork_init 73) (py_ldwork_init 73) = 3%Z /\
  shagsp_checks 73 144 7900 (py_ldwork_init 73) = 3%Z /\ places 5 3 = [1; 6; 21; 36; 43; 50; 57] /\ places_legin 5 3 = [6; 21; 36; 43; 50].
Proof. repeat split; vm_compute; reflexivity. Qed.

Print Assumptions C96_derivative.
Print Assumptions C96_orders_0_1.
Print Assumptions C97_all_orders.
Print Assumptions C98_orthonormal.
Print Assumptions C98_functions.
Print Assumptions C98_transform.
Print Assumptions C99_codes.
Print Assumptions C99_places.
Print Assumptions C99_python.
