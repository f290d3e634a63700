(** Properties C78 (gradient, vorticity and divergence) and C79 (caches and
    output precision) of the packed reduced-Gaussian transforms. *)
From Coq Require Import Reals List Arith Lia Lra Bool ZArith.
From Verif Require Import Base Buffer VH_Model VH_Proofs SH_Spec SH_Model SH_Proofs SH_Proofs2 SH_Proofs4 SH_Props.
From Verif Require Import RS_Model RS_Model2 RS_Spec RS_Dft RS_Proofs1 RS_Proofs2 RS_Proofs3 RS_Proofs4 RS_Proofs5 RS_Proofs6 RS_Proofs7 RS_Proofs8 RS_Table.
Import ListNotations.
Local Open Scope nat_scope.
Local Notation C := RS_Model.C.

(** ** C78: gradient *)
(** (i m / (r sin)) times the Legendre sums eastward, the derivative sums over
    -r northward; each summed as a Fourier series on the row. *)
Theorem C78_getgrad : forall pl T basis dbasis sin_theta r junk junk2 spec out,
  gradient_ok pl T basis dbasis sin_theta r -> work_rows pl junk -> work_rows pl junk2 -> length spec = tri T -> length (fst out) = list_sum pl -> length (snd out) = list_sum pl ->
  exists u v, getgrad backward junk junk2 pl T spec basis dbasis sin_theta r out = Some (u, v) /\ length u = list_sum pl /\ length v = list_sum pl /\
    forall j i, 1 <= j <= length pl -> i < row_len pl j ->
      point pl u j i = series (row_len pl j) T (fun m => east r (row_value sin_theta j) m (leg T spec basis j m)) i /\
      point pl v j i = series (row_len pl j) T (fun m => north r (leg T spec dbasis j m)) i.
Proof.
  intros pl T basis dbasis sin_theta r junk junk2 spec out OK J1 J2 Hs H1 H2.
  destruct (getgrad_ok pl T basis dbasis sin_theta r junk junk2 OK J1 J2 spec out Hs H1 H2) as [[u v] (E & L1 & L2 & P)].
  exists u, v. split; [exact E|]. split; [exact L1|]. split; [exact L2|]. exact P.
Qed.
Lemma gradient_unique pl T basis dbasis sin_theta r spec g g' : gradient_of pl T basis dbasis sin_theta r spec g -> gradient_of pl T basis dbasis sin_theta r spec g' -> g = g'.
Proof.
  intros (L1 & L2 & P) (L1' & L2' & P'). destruct g as [u v], g' as [u' v']. cbn [fst snd] in *.
  f_equal; (apply nth_ext with (d := 0%R) (d' := 0%R); [lia|]); intros q Hq; (rewrite L1 in Hq || rewrite L2 in Hq);
  destruct (row_find pl q Hq) as [j (Hj & H1 & H2)]; specialize (P j (q - row_start pl j) Hj ltac:(lia)); specialize (P' j (q - row_start pl j) Hj ltac:(lia));
  unfold point in *; replace (row_start pl j + (q - row_start pl j)) with q in * by lia; destruct P, P'; congruence.
Qed.
(** The paired routine gives the two single results; nothing of the work rows
    or of the previous contents of the outputs survives. *)
Theorem C78_getgrad_pair : forall pl T basis dbasis sin_theta r j1 j2 j3 j4 k1 k2 sa sb out oa ob,
  gradient_ok pl T basis dbasis sin_theta r -> work_rows pl j1 -> work_rows pl j2 -> work_rows pl j3 -> work_rows pl j4 -> work_rows pl k1 -> work_rows pl k2 ->
  length sa = tri T -> length sb = tri T ->
  length (fst (fst out)) = list_sum pl -> length (snd (fst out)) = list_sum pl -> length (fst (snd out)) = list_sum pl -> length (snd (snd out)) = list_sum pl ->
  length (fst oa) = list_sum pl -> length (snd oa) = list_sum pl -> length (fst ob) = list_sum pl -> length (snd ob) = list_sum pl ->
  exists ga gb, getgrad_pair backward j1 j2 j3 j4 pl T sa sb basis dbasis sin_theta r out = Some (ga, gb) /\
    getgrad backward k1 k2 pl T sa basis dbasis sin_theta r oa = Some ga /\ getgrad backward k1 k2 pl T sb basis dbasis sin_theta r ob = Some gb.
Proof.
  intros pl T basis dbasis sin_theta r j1 j2 j3 j4 k1 k2 sa sb out oa ob OK J1 J2 J3 J4 K1 K2 Ha Hb O1 O2 O3 O4 A1 A2 B1 B2.
  destruct (getgrad_pair_ok pl T basis dbasis sin_theta r j1 j2 j3 j4 OK J1 J2 J3 J4 sa sb out Ha Hb O1 O2 O3 O4) as [[ga gb] (E & G1 & G2)]. cbn [fst snd] in *.
  destruct (getgrad_ok pl T basis dbasis sin_theta r k1 k2 OK K1 K2 sa oa Ha A1 A2) as [ga' [EA GA]].
  destruct (getgrad_ok pl T basis dbasis sin_theta r k1 k2 OK K1 K2 sb ob Hb B1 B2) as [gb' [EB GB]].
  exists ga, gb. split; [exact E|]. rewrite EA, EB. split; f_equal; eapply gradient_unique; eassumption.
Qed.
Lemma gradient3_ok : gradient_ok [6; 8; 6] 2 table3 dtable3 sin3 2.
Proof.
  split; try apply sized3; try (intros _; first [apply parity3|apply dparity3|apply even3]); try apply sin3_nz; try lra; try reflexivity.
  intros j Hj. destruct (rows3 j Hj) as [E|[E|E]]; subst j; cbn; lia.
Qed.
Example C78_gradient_ex : gradient_ok [6; 8; 6] 2 table3 dtable3 sin3 2 /\ work_rows [6; 8; 6] (fun _ => repeat 7%R 8) /\ symmetric_pl [6; 8; 6] = true.
Proof.
  split; [exact gradient3_ok|]. split; [|reflexivity].
  intros j k Hk. rewrite repeat_length. destruct (rows3 k Hk) as [E|[E|E]]; subst k; cbn; lia.
Qed.

(** ** C78: vorticity and divergence *)
(** The quadrature sums over the rows that resolve the order, on both paths,
    whatever the cached Fourier arrays and the outputs held. *)
Theorem C78_getvrtdivspec_partial : forall pl T ug vg weights basis dbasis sin_theta r old out,
  vector_ok pl T ug vg weights basis dbasis sin_theta -> old_ok pl old -> (mirrored pl -> increasing_to_equator pl) -> length (fst out) = tri T -> length (snd out) = tri T ->
  exists z d, getvrtdivspec forward pl T ug vg weights basis dbasis sin_theta r old out = Some (z, d) /\ length z = tri T /\ length d = tri T /\
    forall m n, m <= n <= T ->
      let vrt j := vorticity_term (row_value weights j) r (row_value sin_theta j) (entry T basis j m n) (entry T dbasis j m n) m (row_dft pl ug j m) (row_dft pl vg j m) in
      let div j := divergence_term (row_value weights j) r (row_value sin_theta j) (entry T basis j m n) (entry T dbasis j m n) m (row_dft pl ug j m) (row_dft pl vg j m) in
      coef T z m n = (over_rows pl m (fun j => fst (vrt j)), over_rows pl m (fun j => snd (vrt j))) /\
      coef T d m n = (over_rows pl m (fun j => fst (div j)), over_rows pl m (fun j => snd (div j))).
Proof.
  intros pl T ug vg weights basis dbasis sin_theta r old out OK OLD INC H1 H2.
  destruct (getvrtdivspec_ok pl T ug vg weights basis dbasis sin_theta r old OK OLD INC out H1 H2) as [z [d (E & [Lz Z] & [Ld D])]].
  exists z, d. split; [exact E|]. split; [exact Lz|]. split; [exact Ld|]. intros m n Hn. cbv zeta. split; [apply (Z m n Hn)|apply (D m n Hn)].
Qed.
Lemma coef_ext T (a b : list C) : length a = tri T -> length b = tri T -> (forall m n, m <= n <= T -> coef T a m n = coef T b m n) -> a = b.
Proof.
  intros La Lb H. apply nth_ext with (d := (0, 0)%R) (d' := (0, 0)%R); [unfold RS_Model.C in *; lia|]. intros q Hq. unfold RS_Model.C in *. rewrite La, <- pairs_length in Hq.
  destruct (nth_error (pairs T) q) as [[m n]|] eqn:E; [|apply nth_error_None in E; lia].
  destruct (index_unique T m n q E) as [-> B]. apply (H m n B).
Qed.
Lemma sums_unique pl T ug vg weights basis dbasis sin_theta r kind a b :
  sums_of pl T ug vg weights basis dbasis sin_theta r kind a -> sums_of pl T ug vg weights basis dbasis sin_theta r kind b -> a = b.
Proof. intros [La Pa] [Lb Pb]. apply (coef_ext T); [assumption|assumption|]. intros m n Hn. rewrite Pa, Pb by exact Hn. reflexivity. Qed.
(** The routines for one of the two give the same spectra. *)
Theorem C78_components_partial : forall pl T ug vg weights basis dbasis sin_theta r old old1 old2 out out1 out2,
  vector_ok pl T ug vg weights basis dbasis sin_theta -> old_ok pl old -> old_ok pl old1 -> old_ok pl old2 -> (mirrored pl -> increasing_to_equator pl) ->
  length (fst out) = tri T -> length (snd out) = tri T -> length out1 = tri T -> length out2 = tri T ->
  exists z d, getvrtdivspec forward pl T ug vg weights basis dbasis sin_theta r old out = Some (z, d) /\
    getvrtspec forward pl T ug vg weights basis dbasis sin_theta r old1 out1 = Some z /\
    getdivspec forward pl T ug vg weights basis dbasis sin_theta r old2 out2 = Some d.
Proof.
  intros pl T ug vg weights basis dbasis sin_theta r old old1 old2 out out1 out2 OK O0 O1 O2 INC H1 H2 H3 H4.
  destruct (getvrtdivspec_ok pl T ug vg weights basis dbasis sin_theta r old OK O0 INC out H1 H2) as [z [d (E & Z & D)]].
  destruct (component_ok pl T ug vg weights basis dbasis sin_theta r old1 OK O1 INC 1 out1 H3) as [z' [E1 Z']].
  destruct (component_ok pl T ug vg weights basis dbasis sin_theta r old2 OK O2 INC 2 out2 H4) as [d' [E2 D']]. cbn [Nat.eqb] in Z', D'.
  exists z, d. split; [exact E|]. unfold getvrtspec, getdivspec. rewrite E1, E2. split; f_equal; eapply sums_unique; eassumption.
Qed.
Definition rest3 : waves := {| w_uc := repeat (repeat 0%R 3) 3; w_us := repeat (repeat 0%R 3) 3; w_vc := repeat (repeat 0%R 3) 3; w_vs := repeat (repeat 0%R 3) 3 |}.
Lemma vector3_ok ug vg : length ug = 20 -> length vg = 20 -> vector_ok [6; 8; 6] 2 ug vg weights3 table3 dtable3 sin3.
Proof.
  intros Hu Hv. split; try assumption; try apply sized3; try (intros _; first [apply parity3|apply dparity3|apply even3]); try reflexivity.
  intros j Hj. destruct (rows3 j Hj) as [E|[E|E]]; subst j; cbn; lia.
Qed.
Lemma rest3_ok : old_ok [6; 8; 6] rest3.
Proof. split; try reflexivity; intros l [<-|[<-|[<-|[]]]]; discriminate. Qed.
Lemma increasing3 : increasing_to_equator [6; 8; 6].
Proof. intros i j Hi Hj. cbn in Hj. assert (i = 1 /\ j = 1) as [-> ->] by lia. lia. Qed.
Example C78_vector_ex : vector_ok [6; 8; 6] 2 (repeat 1%R 20) (repeat 2%R 20) weights3 table3 dtable3 sin3 /\ old_ok [6; 8; 6] rest3 /\ increasing_to_equator [6; 8; 6].
Proof. split; [apply vector3_ok; reflexivity|]. split; [exact rest3_ok|exact increasing3]. Qed.

(** *** A mirrored grid whose rows do not grow towards the equator *)
(** The pair loop starts at the first pair that resolves m and runs on through
    pairs that do not; their Fourier coefficients of order m are whatever the
    cached array held, so two calls with the same arguments can differ. *)
Definition pl4 : list nat := [6; 4; 4; 6].
Definition row33 : list R := [0; 0; 0; 0; 0; 0; 0; 0; 0; 1]%R.
Definition basis4 : list (list R) := [row33; row33; row33; row33].
Definition dbasis4 : list (list R) := repeat (repeat 0%R 10) 4.
Definition old4 (x : R) : waves :=
  {| w_uc := [[0; 0; 0; 0]; [0; 0; 0; x]; [0; 0; 0; 0]; [0; 0; 0; 0]]%R; w_us := repeat (repeat 0%R 4) 4; w_vc := repeat (repeat 0%R 4) 4; w_vs := repeat (repeat 0%R 4) 4 |}.
Lemma forward_0 N : forward N (repeat 0%R N) = repeat 0%R N.
Proof.
  unfold forward. apply nth_ext with (d := 0%R) (d' := 0%R); [rewrite map_length, seq_length, repeat_length; reflexivity|].
  intros q Hq. rewrite map_length, seq_length in Hq. rewrite (nth_mapd _ _ _ _ 0%nat) by (rewrite seq_length; exact Hq). rewrite nth_repeat. cbv zeta.
  assert (Z : forall f, sumR N (fun i => nth i (repeat 0 N) 0 * f i)%R = 0%R) by (intros f; apply sumR_0; intros i _; rewrite nth_repeat; ring).
  rewrite !Z. destruct (andb _ _); ring.
Qed.
Definition ones4 : list R := [1; 1; 1; 1]%R.
Definition call4 (x : R) := getvrtdivspec forward pl4 3 (repeat 0%R 20) (repeat 0%R 20) ones4 basis4 dbasis4 ones4 1 (old4 x) (repeat (0, 0)%R 10, repeat (0, 0)%R 10).
Lemma stale x : exists z d, call4 x = Some (z, d) /\ snd (coef 3 d 3 3) = (3 * x)%R.
Proof.
  assert (F6 := forward_0 6). assert (F4 := forward_0 4). cbn -[forward] in F6, F4.
  unfold call4, getvrtdivspec.
  destruct (vector_coeffs forward pl4 3 (repeat 0%R 20) (repeat 0%R 20) (old4 x)) as [ws|] eqn:E;
    lazy -[Rplus Rmult Rdiv Rinv Ropp IZR INR forward] in E; rewrite F6, F4 in E; lazy -[Rplus Rmult Rdiv Rinv Ropp IZR INR forward] in E; [|discriminate].
  injection E as <-. lazy -[Rplus Rmult Rdiv Rinv Ropp IZR INR]. eexists. eexists. split; [reflexivity|]. cbn [nth snd INR]. field.
Qed.
Lemma rows4 j : 1 <= j <= 4 -> j = 1 \/ j = 2 \/ j = 3 \/ j = 4.
Proof. lia. Qed.
Lemma in_index T m n : m <= n <= T -> In (m, n) (pairs T).
Proof. intros H. apply pairs_in. exact H. Qed.
Ltac deg4 H := apply in_index in H; cbn in H; repeat (destruct H as [H|H]; [injection H as <- <-|]); [..|destruct H].
Lemma vector4_ok : vector_ok pl4 3 (repeat 0%R 20) (repeat 0%R 20) ones4 basis4 dbasis4 ones4.
Proof.
  split; try (intros _); try reflexivity.
  - intros j Hj. destruct (rows4 j Hj) as [E|[E|[E|E]]]; subst j; cbn; lia.
  - split; [reflexivity|]. intros l [<-|[<-|[<-|[<-|[]]]]]; reflexivity.
  - split; [reflexivity|]. intros l [<-|[<-|[<-|[<-|[]]]]]; reflexivity.
  - intros j m n Hj Hn. destruct (rows4 j Hj) as [E|[E|[E|E]]]; subst j; deg4 Hn; unfold entry, index; cbn -[Rmult Rplus IZR]; try ring.
  - intros j m n Hj Hn. destruct (rows4 j Hj) as [E|[E|[E|E]]]; subst j; deg4 Hn; unfold entry, index; cbn -[Rmult Rplus IZR]; try ring.
  - intros j Hj. destruct (rows4 j Hj) as [E|[E|[E|E]]]; subst j; reflexivity.
  - intros j Hj. destruct (rows4 j Hj) as [E|[E|[E|E]]]; subst j; reflexivity.
Qed.
Lemma old4_ok x : old_ok pl4 (old4 x).
Proof. split; try reflexivity; intros l [<-|[<-|[<-|[<-|[]]]]]; discriminate. Qed.
Theorem C78_contents_free_refuted : exists pl T ug vg weights basis dbasis sin_theta r old old' out,
  vector_ok pl T ug vg weights basis dbasis sin_theta /\ mirrored pl /\ old_ok pl old /\ old_ok pl old' /\ (forall j, 1 <= j <= length pl -> 4 <= row_len pl j) /\
  length (fst out) = tri T /\ length (snd out) = tri T /\
  getvrtdivspec forward pl T ug vg weights basis dbasis sin_theta r old out <> getvrtdivspec forward pl T ug vg weights basis dbasis sin_theta r old' out.
Proof.
  exists pl4, 3, (repeat 0%R 20), (repeat 0%R 20), ones4, basis4, dbasis4, ones4, 1%R, (old4 0), (old4 1), (repeat (0, 0)%R 10, repeat (0, 0)%R 10).
  split; [exact vector4_ok|]. split; [intros j Hj; destruct (rows4 j Hj) as [E|[E|[E|E]]]; subst j; reflexivity|].
  split; [apply old4_ok|]. split; [apply old4_ok|]. split; [intros j Hj; destruct (rows4 j Hj) as [E|[E|[E|E]]]; subst j; cbn; lia|]. split; [reflexivity|]. split; [reflexivity|].
  intros E. destruct (stale 0) as [z [d (E0 & V0)]]. destruct (stale 1) as [z' [d' (E1 & V1)]]. unfold call4 in E0, E1. rewrite E in E0. rewrite E1 in E0. injection E0 as -> ->. lra.
Qed.

(** ** C78: the operators of vector calculus *)
(** div grad = -n(n+1)/r^2 and curl grad = 0, coefficient by coefficient *)
Theorem C78_laplacian : forall pl T weights basis dbasis sin_theta r junk junk2 spec gout old out,
  gradient_ok pl T basis dbasis sin_theta r -> work_rows pl junk -> work_rows pl junk2 -> length spec = tri T -> length (fst gout) = list_sum pl -> length (snd gout) = list_sum pl ->
  length weights = length pl -> (mirrored pl -> even_rows (length pl) weights) -> old_ok pl old -> (mirrored pl -> increasing_to_equator pl) ->
  length (fst out) = tri T -> length (snd out) = tri T -> full_rows pl T -> gradient_orthogonal T (length pl) weights basis dbasis sin_theta ->
  exists u v z d, getgrad backward junk junk2 pl T spec basis dbasis sin_theta r gout = Some (u, v) /\
    getvrtdivspec forward pl T u v weights basis dbasis sin_theta r old out = Some (z, d) /\
    forall m n, m <= n <= T -> coef T z m n = (0, 0)%R /\
      coef T d m n = (let k := (- (INR n * (INR n + 1)) / (r * r))%R in let c := real_part_at_0 m (coef T spec m n) in (k * fst c, k * snd c)%R).
Proof.
  intros pl T weights basis dbasis sin_theta r junk junk2 spec gout old out OK J1 J2 Hs G1 G2 Hw WS OLD INC H1 H2 FULL ORTH.
  destruct (getgrad_ok pl T basis dbasis sin_theta r junk junk2 OK J1 J2 spec gout Hs G1 G2) as [[u v] (E & G)].
  assert (V : vector_ok pl T u v weights basis dbasis sin_theta).
  { destruct G as (L1 & L2 & _). cbn [fst snd] in *. destruct OK. split; assumption. }
  destruct (getvrtdivspec_ok pl T u v weights basis dbasis sin_theta r old V OLD INC out H1 H2) as [z [d (EV & Z & D)]].
  exists u, v, z, d. split; [exact E|]. split; [exact EV|].
  pose proof (gradient_dft pl T basis dbasis sin_theta r FULL spec (u, v) G) as GD. cbn [fst snd] in GD.
  intros m n Hn. split.
  - rewrite (sums_of_two pl T weights basis dbasis sin_theta r FULL u v _ z _ _ Z GD m n Hn). apply curl_grad; try assumption; apply OK.
  - rewrite (sums_of_two pl T weights basis dbasis sin_theta r FULL u v _ d _ _ D GD m n Hn). apply div_grad; try assumption; apply OK.
Qed.

(** Vorticity and divergence of getuv's winds: the given spectra, without the
    (0, 0) coefficient and the imaginary parts of order 0. *)
Theorem C78_winds : forall pl T weights basis dbasis sin_theta r j1 j2 j3 j4 zspec dspec f1 f2 gout old out,
  gradient_ok pl T basis dbasis sin_theta r -> work_rows pl j1 -> work_rows pl j2 -> work_rows pl j3 -> work_rows pl j4 ->
  length zspec = tri T -> length dspec = tri T -> length f1 = tri T -> length f2 = tri T -> (Z.of_nat (tri T) < 2 ^ 31)%Z ->
  length (fst (fst gout)) = list_sum pl -> length (snd (fst gout)) = list_sum pl -> length (fst (snd gout)) = list_sum pl -> length (snd (snd gout)) = list_sum pl ->
  length weights = length pl -> (mirrored pl -> even_rows (length pl) weights) -> old_ok pl old -> (mirrored pl -> increasing_to_equator pl) ->
  length (fst out) = tri T -> length (snd out) = tri T -> full_rows pl T -> gradient_orthogonal T (length pl) weights basis dbasis sin_theta ->
  exists u v z d, getuv backward j1 j2 j3 j4 pl T zspec dspec f1 f2 basis dbasis sin_theta r gout = Some (u, v) /\ length u = list_sum pl /\ length v = list_sum pl /\
    getvrtdivspec forward pl T u v weights basis dbasis sin_theta r old out = Some (z, d) /\
    forall m n, m <= n <= T ->
      coef T z m n = (if n =? 0 then (0, 0)%R else real_part_at_0 m (coef T zspec m n)) /\
      coef T d m n = (if n =? 0 then (0, 0)%R else real_part_at_0 m (coef T dspec m n)).
Proof.
  intros pl T weights basis dbasis sin_theta r j1 j2 j3 j4 zspec dspec f1 f2 gout old out OK J1 J2 J3 J4 Hz Hd Hf1 Hf2 H31 O1 O2 O3 O4 Hw WS OLD INC H1 H2 FULL ORTH.
  destruct (invlap_coef T r zspec f1) as [psi (EP & LP & P)]; [split; assumption|unfold RS_Model.C in *; lia|].
  destruct (invlap_coef T r dspec f2) as [chi (EC & LC & CH)]; [split; assumption|unfold RS_Model.C in *; lia|].
  destruct (getgrad_pair_ok pl T basis dbasis sin_theta r j1 j2 j3 j4 OK J1 J2 J3 J4 chi psi gout LC LP O1 O2 O3 O4) as [[[uc vc] [up vp]] (E & GC & GP)]. cbn [fst snd] in *.
  assert (LGC := GC). assert (LGP := GP). destruct LGC as (LC1 & LC2 & _). destruct LGP as (LP1 & LP2 & _). cbn [fst snd] in *.
  set (u := array_sub uc vp). set (v := array_add vc up).
  assert (LU : length u = list_sum pl) by (unfold u; rewrite array_sub_length; congruence).
  assert (LV : length v = list_sum pl) by (unfold v; rewrite array_add_length; congruence).
  assert (VK : vector_ok pl T u v weights basis dbasis sin_theta) by (destruct OK; split; assumption).
  destruct (getvrtdivspec_ok pl T u v weights basis dbasis sin_theta r old VK OLD INC out H1 H2) as [z [d (EV & Z & D)]].
  exists u, v, z, d. split; [unfold getuv; unfold RS_Model.C in *; cbn in *; rewrite EP; cbn [bind]; rewrite EC; cbn [bind]; rewrite E; reflexivity|].
  split; [exact LU|]. split; [exact LV|]. split; [exact EV|].
  pose proof (gradient_dft pl T basis dbasis sin_theta r FULL chi (uc, vc) GC) as DC. pose proof (gradient_dft pl T basis dbasis sin_theta r FULL psi (up, vp) GP) as DP. cbn [fst snd] in DC, DP.
  assert (UV : forall j m, 1 <= j <= length pl -> m <= T ->
    row_dft pl u j m = cadd (east_row T basis sin_theta r chi j m) (copp (north_row T dbasis r psi j m)) /\
    row_dft pl v j m = cadd (north_row T dbasis r chi j m) (east_row T basis sin_theta r psi j m)).
  { intros j m Hj Hm. unfold u, v. rewrite dft_sub, dft_add by assumption. destruct (DC j m Hj Hm) as [-> ->]. destruct (DP j m Hj Hm) as [-> ->]. auto. }
  assert (Hr : r <> 0%R) by apply OK.
  assert (HS : forall j, 1 <= j <= length pl -> row_value sin_theta j <> 0%R) by apply OK.
  assert (K : forall (k : C -> R) spec sp m n, m <= n <= T ->
     coef T sp m n = (if n =? 0 then (0, 0)%R else (- (r * r) / (INR n * (INR n + 1)) * fst (coef T spec m n), - (r * r) / (INR n * (INR n + 1)) * snd (coef T spec m n))%R) ->
     (let k := (- (INR n * (INR n + 1)) / (r * r))%R in let c := real_part_at_0 m (coef T sp m n) in (k * fst c, k * snd c)%R) =
     (if n =? 0 then (0, 0)%R else real_part_at_0 m (coef T spec m n))).
  { intros _ spec sp m n Hn EE. rewrite EE. unfold real_part_at_0. destruct (Nat.eqb_spec n 0) as [->|Hn0].
    - cbn [fst snd INR]. f_equal; [unfold Rdiv; ring|]. destruct (m =? 0); cbn; unfold Rdiv; ring.
    - assert (0 < INR n)%R by (apply lt_0_INR; lia). cbn [fst snd]. f_equal; [field; lra|]. destruct (m =? 0); [ring|]. field; lra. }
  intros m n Hn. split.
  - rewrite (sums_of_two pl T weights basis dbasis sin_theta r FULL u v _ z _ _ Z UV m n Hn).
    rewrite (two_ext pl _ (fun j => cadd (term_of T weights basis dbasis sin_theta r vorticity_term m n (fun j => east_row T basis sin_theta r chi j m) (fun j => north_row T dbasis r chi j m) j)
       (term_of T weights basis dbasis sin_theta r divergence_term m n (fun j => east_row T basis sin_theta r psi j m) (fun j => north_row T dbasis r psi j m) j))) by (intros j _; apply vrt_rotated).
    rewrite two_add. rewrite curl_grad, div_grad by assumption. rewrite (K fst zspec psi m n Hn (P m n Hn)). unfold cadd. cbn [fst snd]. rewrite !Rplus_0_l. symmetry. apply surjective_pairing.
  - rewrite (sums_of_two pl T weights basis dbasis sin_theta r FULL u v _ d _ _ D UV m n Hn).
    rewrite (two_ext pl _ (fun j => cadd (term_of T weights basis dbasis sin_theta r divergence_term m n (fun j => east_row T basis sin_theta r chi j m) (fun j => north_row T dbasis r chi j m) j)
       (copp (term_of T weights basis dbasis sin_theta r vorticity_term m n (fun j => east_row T basis sin_theta r psi j m) (fun j => north_row T dbasis r psi j m) j)))) by (intros j _; apply div_rotated).
    rewrite two_add, two_opp. rewrite curl_grad, div_grad by assumption. rewrite (K fst dspec chi m n Hn (CH m n Hn)). unfold cadd, copp. cbn [fst snd]. rewrite !Ropp_0, !Rplus_0_r. symmetry. apply surjective_pairing.
Qed.
Example C78_winds_ex : full_rows [6; 8; 6] 2 /\ gradient_orthogonal 2 3 weights3 table3 dtable3 sin3 /\ even_rows 3 weights3 /\ list_sum [6; 8; 6] = 20 /\ tri 2 = 6.
Proof.
  split; [|split; [exact gradient3|split; [apply even3|split; reflexivity]]].
  intros j Hj. destruct (rows3 j Hj) as [E|[E|E]]; subst j; cbn; lia.
Qed.

(** ** C79: caches *)
(** Whatever was looked up before, _basis (and _dbasis) returns the kernel's
    table of this truncation, the global cache never outgrows its limit and the
    two caches only ever hold tables of their keys. *)
Fixpoint requests {V} (compute : nat -> nat -> option V) (mx nlat : nat) (ts : list nat) (st : @dict V nat * @dict V (nat * nat))
    : option (list (option V) * (@dict V nat * @dict V (nat * nat))) :=
  match ts with
  | [] => Some ([], st)
  | t :: rest => let* a := basis_get compute mx nlat t st in
                 let* b := requests compute mx nlat rest (snd a) in Some (fst a :: fst b, snd b)
  end.
Theorem C79_basis_cache : forall V (compute : nat -> nat -> option V) mx nlat ts (glob : @dict V (nat * nat)), 1 <= mx -> length glob <= mx ->
  (forall k v, In (k, v) glob -> compute (fst k) (snd k) = Some v) ->
  exists st, requests compute mx nlat ts ([], glob) = Some (map (compute nlat) ts, st) /\ length (snd st) <= mx /\
    (forall k v, In (k, v) (snd st) -> compute (fst k) (snd k) = Some v) /\ (forall k v, In (k, v) (fst st) -> compute nlat k = Some v).
Proof.
  intros V compute mx nlat ts glob HM HL F.
  assert (G : forall ts (loc : @dict V nat) (glob : @dict V (nat * nat)), length glob <= mx -> faithful (compute nlat) loc -> faithful (fun k => compute (fst k) (snd k)) glob ->
    exists st, requests compute mx nlat ts (loc, glob) = Some (map (compute nlat) ts, st) /\ length (snd st) <= mx /\
      faithful (fun k => compute (fst k) (snd k)) (snd st) /\ faithful (compute nlat) (fst st)).
  { clear ts glob HL F. induction ts as [|t ts IH]; intros loc glob HL F1 F2; cbn [requests map]; [exists (loc, glob); auto|].
    destruct (basis_get_ok compute mx nlat t loc glob HM HL F1 F2) as [loc' [glob' (E & F1' & F2' & HL')]]. rewrite E. cbn [bind snd fst].
    destruct (IH loc' glob' HL' F1' F2') as [st (E' & A & B & D)]. rewrite E'. cbn [bind fst snd]. exists st. auto. }
  apply (G ts [] glob HL); [intros k v []|exact F].
Qed.
Example C79_basis_cache_ex : requests (fun a b => if 2 <=? b then Some (a + b) else None) 2 10 [3; 4; 3; 5; 1; 4] ([], []) =
  Some ([Some 13; Some 14; Some 13; Some 15; None; Some 14], ([(3, 13); (4, 14); (5, 15)], [((10, 4), 14); ((10, 5), 15)])).
Proof. reflexivity. Qed.
(** The Fortran caches: after a successful preparation the plans are those of
    this grid's rows, whatever the sequence of earlier calls and failures, and
    the vector arrays are large enough. *)
Fixpoint prepared {Plan} (hrffti : nat -> Plan) (calls : list (list nat * bool)) (c : option (@fft_cache Plan)) : list Z * option (@fft_cache Plan) :=
  match calls with
  | [] => ([], c)
  | (pl, alloc) :: rest => let r := prepare_fft_cache hrffti pl alloc c in
                           let r' := prepared hrffti rest (snd r) in (fst r :: fst r', snd r')
  end.
Theorem C79_fft_cache : forall Plan (hrffti : nat -> Plan) calls pl alloc code c,
  prepare_fft_cache hrffti pl alloc (snd (prepared hrffti calls None)) = (code, c) ->
  (code = 0%Z -> exists k, c = Some k /\ fc_pl k = pl /\ fc_plan k = map hrffti pl) /\
  (code = 0%Z \/ code = 1%Z \/ code = 2%Z) /\ (code = 1%Z <-> pl = [] \/ exists p, In p pl /\ p < 1).
Proof.
  intros Plan hrffti calls pl alloc code c H.
  assert (INV : forall calls c0, (forall k, c0 = Some k -> fc_plan k = map hrffti (fc_pl k)) -> forall k, snd (prepared hrffti calls c0) = Some k -> fc_plan k = map hrffti (fc_pl k)).
  { clear. induction calls as [|[pl alloc] rest IH]; intros c0 H0; cbn [prepared snd]; [exact H0|]. apply IH.
    destruct (prepare_fft_cache hrffti pl alloc c0) as [code c'] eqn:E. cbn [snd]. apply (prepare_fft_ok hrffti pl alloc c0 code c' H0 E). }
  split; [|split].
  - apply (prepare_fft_ok hrffti pl alloc _ code c (INV calls None ltac:(discriminate)) H).
  - revert H. unfold prepare_fft_cache. destruct (orb _ _); [intros E; injection E as <- <-; auto|]. cbv zeta. destruct (match snd _ with Some _ => _ | None => _ end); [intros E; injection E as <- <-; auto|].
    destruct alloc; intros E; injection E as <- <-; auto.
  - assert (B : orb (length pl =? 0) (existsb (fun p => p <? 1) pl) = true <-> pl = [] \/ exists p, In p pl /\ p < 1).
    { rewrite orb_true_iff, Nat.eqb_eq, existsb_exists. split; (intros [A|[p [I L]]]; [left; destruct pl; [reflexivity|discriminate] || (subst; reflexivity)|right; exists p; split; [exact I|apply Nat.ltb_lt; exact L]]). }
    rewrite <- B. revert H. unfold prepare_fft_cache. destruct (orb _ _) eqn:E0; [intros E; injection E as <- <-; tauto|]. cbv zeta. destruct (match snd _ with Some _ => _ | None => _ end).
    + intros E; injection E as <- <-. split; discriminate.
    + destruct alloc; intros E; injection E as <- <-; split; discriminate.
Qed.
Example C79_fft_cache_ex : let r := prepared (fun n => n * 10) [([4; 6], true); ([4; 6], false); (cons 8 nil, false); ([6; 8; 6], true)] None in
  fst r = [0; 0; 2; 0]%Z /\ option_map fc_plan (snd r) = Some [60; 80; 60].
Proof. split; reflexivity. Qed.
Theorem C79_vector_cache : forall nlat T alloc c code c', prepare_vector_cache nlat T alloc c = (code, c') ->
  (code = 0%Z -> exists b, c' = Some (nlat, b) /\ T <= b) /\ (code = 2%Z -> c' = None).
Proof.
  intros nlat T alloc c code c' H. split; [apply (prepare_vector_ok nlat T alloc c code c' H)|].
  revert H. unfold prepare_vector_cache. destruct (nlat <? 1); [intros E; injection E as <- <-; discriminate|].
  destruct (match c with Some _ => _ | None => _ end); [intros E; injection E as <- <-; discriminate|]. destruct alloc; intros E; injection E as <- <-; [discriminate|reflexivity].
Qed.
Example C79_vector_cache_ex : prepare_vector_cache 64 21 false (Some (64, 42)) = (0%Z, Some (64, 42)) /\ prepare_vector_cache 64 50 true (Some (64, 42)) = (0%Z, Some (64, 50)).
Proof. split; reflexivity. Qed.

(** ** C79: output precision *)
(** precision = "auto" is documented as following the highest input precision *)
Definition highest (inputs : list dtype) : dtype := if in_dec (fun a b : dtype => ltac:(decide equality) : {a = b} + {a <> b}) Double inputs then Double else Single.
Theorem C79_precision_partial : forall op inputs,
  (output_dtype SingleMode op inputs = Single) /\ (output_dtype DoubleMode op inputs = Double) /\
  (match op with Op_grdtospec | Op_spectogrd | Op_getuv | Op_invlapspec => output_dtype Auto op inputs = Single
               | _ => output_dtype Auto op inputs = highest inputs end).
Proof.
  intros op inputs.
  assert (A : public_dtype Auto inputs = highest inputs).
  { unfold public_dtype, highest. destruct (in_dec _ Double inputs) as [I|I].
    - assert (E : existsb (fun d => match d with Double => true | Single => false end) inputs = true) by (apply existsb_exists; exists Double; auto). rewrite E. reflexivity.
    - destruct (existsb _ inputs) eqn:E; [|reflexivity]. apply existsb_exists in E. destruct E as [[|] [I2 E]]; [discriminate|contradiction]. }
  assert (B : public_dtype Auto (map validated inputs) = Single).
  { unfold public_dtype. destruct (existsb _ _) eqn:E; [|reflexivity]. apply existsb_exists in E. destruct E as [d [I E]]. apply in_map_iff in I. destruct I as [x [<- _]]. discriminate. }
  destruct op; cbn [output_dtype]; rewrite ?A, ?B; auto.
Qed.
Theorem C79_precision_refuted : exists op inputs, output_dtype Auto op inputs <> highest inputs.
Proof. exists Op_spectogrd, (cons Double nil). vm_compute. discriminate. Qed.
Example C79_precision_ex : output_dtype Auto Op_getgrad (cons Double nil) = Double /\ output_dtype Auto Op_getvrtdivspec [Single; Double] = Double /\ output_dtype Auto Op_grdtospec (cons Double nil) = Single.
Proof. repeat split; reflexivity. Qed.

Print Assumptions C78_getgrad.
Print Assumptions C78_getgrad_pair.
Print Assumptions C78_getvrtdivspec_partial.
Print Assumptions C78_components_partial.
Print Assumptions C78_contents_free_refuted.
Print Assumptions C78_laplacian.
Print Assumptions C78_winds.
Print Assumptions C79_basis_cache.
Print Assumptions C79_fft_cache.
Print Assumptions C79_vector_cache.
Print Assumptions C79_precision_partial.
Print Assumptions C79_precision_refuted.
