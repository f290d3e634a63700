(** Vector analysis on the packed grid. *)
From Coq Require Import Reals List Arith Lia Lra Bool ZArith.
From Verif Require Import Base Buffer VH_Model VH_Proofs SH_Spec SH_Proofs RS_Model RS_Spec RS_Dft RS_Proofs1 RS_Proofs2 RS_Proofs3 RS_Proofs5.
Import ListNotations.
Local Open Scope nat_scope.

Lemma quad_eq a b : d_re a = d_re b -> d_im a = d_im b -> z_re a = z_re b -> z_im a = z_im b -> a = b.
Proof. destruct a, b. cbn. intros -> -> -> ->. reflexivity. Qed.
Fixpoint sumQ (n : nat) (f : nat -> quad) : quad := match n with O => qzero | S k => qadd (sumQ k f) (f k) end.
Lemma sumQ_proj (pr : quad -> R) : pr qzero = 0%R -> (forall a b, pr (qadd a b) = (pr a + pr b)%R) -> forall n f, pr (sumQ n f) = sumR n (fun k => pr (f k)).
Proof. intros Z A n f. induction n; cbn [sumQ sumR]; [exact Z|]. rewrite A, IHn. reflexivity. Qed.
Ltac projections := rewrite ?(sumQ_proj d_re), ?(sumQ_proj d_im), ?(sumQ_proj z_re), ?(sumQ_proj z_im) by reflexivity.

Lemma sumR_pairs n f : sumR n f = (sumR (n / 2) (fun k => f k + f (n - 1 - k)%nat) + if Nat.odd n then f (n / 2)%nat else 0)%R.
Proof.
  pose proof (Nat.div_mod n 2 ltac:(lia)) as DM. pose proof (Nat.mod_upper_bound n 2 ltac:(lia)) as MB. set (h := n / 2) in *.
  rewrite sumR_plus. destruct (Nat.odd n) eqn:O.
  - assert (n mod 2 = 1). { destruct (Nat.eq_dec (n mod 2) 0) as [E|]; [|lia]. exfalso. assert (Nat.even n = true) by (replace n with (2 * h) by lia; apply even_double). rewrite <- Nat.negb_odd, O in H. discriminate. }
    assert (E : n = S h + h) by lia. rewrite E at 1. rewrite sumR_split. cbn [sumR].
    rewrite (sumR_rev h (fun k => f (S h + k))). rewrite (sumR_ext h (fun k => f (S h + (h - 1 - k))) (fun k => f (n - 1 - k))) by (intros k Hk; f_equal; lia). ring.
  - assert (n mod 2 = 0). { destruct (Nat.eq_dec (n mod 2) 0) as [E|]; [auto|]. exfalso. assert (Nat.even n = false) by (replace n with (2 * h + 1) by lia; apply even_double_S). rewrite <- Nat.negb_odd, O in H. discriminate. }
    assert (E : n = h + h) by lia. rewrite E at 1. rewrite sumR_split.
    rewrite (sumR_rev h (fun k => f (h + k))). rewrite (sumR_ext h (fun k => f (h + (h - 1 - k))) (fun k => f (n - 1 - k))) by (intros k Hk; f_equal; lia). ring.
Qed.
Lemma sumQ_pairs n f : sumQ n f = qadd (sumQ (n / 2) (fun k => qadd (f k) (f (n - 1 - k)))) (if Nat.odd n then f (n / 2) else qzero).
Proof.
  apply quad_eq; [rewrite (sumQ_proj d_re) by reflexivity; rewrite (sumR_pairs n (fun k => d_re (f k)))
                 |rewrite (sumQ_proj d_im) by reflexivity; rewrite (sumR_pairs n (fun k => d_im (f k)))
                 |rewrite (sumQ_proj z_re) by reflexivity; rewrite (sumR_pairs n (fun k => z_re (f k)))
                 |rewrite (sumQ_proj z_im) by reflexivity; rewrite (sumR_pairs n (fun k => z_im (f k)))];
  cbn [qadd d_re d_im z_re z_im]; projections; cbn [qadd d_re d_im z_re z_im]; destruct (Nat.odd n); reflexivity.
Qed.
Lemma sumQ_ext n f g : (forall k, k < n -> f k = g k) -> sumQ n f = sumQ n g.
Proof. intros H. induction n; cbn [sumQ]; [reflexivity|]. rewrite IHn by (intros; apply H; lia). rewrite H by lia. reflexivity. Qed.
Lemma sumQ_skip a n f : (forall k, k < a -> f k = qzero) -> sumQ (a + n) f = sumQ n (fun k => f (a + k)).
Proof.
  intros H.
  assert (G : sumQ a f = qzero).
  { clear n. induction a; cbn [sumQ]; [reflexivity|]. rewrite IHa by (intros; apply H; lia). rewrite H by lia. apply quad_eq; cbn; ring. }
  induction n; [rewrite Nat.add_0_r; exact G|]. rewrite Nat.add_succ_r. cbn [sumQ]. rewrite IHn. reflexivity.
Qed.
Lemma qadd_zero_l q : qadd qzero q = q.
Proof. apply quad_eq; cbn; ring. Qed.
Lemma qadd_assoc a b c : qadd (qadd a b) c = qadd a (qadd b c).
Proof. apply quad_eq; cbn; ring. Qed.
Lemma qadd_zero_r q : qadd q qzero = q.
Proof. apply quad_eq; cbn; ring. Qed.

(** ** The visits *)
Definition good_visits (flag : nat -> nat -> bool) (visits : nat -> nat -> list (nat * bool)) : Prop := forall T m, m <= T ->
  NoDup (map fst (visits T m)) /\ (forall n, In n (map fst (visits T m)) <-> m <= n <= T) /\ (forall v, In v (visits T m) -> snd v = flag m (fst v)).
Definition even_flag (m n : nat) : bool := Nat.even (n - m).

Lemma nodup_lists {A} (f : nat -> A) l : (forall x y, f x = f y -> x = y) -> NoDup l -> NoDup (map f l).
Proof. intros H N. apply FinFun.Injective_map_NoDup; [exact H|exact N]. Qed.

Lemma row_visits_good : good_visits (fun _ _ => true) row_visits.
Proof.
  intros T m Hm. unfold row_visits. rewrite map_map. cbn [fst]. rewrite map_id. split; [apply seq_NoDup|]. split.
  - intros n. rewrite in_seq. lia.
  - intros v Hv. apply in_map_iff in Hv. destruct Hv as [n [<- _]]. reflexivity.
Qed.

Lemma flat_pairs m k : map fst (flat_map (fun i => [(m + 2 * i, true); (m + 2 * i + 1, false)]) (seq 0 k)) = seq m (2 * k).
Proof.
  induction k; [reflexivity|]. rewrite seq_S, flat_map_app, map_app, IHk. cbn [flat_map map fst app Nat.add].
  replace (2 * S k) with (2 * k + 2) by lia. rewrite seq_app. cbn [seq]. do 3 f_equal. lia.
Qed.
Lemma pair_visits_list T m : m <= T -> map fst (pair_visits T m) = seq m (T + 1 - m).
Proof.
  intros Hm. unfold pair_visits. rewrite map_app, flat_pairs. pose proof (Nat.div_mod (T - m) 2 ltac:(lia)) as DM.
  pose proof (Nat.mod_upper_bound (T - m) 2 ltac:(lia)). destruct (Nat.eqb_spec ((T - m) mod 2) 0) as [E|E].
  - assert ((T - m + 1) / 2 = (T - m) / 2). { symmetry. apply (Nat.div_unique _ 2 _ 1); lia. }
    rewrite H0. cbn [map fst]. replace (T + 1 - m) with (2 * ((T - m) / 2) + 1) by lia. rewrite seq_app. cbn [seq]. do 2 f_equal. lia.
  - assert ((T - m + 1) / 2 = (T - m) / 2 + 1). { symmetry. apply (Nat.div_unique _ 2 _ 0); lia. }
    rewrite H0. cbn [map]. rewrite app_nil_r. f_equal. lia.
Qed.
Lemma pair_visits_good : good_visits even_flag pair_visits.
Proof.
  intros T m Hm. rewrite pair_visits_list by assumption. split; [apply seq_NoDup|]. split; [intros n; rewrite in_seq; lia|].
  intros [n b] Hv. unfold pair_visits in Hv. apply in_app_or in Hv. unfold even_flag. cbn [fst snd]. destruct Hv as [Hv|Hv].
  - apply in_flat_map in Hv. destruct Hv as [i [_ Hv]]. destruct Hv as [Hv|[Hv|[]]]; apply pair_equal_spec in Hv; destruct Hv as [<- <-].
    + replace (m + 2 * i - m) with (2 * i) by lia. symmetry. apply even_double.
    + replace (m + 2 * i + 1 - m) with (2 * i + 1) by lia. symmetry. apply even_double_S.
  - destruct (Nat.eqb_spec ((T - m) mod 2) 0) as [E|E]; [|contradiction]. destruct Hv as [Hv|[]]. apply pair_equal_spec in Hv. destruct Hv as [<- <-].
    symmetry. apply Nat.mod_divides in E; [|lia]. destruct E as [c Ec]. rewrite Ec. apply even_double.
Qed.
Lemma nodup_app {X} (l k : list X) : NoDup l -> NoDup k -> (forall x, In x l -> ~ In x k) -> NoDup (l ++ k).
Proof.
  induction l as [|a l IH]; intros Hl Hk D; [exact Hk|]. inversion Hl; subst. cbn. constructor.
  - rewrite in_app_iff. intros [H|H]; [contradiction|]. apply (D a); [left; reflexivity|exact H].
  - apply IH; auto. intros x Hx. apply D. right. exact Hx.
Qed.
Lemma split_visits_good : good_visits even_flag split_visits.
Proof.
  intros T m Hm. unfold split_visits. rewrite map_app, !map_map. cbn [fst].
  pose proof (Nat.div_mod (T - m) 2 ltac:(lia)) as DM. pose proof (Nat.mod_upper_bound (T - m) 2 ltac:(lia)).
  pose proof (Nat.div_mod (T - m + 1) 2 ltac:(lia)) as DM2. pose proof (Nat.mod_upper_bound (T - m + 1) 2 ltac:(lia)).
  split; [|split].
  - apply nodup_app; [apply nodup_lists; [lia|apply seq_NoDup]|apply nodup_lists; [lia|apply seq_NoDup]|].
    intros x H1 H2. apply in_map_iff in H1, H2. destruct H1 as [i [E1 _]], H2 as [k [E2 _]]. lia.
  - intros n. rewrite in_app_iff, !in_map_iff. split.
    + intros [[i [<- Hi]]|[i [<- Hi]]]; apply in_seq in Hi; lia.
    + intros Hn. pose proof (Nat.div_mod (n - m) 2 ltac:(lia)) as D3. pose proof (Nat.mod_upper_bound (n - m) 2 ltac:(lia)).
      destruct (Nat.eq_dec ((n - m) mod 2) 0) as [E|E].
      * left. exists ((n - m) / 2). split; [lia|]. apply in_seq. lia.
      * right. exists ((n - m) / 2). split; [lia|]. apply in_seq. lia.
  - intros [n b] Hv. unfold even_flag. cbn [fst snd]. apply in_app_or in Hv. destruct Hv as [Hv|Hv]; apply in_map_iff in Hv; destruct Hv as [i [Hv _]]; apply pair_equal_spec in Hv; destruct Hv as [<- <-].
    + replace (m + 2 * i - m) with (2 * i) by lia. symmetry. apply even_double.
    + replace (m + 1 + 2 * i - m) with (2 * i + 1) by lia. symmetry. apply even_double_S.
Qed.

(** One row over its degrees *)
Lemma over_degrees_ok T m prow drow trm visits flag a : m <= T -> length prow = tri T -> length drow = tri T -> good_visits flag visits ->
  exists a', over_degrees T m prow drow trm (visits T m) a = Some a' /\
    forall n, m <= n <= T -> a' n = qadd (a n) (trm (flag m n) (nth (index T m n) prow 0%R) (nth (index T m n) drow 0%R)).
Proof.
  intros Hm HP HD GV. destruct (GV T m Hm) as (ND & IN & FL). unfold over_degrees. remember (visits T m) as l.
  assert (IN' : forall n, In n (map fst l) -> m <= n <= T) by (intros n; apply IN).
  assert (G : exists a', foldM (fun a (v : nat * bool) => let n := fst v in let nm := spectral_offset m T + n - m + 1 in
      let* p := rd prow nm in let* d := rd drow nm in if n <=? T then Some (add_at a n (trm (snd v) p d)) else None) l a = Some a' /\
    forall n, (In n (map fst l) -> a' n = qadd (a n) (trm (flag m n) (nth (index T m n) prow 0%R) (nth (index T m n) drow 0%R))) /\ (~ In n (map fst l) -> a' n = a n)).
  { clear IN Heql. revert a. induction l as [|[n b] l IH]; intros a.
    - exists a. split; [reflexivity|]. intros n. split; [intros []|reflexivity].
    - cbn [foldM fst snd]. assert (Hn : m <= n <= T) by (apply IN'; left; reflexivity).
      assert (E : spectral_offset m T + n - m + 1 = S (index T m n)) by (rewrite <- (offset_index T m n Hn); lia). cbv zeta. rewrite E.
      cbn [rd]. pose proof (index_lt T m n Hn) as LT. rewrite (nth_error_nth' prow 0%R) by lia. rewrite (nth_error_nth' drow 0%R) by lia. cbn [bind].
      destruct (Nat.leb_spec n T); [|lia]. pose proof (FL (n, b) (or_introl eq_refl)) as Fb. cbn [fst snd] in Fb. subst b.
      cbn [map fst] in ND. inversion ND as [|x y N1 N2]; subst.
      destruct (IH N2 (fun v Hv => FL v (or_intror Hv)) (fun k Hk => IN' k (or_intror Hk)) (add_at a n (trm (flag m n) (nth (index T m n) prow 0%R) (nth (index T m n) drow 0%R)))) as [a' [E1 P1]].
      exists a'. split; [exact E1|]. intros k. destruct (P1 k) as [Pin Pout]. split.
      + intros [Hk|Hk].
        * cbn [fst] in Hk. subst k. rewrite Pout by exact N1. unfold add_at. rewrite Nat.eqb_refl. reflexivity.
        * rewrite Pin by exact Hk. f_equal. unfold add_at. destruct (Nat.eqb_spec k n) as [->|]; [contradiction|reflexivity].
      + intros Hk. rewrite Pout by (intros C'; apply Hk; right; exact C'). unfold add_at. destruct (Nat.eqb_spec k n) as [->|]; [exfalso; apply Hk; left; reflexivity|reflexivity]. }
  destruct G as [a' [E P]]. exists a'. split; [exact E|]. intros n Hn. apply P. apply IN. exact Hn.
Qed.

(** ** The rows *)
Record vector_ok (pl : list nat) (T : nat) (ugrid vgrid weights : list R) (basis dbasis : list (list R)) (sin_theta : list R) : Prop := {
  vo_rows : forall j, 1 <= j <= length pl -> 1 <= row_len pl j;
  vo_u : length ugrid = list_sum pl;
  vo_v : length vgrid = list_sum pl;
  vo_weights : length weights = length pl;
  vo_sin : length sin_theta = length pl;
  vo_basis : sized (length pl) (tri T) basis;
  vo_dbasis : sized (length pl) (tri T) dbasis;
  vo_parity : mirrored pl -> has_parity T (length pl) 1 basis;
  vo_dparity : mirrored pl -> has_parity T (length pl) (-1) dbasis;
  vo_wsym : mirrored pl -> even_rows (length pl) weights;
  vo_ssym : mirrored pl -> even_rows (length pl) sin_theta }.
Record old_ok (pl : list nat) (old : waves) : Prop := {
  oo_uc : length (w_uc old) = length pl;
  oo_us : length (w_us old) = length pl;
  oo_vc : length (w_vc old) = length pl;
  oo_vs : length (w_vs old) = length pl;
  oo_us1 : forall l, In l (w_us old) -> l <> [];
  oo_vs1 : forall l, In l (w_vs old) -> l <> [] }.

Lemma vector_row_ok pl T grid oc os j : length grid = list_sum pl -> 1 <= j <= length pl -> 1 <= row_len pl j -> os <> [] ->
  exists c, vector_row forward pl T grid oc os j = Some c /\
    (forall m, m <= mlimit T (row_len pl j) -> rd (fst c) (S m) = Some (fst (row_dft pl grid j m))) /\
    (forall m, 1 <= m <= mlimit T (row_len pl j) -> rd (snd c) (S m) = Some (- snd (row_dft pl grid j m))%R).
Proof.
  intros HG Hj HR Hos. unfold vector_row. rewrite pl_rd by assumption. cbn [bind]. rewrite offsets_rd by lia. cbn [bind].
  rewrite row_fft_ok by assumption. cbn [bind]. set (N := row_len pl j) in *. fold (values N (point pl grid j)).
  rewrite fwd_mean by assumption. cbn [bind]. pose proof (mlimit_bound T N).
  rewrite (mapM_seq1 _ (fun m => fst (dft N (point pl grid j) m))) by (intros m Hm; apply row_cos_ok; lia). cbn [bind].
  rewrite (mapM_seq1 _ (fun m => (-1 * snd (dft N (point pl grid j) m))%R)) by (intros m Hm; apply row_sin_ok; lia). cbn [bind].
  eexists. split; [reflexivity|]. cbn [fst snd]. unfold row_dft. fold N. split; intros m Hm.
  - rewrite overlay_rd by (cbn [length]; rewrite map_length, seq_length; lia). rewrite rd_cons_seq by lia.
    destruct (Nat.eqb_spec m 0) as [->|]; f_equal. field. pose proof (INR_pos N HR). lra.
  - destruct os as [|o0 rest]; [contradiction|]. cbn [overlay_sin].
    transitivity (rd (overlay (map (fun m0 => (-1 * snd (dft N (point pl grid j) m0))%R) (seq 1 (mlimit T N))) rest) m).
    { destruct m; [lia|]. reflexivity. }
    rewrite overlay_rd by (rewrite map_length, seq_length; lia). destruct m; [lia|]. cbn [rd].
    rewrite (nth_error_nth' _ 0%R) by (rewrite map_length, seq_length; lia). f_equal.
    rewrite (nth_mapd _ _ _ _ 0) by (rewrite seq_length; lia). rewrite seq_nth by lia. replace (1 + m) with (S m) by lia. ring.
Qed.

Section Vector.
Variables (pl : list nat) (T : nat) (ugrid vgrid weights : list R) (basis dbasis : list (list R)) (sin_theta : list R) (r : R) (old : waves).
Hypothesis OK : vector_ok pl T ugrid vgrid weights basis dbasis sin_theta.
Hypothesis OLD : old_ok pl old.

Definition waveof (j m : nat) : wave :=
  {| uc := fst (row_dft pl ugrid j m); us := - snd (row_dft pl ugrid j m); vc := fst (row_dft pl vgrid j m); vs := - snd (row_dft pl vgrid j m) |}.
Definition meanof (j : nat) : wave := {| uc := fst (row_dft pl ugrid j 0); us := 0; vc := fst (row_dft pl vgrid j 0); vs := 0 |}.

Lemma rd_map_nth {A B} (f : A -> B) l j y : rd l j = Some y -> rd (map f l) j = Some (f y).
Proof. intros H. destruct j; [discriminate|]. cbn [rd] in *. apply map_nth_error. exact H. Qed.

Lemma vector_coeffs_ok : exists ws, vector_coeffs forward pl T ugrid vgrid old = Some ws /\
  (forall j m, 1 <= j <= length pl -> 1 <= m -> m <= T -> resolves pl m j = true -> wave_at ws j m = Some (waveof j m)) /\
  (forall j, 1 <= j <= length pl -> mean_at ws j = Some (meanof j)).
Proof.
  unfold vector_coeffs.
  set (body := fun j => let* ouc := rd (w_uc old) j in let* ous := rd (w_us old) j in
      let* ovc := rd (w_vc old) j in let* ovs := rd (w_vs old) j in
      let* u := vector_row forward pl T ugrid ouc ous j in
      let* v := vector_row forward pl T vgrid ovc ovs j in Some (u, v)).
  assert (ROW : forall j, 1 <= j <= length pl -> exists y, body j = Some y /\
    (forall m, m <= mlimit T (row_len pl j) -> rd (fst (fst y)) (S m) = Some (fst (row_dft pl ugrid j m)) /\ rd (fst (snd y)) (S m) = Some (fst (row_dft pl vgrid j m))) /\
    (forall m, 1 <= m <= mlimit T (row_len pl j) -> rd (snd (fst y)) (S m) = Some (- snd (row_dft pl ugrid j m))%R /\ rd (snd (snd y)) (S m) = Some (- snd (row_dft pl vgrid j m))%R)).
  { intros j Hj. unfold body. destruct OLD.
    rewrite (rd_row (w_uc old) [] j) by lia. rewrite (rd_row (w_us old) [] j) by lia. rewrite (rd_row (w_vc old) [] j) by lia. rewrite (rd_row (w_vs old) [] j) by lia. cbn [bind].
    destruct (vector_row_ok pl T ugrid (nth (j - 1) (w_uc old) []) (nth (j - 1) (w_us old) []) j) as [u (Eu & Cu & Su)]; auto;
      [apply (vo_u _ _ _ _ _ _ _ _ OK)|apply (vo_rows _ _ _ _ _ _ _ _ OK); lia|apply oo_us2; apply nth_In; lia|].
    destruct (vector_row_ok pl T vgrid (nth (j - 1) (w_vc old) []) (nth (j - 1) (w_vs old) []) j) as [v (Ev & Cv & Sv)]; auto;
      [apply (vo_v _ _ _ _ _ _ _ _ OK)|apply (vo_rows _ _ _ _ _ _ _ _ OK); lia|apply oo_vs2; apply nth_In; lia|].
    rewrite Eu. cbn [bind]. rewrite Ev. cbn [bind]. exists (u, v). split; [reflexivity|]. cbn [fst snd]. split; intros m Hm; split; auto. }
  assert (S0 : forall x, In x (seq 1 (length pl)) -> exists c, body x = Some c).
  { intros x Hx. apply in_seq in Hx. destruct (ROW x ltac:(lia)) as [y [E _]]. eauto. }
  destruct (mapM_some _ _ _ _ S0) as [rows E]. rewrite E. cbn [bind]. eexists. split; [reflexivity|].
  pose proof (mapM_length _ _ _ _ _ E) as L. rewrite seq_length in L.
  assert (AT : forall j, 1 <= j <= length pl -> exists y, rd rows j = Some y /\ body j = Some y).
  { intros j Hj. destruct (mapM_nth _ _ _ _ _ (j - 1) j E) as [y [Ey Ny]].
    - rewrite (nth_error_nth' _ 0) by (rewrite seq_length; lia). rewrite seq_nth by lia. f_equal. lia.
    - exists y. split; [|exact Ey]. destruct j; [lia|]. cbn [rd]. replace (S j - 1) with j in Ny by lia. exact Ny. }
  split.
  - intros j m Hj H1 HT HR. destruct (AT j Hj) as [y [Ry By]]. destruct (ROW j Hj) as [y' (Ey & PC & PS)]. rewrite By in Ey. injection Ey as <-.
    assert (Hml : m <= mlimit T (row_len pl j)).
    { unfold resolves in HR. apply Nat.leb_le in HR. unfold mlimit. apply Nat.min_glb; [assumption|]. apply Nat.div_le_lower_bound; lia. }
    destruct (PC m Hml) as [C1 C2]. destruct (PS m ltac:(lia)) as [S1 S2].
    unfold wave_at, at_row. cbn [w_uc w_us w_vc w_vs].
    rewrite (rd_map_nth _ _ _ _ Ry). cbn [bind]. rewrite C1. cbn [bind]. rewrite (rd_map_nth _ _ _ _ Ry). cbn [bind]. rewrite S1. cbn [bind].
    rewrite (rd_map_nth _ _ _ _ Ry). cbn [bind]. rewrite C2. cbn [bind]. rewrite (rd_map_nth _ _ _ _ Ry). cbn [bind]. rewrite S2. reflexivity.
  - intros j Hj. destruct (AT j Hj) as [y [Ry By]]. destruct (ROW j Hj) as [y' (Ey & PC & PS)]. rewrite By in Ey. injection Ey as <-.
    destruct (PC 0 ltac:(lia)) as [C1 C2]. unfold mean_at, at_row. cbn [w_uc w_us w_vc w_vs].
    rewrite (rd_map_nth _ _ _ _ Ry). cbn [bind]. rewrite C1. cbn [bind]. rewrite (rd_map_nth _ _ _ _ Ry). cbn [bind]. rewrite C2. reflexivity.
Qed.

(** the contribution of one row *)
Definition contrib (j m n : nat) : quad :=
  wave_terms (INR m * (row_value weights j * (1 / r) / row_value sin_theta j)) (row_value weights j * (1 / r)) (entry T basis j m n) (entry T dbasis j m n) (waveof j m).
Lemma contrib_mean j n : contrib j 0 n = mean_terms (row_value weights j * (1 / r)) (entry T dbasis j 0 n) (meanof j).
Proof. unfold contrib, wave_terms, mean_terms, waveof, meanof, row_dft. apply quad_eq; cbn [d_re d_im z_re z_im uc us vc vs]; rewrite ?dft_mean_sin; cbn [INR]; ring. Qed.
Lemma contrib_pair j m n : mirrored pl -> 1 <= j <= length pl -> m <= n <= T ->
  qadd (contrib j m n) (contrib (length pl + 1 - j) m n) =
  pair_terms (even_flag m n) (INR m * (row_value weights j * (1 / r) / row_value sin_theta j)) (row_value weights j * (1 / r)) (entry T basis j m n) (entry T dbasis j m n) (waveof j m) (waveof (length pl + 1 - j) m).
Proof.
  intros HM Hj Hn. unfold contrib, wave_terms, pair_terms, qadd, even_flag.
  rewrite (vo_parity _ _ _ _ _ _ _ _ OK HM j m n Hj Hn), (vo_dparity _ _ _ _ _ _ _ _ OK HM j m n Hj Hn), (vo_wsym _ _ _ _ _ _ _ _ OK HM j Hj), (vo_ssym _ _ _ _ _ _ _ _ OK HM j Hj).
  destruct (Nat.even (n - m)) eqn:EV.
  - apply Nat.even_spec in EV. destruct EV as [k Ek]. rewrite Ek, pow_sign_even. apply quad_eq; cbn [d_re d_im z_re z_im]; ring.
  - assert (OD : Nat.odd (n - m) = true) by (rewrite <- Nat.negb_even, EV; reflexivity). apply Nat.odd_spec in OD. destruct OD as [k Ek]. rewrite Ek.
    replace (2 * k + 1) with (S (2 * k)) by lia. rewrite pow_sign_odd. apply quad_eq; cbn [d_re d_im z_re z_im]; ring.
Qed.
Lemma contrib_mean_pair j n : mirrored pl -> 1 <= j <= length pl -> n <= T ->
  qadd (contrib j 0 n) (contrib (length pl + 1 - j) 0 n) =
  mean_pair_terms (even_flag 0 n) (row_value weights j * (1 / r)) (entry T dbasis j 0 n) (meanof j) (meanof (length pl + 1 - j)).
Proof.
  intros HM Hj Hn. rewrite contrib_pair by (auto; lia). unfold pair_terms, mean_pair_terms, waveof, meanof, row_dft.
  destruct (even_flag 0 n); apply quad_eq; cbn [d_re d_im z_re z_im uc us vc vs]; rewrite ?dft_mean_sin; cbn [INR]; ring.
Qed.

Variable ws : waves.
Hypothesis WAVE : forall j m, 1 <= j <= length pl -> 1 <= m -> m <= T -> resolves pl m j = true -> wave_at ws j m = Some (waveof j m).
Hypothesis MEAN : forall j, 1 <= j <= length pl -> mean_at ws j = Some (meanof j).

Lemma scale_reads j : 1 <= j <= length pl ->
  weight_inv_r weights r j = Some (row_value weights j * (1 / r))%R /\ weight_inv_r_sin weights sin_theta r j = Some (row_value weights j * (1 / r) / row_value sin_theta j)%R.
Proof.
  intros Hj. unfold weight_inv_r_sin, weight_inv_r, row_value.
  rewrite (rd_row weights 0%R j) by (rewrite (vo_weights _ _ _ _ _ _ _ _ OK); lia). rewrite (rd_row sin_theta 0%R j) by (rewrite (vo_sin _ _ _ _ _ _ _ _ OK); lia). split; reflexivity.
Qed.

Lemma single_contribution_ok m j a : m <= T -> 1 <= j <= length pl -> resolves pl m j = true ->
  exists a', single_contribution T weights basis dbasis sin_theta r ws m j a = Some a' /\ forall n, m <= n <= T -> a' n = qadd (a n) (contrib j m n).
Proof.
  intros Hm Hj HR. unfold single_contribution.
  destruct (sized_row _ _ _ j (vo_basis _ _ _ _ _ _ _ _ OK) Hj) as [E L]. rewrite E. cbn [bind].
  destruct (sized_row _ _ _ j (vo_dbasis _ _ _ _ _ _ _ _ OK) Hj) as [E2 L2]. rewrite E2. cbn [bind].
  destruct (scale_reads j Hj) as [W1 W2]. rewrite W1. cbn [bind]. destruct (Nat.eqb_spec m 0) as [->|Hm0].
  - rewrite MEAN by assumption. cbn [bind].
    destruct (over_degrees_ok T 0 (nth (j - 1) basis []) (nth (j - 1) dbasis []) (fun _ _ dp => mean_terms (row_value weights j * (1 / r)) dp (meanof j)) row_visits (fun _ _ => true) a ltac:(lia) L L2 row_visits_good) as [a' [EA PA]].
    exists a'. split; [exact EA|]. intros n Hn. rewrite PA by exact Hn. rewrite contrib_mean. reflexivity.
  - rewrite WAVE by (auto; lia). cbn [bind]. rewrite W2. cbn [bind].
    destruct (over_degrees_ok T m (nth (j - 1) basis []) (nth (j - 1) dbasis []) (fun _ p dp => wave_terms (INR m * (row_value weights j * (1 / r) / row_value sin_theta j)) (row_value weights j * (1 / r)) p dp (waveof j m)) row_visits (fun _ _ => true) a ltac:(lia) L L2 row_visits_good) as [a' [EA PA]].
    exists a'. split; [exact EA|]. intros n Hn. rewrite PA by exact Hn. reflexivity.
Qed.
Lemma pair_contribution_ok visits m j a : good_visits even_flag visits -> mirrored pl -> m <= T -> 1 <= j <= length pl -> resolves pl m j = true ->
  exists a', pair_contribution visits (length pl) T weights basis dbasis sin_theta r ws m j a = Some a' /\
    forall n, m <= n <= T -> a' n = qadd (a n) (qadd (contrib j m n) (contrib (length pl + 1 - j) m n)).
Proof.
  intros GV HM Hm Hj HR. unfold pair_contribution.
  destruct (sized_row _ _ _ j (vo_basis _ _ _ _ _ _ _ _ OK) Hj) as [E L]. rewrite E. cbn [bind].
  destruct (sized_row _ _ _ j (vo_dbasis _ _ _ _ _ _ _ _ OK) Hj) as [E2 L2]. rewrite E2. cbn [bind].
  destruct (scale_reads j Hj) as [W1 W2]. rewrite W1. cbn [bind]. replace (length pl - j + 1) with (length pl + 1 - j) by lia. destruct (Nat.eqb_spec m 0) as [->|Hm0].
  - rewrite !MEAN by lia. cbn [bind].
    destruct (over_degrees_ok T 0 (nth (j - 1) basis []) (nth (j - 1) dbasis []) (fun ev _ dp => mean_pair_terms ev (row_value weights j * (1 / r)) dp (meanof j) (meanof (length pl + 1 - j))) visits even_flag a ltac:(lia) L L2 GV) as [a' [EA PA]].
    exists a'. split; [exact EA|]. intros n Hn. rewrite PA by exact Hn. rewrite contrib_mean_pair by (auto; lia). reflexivity.
  - assert (HR2 : resolves pl m (length pl + 1 - j) = true) by (unfold resolves in *; rewrite <- HM by assumption; exact HR).
    rewrite !WAVE by (auto; lia). cbn [bind]. rewrite W2. cbn [bind].
    destruct (over_degrees_ok T m (nth (j - 1) basis []) (nth (j - 1) dbasis []) (fun ev p dp => pair_terms ev (INR m * (row_value weights j * (1 / r) / row_value sin_theta j)) (row_value weights j * (1 / r)) p dp (waveof j m) (waveof (length pl + 1 - j) m)) visits even_flag a ltac:(lia) L L2 GV) as [a' [EA PA]].
    exists a'. split; [exact EA|]. intros n Hn. rewrite PA by exact Hn. rewrite contrib_pair by (auto; lia). reflexivity.
Qed.

(** rows in a range, one after another *)
Lemma fold_rows (body : acc -> nat -> option acc) (g : nat -> nat -> quad) m lo : forall L a,
  (forall a j, lo <= j < lo + L -> exists a', body a j = Some a' /\ forall n, m <= n <= T -> a' n = qadd (a n) (g j n)) ->
  exists a', foldM body (seq lo L) a = Some a' /\ forall n, m <= n <= T -> a' n = qadd (a n) (sumQ L (fun k => g (lo + k) n)).
Proof.
  induction L; intros a H.
  - exists a. split; [reflexivity|]. intros n _. cbn [sumQ]. rewrite qadd_zero_r. reflexivity.
  - destruct (IHL a) as [a1 [E1 P1]]; [intros a0 j Hj; apply H; lia|]. rewrite seq_S, foldM_app', E1. cbn [bind foldM].
    destruct (H a1 (lo + L) ltac:(lia)) as [a2 [E2 P2]]. rewrite E2. cbn [bind]. exists a2. split; [reflexivity|].
    intros n Hn. rewrite P2, P1 by exact Hn. cbn [sumQ]. apply qadd_assoc.
Qed.

Lemma leading_short_spec m : forall l, leading_short m l <= length l /\ (forall i, i < leading_short m l -> nth i l 0 < 2 * m) /\ (leading_short m l < length l -> 2 * m <= nth (leading_short m l) l 0).
Proof.
  induction l as [|p l (I1 & I2 & I3)]; cbn [leading_short length]; [repeat split; lia|]. destruct (Nat.ltb_spec p (2 * m)) as [H|H].
  - repeat split; [lia| |].
    + intros i Hi. destruct i; cbn [nth]; [exact H|]. apply I2. lia.
    + intros Hl. cbn [nth]. apply I3. lia.
  - repeat split; [lia|lia|]. intros _. cbn [nth]. exact H.
Qed.
Lemma firstn_nth {A} (l : list A) d : forall i n, i < n -> nth i (firstn n l) d = nth i l d.
Proof. induction l as [|a l IH]; intros i n H; destruct n; try lia; [destruct i; reflexivity|]. destruct i; cbn; [reflexivity|]. apply IH. lia. Qed.
Lemma first_pair_spec m j : increasing_to_equator pl -> 1 <= j <= length pl / 2 -> resolves pl m j = (first_pair_for_m pl m <=? j).
Proof.
  intros INC Hj. unfold first_pair_for_m, pair_count. assert (HL : length pl / 2 <= length pl) by (apply Nat.div_le_upper_bound; lia).
  destruct (leading_short_spec m (firstn (length pl / 2) pl)) as (I1 & I2 & I3). rewrite firstn_length, Nat.min_l in I1, I3 by lia.
  set (k := leading_short m (firstn (length pl / 2) pl)) in *. unfold resolves, row_len.
  destruct (Nat.leb_spec (S k) j) as [H|H].
  - apply Nat.leb_le. specialize (I3 ltac:(lia)). rewrite firstn_nth in I3 by lia.
    pose proof (INC (S k) j ltac:(lia) ltac:(lia)) as M. unfold row_len in M. replace (S k - 1) with k in M by lia. lia.
  - apply Nat.leb_gt. specialize (I2 (j - 1) ltac:(lia)). rewrite firstn_nth in I2 by lia. exact I2.
Qed.
Lemma first_pair_bound m : 1 <= first_pair_for_m pl m <= length pl / 2 + 1.
Proof.
  unfold first_pair_for_m, pair_count. destruct (leading_short_spec m (firstn (length pl / 2) pl)) as (I1 & _). rewrite firstn_length in I1.
  pose proof (Nat.le_min_l (length pl / 2) (length pl)). lia.
Qed.

Lemma odd_half : (length pl / 2 <? (length pl + 1) / 2) = Nat.odd (length pl) /\ (Nat.odd (length pl) = true -> (length pl + 1) / 2 = length pl / 2 + 1 /\ 2 * (length pl / 2) + 1 = length pl).
Proof.
  set (n := length pl). pose proof (Nat.div_mod n 2 ltac:(lia)) as DM. pose proof (Nat.mod_upper_bound n 2 ltac:(lia)).
  destruct (Nat.odd n) eqn:O.
  - assert (E : n mod 2 = 1). { destruct (Nat.eq_dec (n mod 2) 0) as [E|]; [|lia]. exfalso. assert (X : Nat.even n = true) by (replace n with (2 * (n / 2)) by lia; apply even_double). rewrite <- Nat.negb_odd, O in X. discriminate. }
    assert (H2 : (n + 1) / 2 = n / 2 + 1) by (symmetry; apply (Nat.div_unique _ 2 _ 0); lia). rewrite H2. split; [apply Nat.ltb_lt; lia|]. intros _. lia.
  - assert (E : n mod 2 = 0). { destruct (Nat.eq_dec (n mod 2) 0) as [E|]; [auto|]. exfalso. assert (X : Nat.even n = false) by (replace n with (2 * (n / 2) + 1) by lia; apply even_double_S). rewrite <- Nat.negb_odd, O in X. discriminate. }
    assert (H2 : (n + 1) / 2 = n / 2) by (symmetry; apply (Nat.div_unique _ 2 _ 1); lia). rewrite H2. split; [apply Nat.ltb_ge; lia|]. discriminate.
Qed.

(** The accumulators of one order are the sums over the rows that resolve it *)
Lemma accumulators_ok visits m : good_visits even_flag visits -> (mirrored pl -> increasing_to_equator pl) -> m <= T ->
  exists a, accumulators visits pl T weights basis dbasis sin_theta r ws m = Some a /\
    forall n, m <= n <= T -> a n = sumQ (length pl) (fun k => if resolves pl m (S k) then contrib (S k) m n else qzero).
Proof.
  intros GV INC Hm. unfold accumulators. destruct (symmetric_pl pl) eqn:SY.
  - assert (HM : mirrored pl) by (apply symmetric_iff; exact SY). specialize (INC HM).
    assert (HL : length pl / 2 <= length pl) by (apply Nat.div_le_upper_bound; lia).
    set (F := if m =? 0 then 1 else first_pair_for_m pl m).
    assert (HF : 1 <= F <= length pl / 2 + 1) by (unfold F; destruct (m =? 0); [lia|apply first_pair_bound]).
    assert (RES : forall j, 1 <= j <= length pl / 2 -> resolves pl m j = (F <=? j)).
    { intros j Hj. unfold F. destruct (Nat.eqb_spec m 0) as [->|]; [|apply first_pair_spec; assumption].
      symmetry. transitivity true; [apply Nat.leb_le; lia|reflexivity]. }
    destruct (fold_rows (fun a j => pair_contribution visits (length pl) T weights basis dbasis sin_theta r ws m j a)
       (fun j n => qadd (contrib j m n) (contrib (length pl + 1 - j) m n)) m F (length pl / 2 + 1 - F) (fun _ => qzero)) as [a1 [E1 P1]].
    { intros a j Hj. apply pair_contribution_ok; auto; [lia|]. rewrite RES by lia. apply Nat.leb_le. lia. }
    unfold pair_count at 1. rewrite E1. cbn [bind].
    set (G := fun n k => if resolves pl m (S k) then contrib (S k) m n else qzero).
    assert (P1' : forall n, m <= n <= T -> a1 n = sumQ (length pl / 2) (fun k => qadd (G n k) (G n (length pl - 1 - k)))).
    { intros n Hn. rewrite P1 by exact Hn. rewrite qadd_zero_l.
      replace (length pl / 2) with ((F - 1) + (length pl / 2 + 1 - F)) at 2 by lia.
      rewrite sumQ_skip.
      - apply sumQ_ext. intros k Hk. unfold G. replace (S (F - 1 + k)) with (F + k) by lia. replace (S (length pl - 1 - (F - 1 + k))) with (length pl + 1 - (F + k)) by lia.
        assert (R1 : resolves pl m (F + k) = true) by (rewrite RES by lia; apply Nat.leb_le; lia).
        assert (R2 : resolves pl m (length pl + 1 - (F + k)) = true) by (unfold resolves in *; rewrite <- HM by lia; exact R1). rewrite R1, R2. reflexivity.
      - intros k Hk. unfold G. assert (R1 : resolves pl m (S k) = false) by (rewrite RES by lia; apply Nat.leb_gt; lia).
        assert (R2 : resolves pl m (S (length pl - 1 - k)) = false).
        { unfold resolves in *. replace (S (length pl - 1 - k)) with (length pl + 1 - S k) by lia. rewrite <- HM by lia. exact R1. }
        rewrite R1, R2. apply qadd_zero_l. }
    destruct odd_half as [OH1 OH2].
    assert (FIN : forall a, (forall n, m <= n <= T -> a n = qadd (a1 n) (if Nat.odd (length pl) then G n (length pl / 2) else qzero)) ->
       forall n, m <= n <= T -> a n = sumQ (length pl) (G n)).
    { intros a Ha n Hn. rewrite Ha, P1' by exact Hn. symmetry. apply sumQ_pairs. }
    assert (CENTER : Nat.odd (length pl) = true -> resolves pl m (length pl / 2 + 1) = true ->
       exists a, single_contribution T weights basis dbasis sin_theta r ws m (half_nlat pl) a1 = Some a /\ forall n, m <= n <= T -> a n = sumQ (length pl) (G n)).
    { intros O R. destruct (OH2 O) as [X Y]. unfold half_nlat. rewrite X.
      destruct (single_contribution_ok m (length pl / 2 + 1) a1 Hm ltac:(lia) R) as [a2 [E2 P2]]. exists a2. split; [exact E2|]. apply FIN.
      intros n Hn. rewrite P2 by exact Hn. rewrite O. unfold G. replace (S (length pl / 2)) with (length pl / 2 + 1) by lia. rewrite R. reflexivity. }
    unfold center_active. change (pair_count pl <? half_nlat pl) with (length pl / 2 <? (length pl + 1) / 2). rewrite OH1.
    destruct (Nat.eqb_spec m 0) as [Em|Hm0].
    + destruct (Nat.odd (length pl)) eqn:O.
      * apply CENTER; [reflexivity|]. rewrite Em. reflexivity.
      * exists a1. split; [reflexivity|]. apply FIN. intros n _. rewrite qadd_zero_r. reflexivity.
    + destruct (Nat.odd (length pl)) eqn:O.
      * destruct (OH2 eq_refl) as [X Y]. unfold half_nlat at 1. rewrite X, pl_rd by lia. cbn [bind]. change (2 * m <=? row_len pl (length pl / 2 + 1)) with (resolves pl m (length pl / 2 + 1)).
        destruct (resolves pl m (length pl / 2 + 1)) eqn:R; [apply CENTER; auto|].
        exists a1. split; [reflexivity|]. apply FIN. intros n _. unfold G. replace (S (length pl / 2)) with (length pl / 2 + 1) by lia. rewrite R, qadd_zero_r. reflexivity.
      * cbn [bind]. exists a1. split; [reflexivity|]. apply FIN. intros n _. rewrite qadd_zero_r. reflexivity.
  - destruct (fold_rows (fun a j => if m =? 0 then single_contribution T weights basis dbasis sin_theta r ws m j a
          else let* nlon := rd pl j in if 2 * m <=? nlon then single_contribution T weights basis dbasis sin_theta r ws m j a else Some a)
       (fun j n => if resolves pl m j then contrib j m n else qzero) m 1 (length pl) (fun _ => qzero)) as [a1 [E1 P1]].
    { intros a j Hj. destruct (Nat.eqb_spec m 0) as [->|Hm0].
      - change (resolves pl 0 j) with true. cbv iota. apply single_contribution_ok; auto; lia.
      - rewrite pl_rd by lia. cbn [bind]. change (2 * m <=? row_len pl j) with (resolves pl m j). destruct (resolves pl m j) eqn:R.
        + apply single_contribution_ok; auto; lia.
        + exists a. split; [reflexivity|]. intros n _. rewrite qadd_zero_r. reflexivity. }
    exists a1. split; [exact E1|]. intros n Hn. rewrite P1, qadd_zero_l by exact Hn. reflexivity.
Qed.
End Vector.

Section Theorems.
Variables (pl : list nat) (T : nat) (ugrid vgrid weights : list R) (basis dbasis : list (list R)) (sin_theta : list R) (r : R) (old : waves).
Hypothesis OK : vector_ok pl T ugrid vgrid weights basis dbasis sin_theta.
Hypothesis OLD : old_ok pl old.
Hypothesis INC : mirrored pl -> increasing_to_equator pl.

Definition row_term (kind : R -> R -> R -> R -> R -> nat -> C -> C -> C) (m n j : nat) : C :=
  kind (row_value weights j) r (row_value sin_theta j) (entry T basis j m n) (entry T dbasis j m n) m (row_dft pl ugrid j m) (row_dft pl vgrid j m).
Definition sums_of (kind : R -> R -> R -> R -> R -> nat -> C -> C -> C) (spec : list C) : Prop :=
  length spec = tri T /\
  forall m n, m <= n <= T -> coef T spec m n = (over_rows pl m (fun j => fst (row_term kind m n j)), over_rows pl m (fun j => snd (row_term kind m n j))).

Lemma pick_sums m n : m <= n <= T ->
  pick_div (sumQ (length pl) (fun k => if resolves pl m (S k) then contrib pl T ugrid vgrid weights basis dbasis sin_theta r (S k) m n else qzero)) =
    (over_rows pl m (fun j => fst (row_term divergence_term m n j)), over_rows pl m (fun j => snd (row_term divergence_term m n j))) /\
  pick_vrt (sumQ (length pl) (fun k => if resolves pl m (S k) then contrib pl T ugrid vgrid weights basis dbasis sin_theta r (S k) m n else qzero)) =
    (over_rows pl m (fun j => fst (row_term vorticity_term m n j)), over_rows pl m (fun j => snd (row_term vorticity_term m n j))).
Proof.
  intros Hn. unfold pick_div, pick_vrt, over_rows. projections.
  split; f_equal; apply sumR_ext; intros k Hk; destruct (resolves pl m (S k)); try reflexivity;
  unfold contrib, wave_terms, row_term, divergence_term, vorticity_term, waveof; cbn [d_re d_im z_re z_im uc us vc vs fst snd]; unfold Rdiv; ring.
Qed.

Lemma store_all (visits : nat -> nat -> list (nat * bool)) (pick : quad -> C) ws kind :
  (forall m, m <= T -> exists a, accumulators visits pl T weights basis dbasis sin_theta r ws m = Some a /\
     forall n, m <= n <= T -> pick (a n) = (over_rows pl m (fun j => fst (row_term kind m n j)), over_rows pl m (fun j => snd (row_term kind m n j)))) ->
  forall out, length out = tri T -> exists spec, foldM (fun out m => let* a := accumulators visits pl T weights basis dbasis sin_theta r ws m in store_acc T m pick a out) (seq 0 (S T)) out = Some spec /\ sums_of kind spec.
Proof.
  intros H out HO.
  match goal with |- exists spec, foldM ?body _ _ = _ /\ _ =>
  assert (ALL : forall k, k <= S T -> exists spec, foldM body (seq 0 k) out = Some spec /\ length spec = tri T /\
      (forall m n, m < k -> m <= n <= T -> coef T spec m n = (over_rows pl m (fun j => fst (row_term kind m n j)), over_rows pl m (fun j => snd (row_term kind m n j))))) end.
  { induction k; intros Hk; [exists out; repeat split; auto; lia|].
    destruct (IHk ltac:(lia)) as [s1 (E1 & L1 & D1)]. rewrite seq_S, foldM_app', E1. cbn [bind foldM Nat.add].
    destruct (H k ltac:(lia)) as [a [Ea Pa]]. rewrite Ea. cbn [bind].
    destruct (store_acc_ok T pick a k s1 ltac:(lia) L1) as [s2 (E2 & L2 & U2 & O2)]. rewrite E2. cbn [bind]. exists s2. split; [reflexivity|]. split; [exact L2|].
    intros m n Hmk Hn. destruct (Nat.eq_dec m k) as [->|N]; [rewrite U2 by exact Hn; apply Pa; exact Hn|]. rewrite O2 by lia. apply D1; lia. }
  destruct (ALL (S T) ltac:(lia)) as [spec (E & L & D)]. exists spec. split; [exact E|]. split; [exact L|]. intros m n Hn. apply D; lia.
Qed.

Theorem component_ok c out : length out = tri T ->
  exists spec, getvecspec_component forward c pl T ugrid vgrid weights basis dbasis sin_theta r old out = Some spec /\
    sums_of (if c =? 1 then vorticity_term else divergence_term) spec.
Proof.
  intros HO. unfold getvecspec_component. destruct (vector_coeffs_ok pl T ugrid vgrid weights basis dbasis sin_theta old OK OLD) as [ws (E & W & M)]. rewrite E. cbn [bind].
  apply store_all; [|exact HO]. intros m Hm.
  destruct (accumulators_ok pl T ugrid vgrid weights basis dbasis sin_theta r OK ws W M split_visits m split_visits_good INC Hm) as [a [Ea Pa]].
  exists a. split; [exact Ea|]. intros n Hn. rewrite Pa by exact Hn. destruct (pick_sums m n Hn) as [PD PV]. destruct (c =? 1); assumption.
Qed.

(** the two stores of getvrtdivspec act on separate outputs *)
Lemma fold_two {A} (f : nat -> option A) (g h : nat -> A -> list C -> option (list C)) l : forall z d z' d',
  foldM (fun s m => let* a := f m in g m a s) l z = Some z' -> foldM (fun s m => let* a := f m in h m a s) l d = Some d' ->
  foldM (fun (out : list C * list C) m => let* a := f m in let* z := g m a (fst out) in let* d := h m a (snd out) in Some (z, d)) l (z, d) = Some (z', d').
Proof.
  induction l as [|m l IH]; intros z d z' d' H1 H2; cbn [foldM] in *; [congruence|].
  destruct (f m) as [a|]; cbn [bind] in *; [|discriminate]. destruct (g m a z) as [z1|] eqn:Eg; cbn [bind] in *; [|discriminate]. cbn [fst snd]. rewrite Eg. cbn [bind].
  destruct (h m a d) as [d1|] eqn:Eh; cbn [bind] in *; [|discriminate]. apply IH; assumption.
Qed.

Theorem getvrtdivspec_ok out : length (fst out) = tri T -> length (snd out) = tri T ->
  exists z d, getvrtdivspec forward pl T ugrid vgrid weights basis dbasis sin_theta r old out = Some (z, d) /\ sums_of vorticity_term z /\ sums_of divergence_term d.
Proof.
  intros H1 H2. unfold getvrtdivspec. destruct (vector_coeffs_ok pl T ugrid vgrid weights basis dbasis sin_theta old OK OLD) as [ws (E & W & M)]. rewrite E. cbn [bind].
  assert (ACC : forall m, m <= T -> exists a, accumulators pair_visits pl T weights basis dbasis sin_theta r ws m = Some a /\ forall n, m <= n <= T ->
     a n = sumQ (length pl) (fun k => if resolves pl m (S k) then contrib pl T ugrid vgrid weights basis dbasis sin_theta r (S k) m n else qzero)).
  { intros m Hm. apply accumulators_ok; auto. apply pair_visits_good. }
  destruct (store_all pair_visits pick_vrt ws vorticity_term) with (out := fst out) as [z [Ez Pz]]; [|exact H1|].
  { intros m Hm. destruct (ACC m Hm) as [a [Ea Pa]]. exists a. split; [exact Ea|]. intros n Hn. rewrite Pa by exact Hn. apply pick_sums. exact Hn. }
  destruct (store_all pair_visits pick_div ws divergence_term) with (out := snd out) as [d [Ed Pd]]; [|exact H2|].
  { intros m Hm. destruct (ACC m Hm) as [a [Ea Pa]]. exists a. split; [exact Ea|]. intros n Hn. rewrite Pa by exact Hn. apply pick_sums. exact Hn. }
  exists z, d. split; [|split; assumption]. destruct out as [oz od]. cbn [fst snd] in *. apply (fold_two _ (fun m a s => store_acc T m pick_vrt a s) (fun m a s => store_acc T m pick_div a s)); assumption.
Qed.
End Theorems.
