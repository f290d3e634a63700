(** Error codes, the Legendre tables, the caches. *)
From Coq Require Import Reals List Arith Lia Lra Bool ZArith.
From Verif Require Import Base Buffer VH_Model SH_Spec SH_Proofs RS_Model RS_Model2 RS_Spec RS_Dft RS_Proofs1 RS_Proofs2 RS_Proofs3 RS_Proofs7.
Import ListNotations.

(** ** Error codes *)
Local Open Scope Z_scope.
Lemma rows_total_from pos pl : forall t0, length pos = length pl ->
  fold_left (fun t (pq : Z * bool) => match t with None => None | Some s => if (fst pq <? 1) || negb (snd pq) then None else Some (s + fst pq) end) (combine pl pos) t0 =
  match t0 with None => None | Some s => if forallb (fun pq : Z * bool => (1 <=? fst pq) && snd pq) (combine pl pos) then Some (s + fold_right Z.add 0 pl) else None end.
Proof.
  revert pos. induction pl as [|p pl IH]; intros pos t0 L.
  - destruct t0; cbn; [f_equal; lia|reflexivity].
  - destruct pos as [|q pos]; [discriminate|]. cbn [combine fold_left forallb fold_right]. rewrite IH by (cbn in L; lia).
    destruct t0 as [s|]; [|reflexivity]. cbn [fst snd]. destruct (Z.ltb_spec p 1), (Z.leb_spec 1 p); try lia; destruct q; cbn [orb andb negb]; try reflexivity.
    destruct (forallb _ _); [f_equal; lia|reflexivity].
Qed.
Lemma rows_total_some pos pl t : length pos = length pl ->
  (rows_total pos pl = Some t <-> ((forall p, In p pl -> 1 <= p) /\ (forall b, In b pos -> b = true) /\ t = fold_right Z.add 0 pl)).
Proof.
  intros L. unfold rows_total. rewrite rows_total_from by exact L.
  assert (F : forallb (fun pq : Z * bool => (1 <=? fst pq) && snd pq) (combine pl pos) = true <-> (forall p, In p pl -> 1 <= p) /\ (forall b, In b pos -> b = true)).
  { clear t. revert pos L. induction pl as [|p pl IH]; intros [|q pos] L; try discriminate; cbn [combine forallb].
    - split; auto. intros _. split; intros ? [].
    - rewrite andb_true_iff, IH by (cbn in L; lia). cbn [fst snd]. rewrite andb_true_iff, Z.leb_le. split.
      + intros [[H1 H2] [H3 H4]]. split; intros x [E|E]; try subst; auto.
      + intros [H1 H2]. repeat split; try (apply H1; left; reflexivity); try (apply H2; left; reflexivity); intros; [apply H1|apply H2]; right; assumption. }
  destruct (forallb _ _).
  - destruct (proj1 F eq_refl) as [F1 F2]. split; [intros E; injection E as <-; auto|]. intros (_ & _ & ->). reflexivity.
  - split; [discriminate|]. intros (H1 & H2 & _). assert (false = true) by (apply F; auto). discriminate.
Qed.
Lemma rows_total_true pl t : rows_total (map (fun _ => true) pl) pl = Some t <-> ((forall p, In p pl -> 1 <= p) /\ t = fold_right Z.add 0 pl).
Proof.
  rewrite rows_total_some by apply map_length. split; [tauto|]. intros [H1 H2]. repeat split; auto. intros b Hb. apply in_map_iff in Hb. destruct Hb as [x [E _]]. auto.
Qed.

(** what every transform asks of its arguments *)
Definition sizes_ok (pl : list Z) (ngptot ntrunc nt : Z) : Prop :=
  3 <= Z.of_nat (length pl) /\ 0 <= ntrunc <= Z.of_nat (length pl) - 1 /\ 1 <= nt /\ (forall p, In p pl -> 1 <= p) /\ ngptot = fold_right Z.add 0 pl.

Ltac step := match goal with
  | |- context [if ?b then _ else _] => let E := fresh "E" in destruct b eqn:E
  end.
Ltac bools := repeat match goal with
  | H : (_ || _) = true |- _ => apply orb_true_iff in H
  | H : (_ || _) = false |- _ => apply orb_false_iff in H; destruct H
  | H : negb _ = true |- _ => apply negb_true_iff in H
  | H : negb _ = false |- _ => apply negb_false_iff in H
  | H : (_ <? _) = true |- _ => apply Z.ltb_lt in H
  | H : (_ <? _) = false |- _ => apply Z.ltb_ge in H
  | H : (_ =? _) = true |- _ => apply Z.eqb_eq in H
  | H : (_ =? _) = false |- _ => apply Z.eqb_neq in H
  end.

Lemma grdtospec_code_0 pl ngptot ntrunc nt cache alloc :
  grdtospec_code pl ngptot ntrunc nt cache alloc = 0 <-> sizes_ok pl ngptot ntrunc nt /\ cache = 0 /\ alloc = 0.
Proof.
  unfold grdtospec_code, sizes_ok. cbv zeta. pose proof (rows_total_true pl) as RT.
  destruct (rows_total _ pl) as [t|].
  - destruct (proj1 (RT t) eq_refl) as [R1 R2]. repeat step; bools; try (split; [discriminate|lia]); split; intros; subst; intuition lia.
  - assert (N : ~ (forall p, In p pl -> 1 <= p)) by (intros H; assert (None = Some (fold_right Z.add 0 pl)) by (apply RT; auto); discriminate).
    repeat step; bools; split; try discriminate; intuition lia.
Qed.
Lemma spectogrd_code_0 pl nmdim ngptot ntrunc nt cache :
  spectogrd_code pl nmdim ngptot ntrunc nt cache = 0 <-> sizes_ok pl ngptot ntrunc nt /\ nmdim = (ntrunc + 1) * (ntrunc + 2) / 2 /\ cache = 0.
Proof.
  unfold spectogrd_code, sizes_ok. cbv zeta. pose proof (rows_total_true pl) as RT. set (q := (ntrunc + 1) * (ntrunc + 2) / 2).
  destruct (rows_total _ pl) as [t|].
  - destruct (proj1 (RT t) eq_refl) as [R1 R2]. repeat step; bools; try (split; [discriminate|lia]); split; intros; subst; intuition lia.
  - assert (N : ~ (forall p, In p pl -> 1 <= p)) by (intros H; assert (None = Some (fold_right Z.add 0 pl)) by (apply RT; auto); discriminate).
    repeat step; bools; split; try discriminate; intuition lia.
Qed.
Lemma getgrad_code_0 pl pos rpos nmdim ngptot ntrunc nt cache : length pos = length pl ->
  (getgrad_code pl pos rpos nmdim ngptot ntrunc nt cache = 0 <->
   sizes_ok pl ngptot ntrunc nt /\ (forall b, In b pos -> b = true) /\ rpos = true /\ nmdim = (ntrunc + 1) * (ntrunc + 2) / 2 /\ cache = 0).
Proof.
  intros L. unfold getgrad_code, sizes_ok. cbv zeta. pose proof (fun t => rows_total_some pos pl t L) as RT. set (q := (ntrunc + 1) * (ntrunc + 2) / 2).
  destruct (rows_total pos pl) as [t|].
  - destruct (proj1 (RT t) eq_refl) as (R1 & R2 & R3). destruct rpos; cbn [negb]; repeat step; bools; try (split; [discriminate|lia]); split; intros; subst; try discriminate; intuition (lia || congruence).
  - assert (N : ~ ((forall p, In p pl -> 1 <= p) /\ (forall b, In b pos -> b = true))) by (intros [H H']; assert (None = Some (fold_right Z.add 0 pl)) by (apply RT; auto); discriminate).
    destruct rpos; cbn [negb]; repeat step; bools; split; try discriminate; intuition (lia || congruence).
Qed.
Lemma getvrtdivspec_code_0 pl pos rpos ngptot ntrunc nt cache vcache : length pos = length pl ->
  (getvrtdivspec_code pl pos rpos ngptot ntrunc nt cache vcache = 0 <->
   sizes_ok pl ngptot ntrunc nt /\ (forall b, In b pos -> b = true) /\ rpos = true /\ cache = 0 /\ vcache = 0).
Proof.
  intros L. unfold getvrtdivspec_code, sizes_ok. cbv zeta. pose proof (fun t => rows_total_some pos pl t L) as RT.
  destruct (rows_total pos pl) as [t|].
  - destruct (proj1 (RT t) eq_refl) as (R1 & R2 & R3). destruct rpos; cbn [negb]; repeat step; bools; try (split; [discriminate|lia]); split; intros; subst; try discriminate; intuition (lia || congruence).
  - assert (N : ~ ((forall p, In p pl -> 1 <= p) /\ (forall b, In b pos -> b = true))) by (intros [H H']; assert (None = Some (fold_right Z.add 0 pl)) by (apply RT; auto); discriminate).
    destruct rpos; cbn [negb]; repeat step; bools; split; try discriminate; intuition (lia || congruence).
Qed.
Lemma getvecspec_code_0 component pl pos rpos ngptot ntrunc nt cache alloc : length pos = length pl ->
  (getvecspec_code component pl pos rpos ngptot ntrunc nt cache alloc = 0 <->
   sizes_ok pl ngptot ntrunc nt /\ (forall b, In b pos -> b = true) /\ rpos = true /\ (component = 1 \/ component = 2) /\ cache = 0 /\ alloc = 0).
Proof.
  intros L. unfold getvecspec_code, sizes_ok. cbv zeta. pose proof (fun t => rows_total_some pos pl t L) as RT.
  destruct (rows_total pos pl) as [t|].
  - destruct (proj1 (RT t) eq_refl) as (R1 & R2 & R3). destruct rpos; cbn [negb]; repeat step; bools; try (split; [discriminate|lia]); split; intros; subst; try discriminate; intuition (lia || congruence).
  - assert (N : ~ ((forall p, In p pl -> 1 <= p) /\ (forall b, In b pos -> b = true))) by (intros [H H']; assert (None = Some (fold_right Z.add 0 pl)) by (apply RT; auto); discriminate).
    destruct rpos; cbn [negb]; repeat step; bools; split; try discriminate; intuition (lia || congruence).
Qed.

(** ** The setup of the Legendre table *)
Lemma half_product l : 2 * (3 * l * (1 - l) / 2) = 3 * l * (1 - l).
Proof.
  rewrite <- Z.divide_div_mul_exact; [|lia|].
  - rewrite (Z.mul_comm 2). apply Z.div_mul. lia.
  - assert (E : (2 | l * (1 - l))).
    { destruct (Z.Even_or_Odd l) as [[k ->]|[k ->]]; [exists (k * (1 - 2 * k)); ring|exists (- (2 * k + 1) * k); ring]. }
    destruct E as [k E]. exists (3 * k). rewrite <- Z.mul_assoc, E. ring.
Qed.
Lemma late_same nlat : 0 <= nlat -> (nlat + nlat mod 2) / 2 = (nlat + 1) / 2.
Proof.
  intros H. pose proof (Z.div_mod nlat 2 ltac:(lia)) as D. pose proof (Z.mod_pos_bound nlat 2 ltac:(lia)) as B.
  set (q := nlat / 2) in *. set (b := nlat mod 2) in *. assert (b = 0 \/ b = 1) as [E|E] by lia.
  - replace (nlat + b) with (q * 2) by lia. replace (nlat + 1) with (1 + q * 2) by lia. rewrite Z.div_mul, Z.div_add by lia. reflexivity.
  - replace (nlat + b) with (nlat + 1) by lia. reflexivity.
Qed.
Lemma legendre_basis_code_0 nlat ntrunc : legendre_basis_code nlat ntrunc 0 0 = 0 <-> 3 <= nlat /\ 2 <= ntrunc <= nlat - 1.
Proof.
  unfold legendre_basis_code. cbv zeta. cbn [Z.eqb negb].
  destruct (Z.ltb_spec nlat 3) as [H|H]; [split; [discriminate|lia]|].
  destruct ((ntrunc <? 0) || (nlat - 1 <? ntrunc)) eqn:E; bools; [split; [discriminate|lia]|].
  unfold shagsp_code. cbv zeta. rewrite late_same by lia. set (late := (nlat + 1) / 2). rewrite Z.ltb_irrefl.
  destruct (Z.ltb_spec nlat 3); [lia|]. destruct (Z.ltb_spec (Z.max 4 (2 * ntrunc)) 4); [lia|]. cbn [Z.eqb negb].
  pose proof (half_product (ntrunc + 1)) as P1.
  destruct (Z.le_gt_cases 2 ntrunc) as [G|G].
  - replace (Z.max 4 (2 * ntrunc)) with (2 * ntrunc) by lia. replace ((2 * ntrunc + 2) / 2) with (ntrunc + 1) by (replace (2 * ntrunc + 2) with ((ntrunc + 1) * 2) by ring; rewrite Z.div_mul by lia; reflexivity).
    replace (Z.min (ntrunc + 1) nlat) with (ntrunc + 1) by lia. rewrite Z.ltb_irrefl. cbn. split; [lia|reflexivity].
  - replace (Z.max 4 (2 * ntrunc)) with 4 by lia. change ((4 + 2) / 2) with 3. replace (Z.min 3 nlat) with 3 by lia.
    pose proof (half_product 3) as P2. destruct (Z.ltb_spec (nlat * (2 * late + 3 * (ntrunc + 1) - 2) + 3 * (ntrunc + 1) * (1 - (ntrunc + 1)) / 2 + 4 + 15) (nlat * (2 * late + 3 * 3 - 2) + 3 * 3 * (1 - 3) / 2 + 4 + 15)) as [L|L].
    + cbn. split; [discriminate|lia].
    + exfalso. assert (ntrunc = 0 \/ ntrunc = 1) as [K|K] by lia; subst ntrunc; nia.
Qed.

(** ** The tables *)
Local Open Scope nat_scope.
Lemma table_row_map T (f : nat -> nat -> R) : table_row T f = map (fun p => f (fst p) (snd p)) (pairs T).
Proof. unfold table_row, pairs. rewrite flat_map_concat_map, flat_map_concat_map, concat_map, map_map. f_equal. apply map_ext. intros m. rewrite map_map. reflexivity. Qed.
Lemma table_row_length T f : length (table_row T f) = tri T.
Proof. rewrite table_row_map, map_length. apply pairs_length. Qed.
Lemma table_row_nth T f m n : m <= n <= T -> nth (index T m n) (table_row T f) 0%R = f m n.
Proof.
  intros H. rewrite table_row_map. apply nth_error_nth. rewrite nth_error_map, (nth_pairs T m n) by exact H. reflexivity.
Qed.
Lemma table_entry nlat T f j m n : 1 <= j <= nlat -> m <= n <= T ->
  entry T (map (fun j => table_row T (f j)) (seq 1 nlat)) j m n = f j m n.
Proof.
  intros Hj Hn. unfold entry. rewrite (nth_mapd _ _ _ _ 0) by (rewrite seq_length; lia). rewrite seq_nth by lia.
  replace (1 + (j - 1)) with j by lia. apply table_row_nth. exact Hn.
Qed.
Lemma table_sized nlat T f : sized nlat (tri T) (map (fun j => table_row T (f j)) (seq 1 nlat)).
Proof.
  split; [rewrite map_length, seq_length; reflexivity|]. intros r Hr. apply in_map_iff in Hr. destruct Hr as [j [<- _]]. apply table_row_length.
Qed.

Lemma parity_sign_pow m n : parity_sign m n = ((-1) ^ (n - m))%R.
Proof.
  unfold parity_sign. destruct (Nat.even (n - m)) eqn:E.
  - apply Nat.even_spec in E. destruct E as [k E]. rewrite E, pow_1_even. reflexivity.
  - assert (O : Nat.odd (n - m) = true) by (unfold Nat.odd; rewrite E; reflexivity). apply Nat.odd_spec in O. destruct O as [k O]. rewrite O. replace (2 * k + 1) with (S (2 * k)) by lia. rewrite pow_1_odd. reflexivity.
Qed.
Lemma sign_square k : ((-1) ^ k * (-1) ^ k = 1)%R.
Proof. rewrite <- pow_add. replace (k + k) with (2 * k) by lia. apply pow_1_even. Qed.

(** the middle row of an odd number of rows: the functions that are odd there vanish *)
Definition middle_zero (nlat T : nat) (pmn : nat -> nat -> nat -> R) : Prop :=
  forall m n, m <= n <= T -> Nat.even (n - m) = false -> Nat.odd nlat = true -> pmn m n (late nlat) = 0%R.
Lemma basis_parity nlat T pmn : 1 <= nlat -> middle_zero nlat T pmn -> has_parity T nlat 1 (legendre_basis nlat T pmn).
Proof.
  intros HN MZ j m n Hj Hn. unfold legendre_basis. rewrite !table_entry by lia. unfold basis_value.
  assert (HL : nlat = 2 * late nlat \/ nlat + 1 = 2 * late nlat).
  { unfold late. pose proof (Nat.div_mod (nlat + 1) 2 ltac:(lia)). pose proof (Nat.mod_upper_bound (nlat + 1) 2 ltac:(lia)). lia. }
  destruct (Nat.leb_spec j (late nlat)) as [A|A], (Nat.leb_spec (nlat + 1 - j) (late nlat)) as [B|B]; try lia.
  - (* the middle row *) assert (E : j = late nlat) by lia. assert (E2 : nlat + 1 - j = j) by lia. rewrite E2.
    destruct (Nat.even (n - m)) eqn:EV.
    + rewrite <- parity_sign_pow. unfold parity_sign. rewrite EV. ring.
    + rewrite E, (MZ m n Hn EV). { ring. } apply Nat.odd_spec. exists (late nlat - 1). lia.
  - rewrite parity_sign_pow. replace (nlat - (nlat + 1 - j) + 1) with j by lia. ring.
  - rewrite parity_sign_pow. replace (nlat - j + 1) with (nlat + 1 - j) by lia.
    replace (1 * (-1) ^ (n - m) * ((-1) ^ (n - m) * pmn m n (nlat + 1 - j)%nat))%R with (((-1) ^ (n - m) * (-1) ^ (n - m)) * pmn m n (nlat + 1 - j)%nat)%R by ring.
    rewrite sign_square. ring.
Qed.

Lemma derivative_table nlat T theta basis j m n : sized nlat (tri T) basis -> 1 <= j <= nlat -> m <= n <= T ->
  entry T (legendre_derivative nlat T theta basis) j m n = derivative_entry m n (theta j) (entry T basis j m n) (if m <? n then entry T basis j m (n - 1) else 0%R).
Proof.
  intros _ Hj Hn. unfold legendre_derivative.
  rewrite (table_entry nlat T (fun j m n => derivative_entry m n (theta j) (nth (spectral_offset m T + n - m + 1 - 1) (nth (j - 1) basis []) 0%R) (nth (spectral_offset m T + n - m + 1 - 2) (nth (j - 1) basis []) 0%R))) by lia.
  unfold entry. pose proof (offset_index T m n Hn) as O.
  replace (spectral_offset m T + n - m + 1 - 1) with (index T m n) by lia.
  unfold derivative_entry. destruct (Nat.ltb_spec m n) as [L|L]; [|reflexivity].
  pose proof (offset_index T m (n - 1) ltac:(lia)) as O'. replace (spectral_offset m T + n - m + 1 - 2) with (index T m (n - 1)) by lia. reflexivity.
Qed.
Lemma derivative_parity nlat T theta basis : sized nlat (tri T) basis -> has_parity T nlat 1 basis ->
  (forall j, 1 <= j <= nlat -> theta (nlat + 1 - j) = (PI - theta j)%R) ->
  has_parity T nlat (-1) (legendre_derivative nlat T theta basis).
Proof.
  intros SZ HP HT j m n Hj Hn. rewrite !(derivative_table nlat T theta basis) by (auto; lia).
  rewrite (HP j m n Hj Hn), (HT j Hj). unfold derivative_entry.
  replace (cos (PI - theta j)) with (- cos (theta j))%R by (rewrite Rtrigo_facts.cos_pi_minus; reflexivity).
  rewrite Rtrigo_facts.sin_pi_minus. destruct (Nat.eqb_spec n 0) as [->|N]; [ring|].
  destruct (Nat.ltb_spec m n) as [L|L].
  - rewrite (HP j m (n - 1) Hj) by lia. replace (n - m) with (S (n - 1 - m)) by lia. cbn [pow]. unfold Rdiv. ring.
  - unfold Rdiv. ring.
Qed.

(** ** The caches *)
Section Cache.
Context {V K : Type} (eqb : K -> K -> bool).
Hypothesis eqb_eq : forall a b, eqb a b = true <-> a = b.
Definition faithful (compute : K -> option V) (d : @dict V K) : Prop := forall k v, In (k, v) d -> compute k = Some v.
Lemma lookup_in k (d : @dict V K) v : lookup eqb k d = Some v -> In (k, v) d.
Proof.
  unfold lookup. intros H. destruct (find _ d) as [[k' v']|] eqn:E; [|discriminate]. cbn in H. injection H as <-.
  apply find_some in E. destruct E as [I E]. apply eqb_eq in E. cbn in E. subst k'. exact I.
Qed.
Lemma lookup_faithful compute d k v : faithful compute d -> lookup eqb k d = Some v -> compute k = Some v.
Proof. intros F H. apply F. apply lookup_in. exact H. Qed.
Lemma faithful_app compute d k v : faithful compute d -> compute k = Some v -> faithful compute (d ++ [(k, v)]).
Proof. intros F H k' v' I. apply in_app_or in I. destruct I as [I|[I|[]]]; [apply F; exact I|]. injection I as <- <-. exact H. Qed.
Lemma cache_insert compute d k v mx : 1 <= mx -> length d <= mx -> faithful compute d -> compute k = Some v ->
  exists d', cache_basis_array eqb d k v mx = Some d' /\ faithful compute d' /\ length d' <= mx /\ lookup eqb k d' = Some v.
Proof.
  intros HM HL F HC. unfold cache_basis_array. destruct (lookup eqb k d) as [w|] eqn:E.
  - exists d. repeat split; auto. pose proof (lookup_faithful _ _ _ _ F E). congruence.
  - assert (REFL : eqb k k = true) by (apply eqb_eq; reflexivity).
    assert (AP : forall d', lookup eqb k d' = None -> lookup eqb k (d' ++ [(k, v)]) = Some v).
    { intros d' H. unfold lookup in *. induction d' as [|x d' IH]; cbn in *; [rewrite REFL; reflexivity|]. destruct (eqb k (fst x)); [discriminate|]. apply IH. exact H. }
    destruct (Nat.leb_spec mx (length d)) as [H|H].
    + destruct d as [|x rest]; [cbn in *; lia|]. exists (rest ++ [(k, v)]). split; [reflexivity|].
      assert (FR : faithful compute rest) by (intros k' v' I; apply F; right; exact I).
      split; [apply faithful_app; assumption|]. split; [rewrite app_length; cbn in *; lia|]. apply AP.
      unfold lookup in *. cbn in E. destruct (eqb k (fst x)); [discriminate|exact E].
    + exists (d ++ [(k, v)]). split; [reflexivity|]. split; [apply faithful_app; assumption|]. split; [rewrite app_length; cbn; lia|]. apply AP. exact E.
Qed.
End Cache.

Lemma pair_eqb_eq a b : pair_eqb a b = true <-> a = b.
Proof. unfold pair_eqb. destruct a, b. cbn. rewrite andb_true_iff, !Nat.eqb_eq. split; [intros [-> ->]; reflexivity|]. intros E. injection E as -> ->. auto. Qed.
Lemma basis_get_ok {V} (compute : nat -> nat -> option V) mx nlat T (loc : @dict V nat) (glob : @dict V (nat * nat)) :
  1 <= mx -> length glob <= mx -> faithful (compute nlat) loc -> faithful (fun k => compute (fst k) (snd k)) glob ->
  exists loc' glob', basis_get compute mx nlat T (loc, glob) = Some (compute nlat T, (loc', glob')) /\
    faithful (compute nlat) loc' /\ faithful (fun k => compute (fst k) (snd k)) glob' /\ length glob' <= mx.
Proof.
  intros HM HL F1 F2. unfold basis_get. cbn [fst snd].
  destruct (lookup Nat.eqb T loc) as [b|] eqn:E1.
  { pose proof (lookup_faithful Nat.eqb Nat.eqb_eq _ _ _ _ F1 E1) as H. exists loc, glob. rewrite H. auto. }
  destruct (lookup pair_eqb (nlat, T) glob) as [b|] eqn:E2.
  { pose proof (lookup_faithful pair_eqb pair_eqb_eq _ _ _ _ F2 E2) as H. cbn in H. exists (loc ++ [(T, b)]), glob. rewrite H. repeat split; auto. apply faithful_app; assumption. }
  destruct (compute nlat T) as [b|] eqn:E3; [|exists loc, glob; auto].
  destruct (cache_insert pair_eqb pair_eqb_eq (fun k => compute (fst k) (snd k)) glob (nlat, T) b mx HM HL F2 E3) as [g (E & FG & LG & _)].
  rewrite E. cbn [bind]. exists (loc ++ [(T, b)]), g. repeat split; auto. apply faithful_app; assumption.
Qed.

Lemma list_eqb_eq a b : list_eqb a b = true <-> a = b.
Proof.
  unfold list_eqb. rewrite andb_true_iff, Nat.eqb_eq. split.
  - revert b. induction a as [|x a IH]; intros [|y b] [L F]; try discriminate; [reflexivity|]. cbn in F. apply andb_true_iff in F. destruct F as [E F]. apply Nat.eqb_eq in E. f_equal; [exact E|]. apply IH. split; [cbn in L; lia|exact F].
  - intros <-. split; [reflexivity|]. induction a; cbn; [reflexivity|]. rewrite Nat.eqb_refl. exact IHa.
Qed.
Lemma prepare_fft_ok {Plan} (hrffti : nat -> Plan) pl alloc c code c' :
  (forall k, c = Some k -> fc_plan k = map hrffti (fc_pl k)) -> prepare_fft_cache hrffti pl alloc c = (code, c') ->
  (forall k, c' = Some k -> fc_plan k = map hrffti (fc_pl k)) /\
  (code = 0%Z -> exists k, c' = Some k /\ fc_pl k = pl /\ fc_plan k = map hrffti pl).
Proof.
  intros INV. unfold prepare_fft_cache. destruct (orb _ _); [intros E; injection E as <- <-; split; [exact INV|discriminate]|]. cbv zeta.
  destruct c as [k|].
  - destruct (andb (andb _ _) _) eqn:M.
    + apply andb_true_iff in M. destruct M as [_ M]. apply list_eqb_eq in M. intros E; injection E as <- <-. split; [exact INV|]. intros _. exists k. rewrite <- M. auto.
    + destruct alloc; intros E; injection E as <- <-; split; try discriminate; try (intros k' E; injection E as <-; reflexivity). intros _. eexists. split; [reflexivity|]. auto.
  - destruct alloc; intros E; injection E as <- <-; split; try discriminate; try (intros k' E; injection E as <-; reflexivity). intros _. eexists. split; [reflexivity|]. auto.
Qed.
Lemma prepare_vector_ok nlat T alloc c code c' : prepare_vector_cache nlat T alloc c = (code, c') -> code = 0%Z ->
  exists b, c' = Some (nlat, b) /\ T <= b.
Proof.
  unfold prepare_vector_cache. destruct (nlat <? 1); [intros E; injection E as <- <-; discriminate|]. destruct c as [[a b]|].
  - destruct (andb _ _) eqn:M.
    + apply andb_true_iff in M. destruct M as [M1 M2]. apply Nat.eqb_eq in M1. apply Nat.leb_le in M2. intros E _; injection E as <- <-. subst a. eauto.
    + destruct alloc; intros E H; injection E as <- <-; [eauto|discriminate].
  - destruct alloc; intros E H; injection E as <- <-; [eauto|discriminate].
Qed.
