(** Vorticity and divergence, evaluation at a point, index tables. *)
From Coq Require Import Lia Arith ZArith List Bool Field_theory Field.
From Verif Require Import Base Buffer VH_Model VH_Proofs SH_Model SH_Spec SH_Proofs SH_Proofs2 SH_Proofs3 SH_Proofs4 TG_Proofs.
Import ListNotations.
Local Open Scope Z_scope.

(** ** onedtotwod_vrtdiv is the pair of the two single conversions *)
Section Pair.
Variable A : rl.
Notation C := (T A * T A)%type.
(** two loop nests run side by side *)
Lemma tri_loop_pair (S1 S2 : Type) N n1 (f : Z -> Z -> Z -> S1 -> option S1) (g : Z -> Z -> Z -> S2 -> option S2)
    (h : Z -> Z -> Z -> S1 * S2 -> option (S1 * S2)) :
  (forall m n nm s t, h m n nm (s, t)
     = match f m n nm s, g m n nm t with Some s', Some t' => Some (s', t') | _, _ => None end) ->
  forall s t, tri_loop N n1 h (s, t)
    = match tri_loop N n1 f s, tri_loop N n1 g t with Some s', Some t' => Some (s', t') | _, _ => None end.
Proof.
  intros H s t. unfold tri_loop.
  assert (G : forall l c s t,
    option_map snd (foldM (fun (st : Z * (S1 * S2)) m => let nmstrt := fst st in
        let* s := foldM (fun s n => h m n (nmstrt + n - m + 1) s) (dolist (n1 m) (N + 1)) (snd st) in
        Some (nmstrt + N - m + 2, s)) l (c, (s, t)))
    = match option_map snd (foldM (fun (st : Z * S1) m => let nmstrt := fst st in
        let* s := foldM (fun s n => f m n (nmstrt + n - m + 1) s) (dolist (n1 m) (N + 1)) (snd st) in
        Some (nmstrt + N - m + 2, s)) l (c, s)),
      option_map snd (foldM (fun (st : Z * S2) m => let nmstrt := fst st in
        let* s := foldM (fun s n => g m n (nmstrt + n - m + 1) s) (dolist (n1 m) (N + 1)) (snd st) in
        Some (nmstrt + N - m + 2, s)) l (c, t)) with Some s', Some t' => Some (s', t') | _, _ => None end).
  { induction l as [|m l IH]; intros c s0 t0; [reflexivity|].
    cbn [foldM fst snd]. rewrite (foldM_pair _ _ _ (fun s n => f m n (c + n - m + 1) s) (fun s n => g m n (c + n - m + 1) s)) by (intros; apply H).
    destruct (foldM (fun s n => f m n _ s) _ s0) as [s1|]; [|reflexivity].
    destruct (foldM (fun s n => g m n _ s) _ t0) as [t1|]; cbn [bind]; [apply IH|].
    destruct (foldM _ l _); reflexivity. }
  apply G.
Qed.
Lemma vrtdiv_in_pair ntrunc nlat r (v d : list C) :
  onedtotwod_vrtdiv_at A ntrunc nlat r v d
  = match onedtotwod_div_at A ntrunc nlat r d, onedtotwod_vrt_at A ntrunc nlat r v with
    | Some b, Some c => Some (b, c) | _, _ => None end.
Proof.
  unfold onedtotwod_vrtdiv_at, onedtotwod_div_at, onedtotwod_vrt_at. apply tri_loop_pair.
  intros m n nm [br bi] [cr ci]. cbn [fst snd].
  destruct (rdz d nm); cbn [bind]; [|reflexivity].
  destruct (rdz v nm); cbn [bind].
  - destruct (wr2 nlat br _ _ _); cbn [bind]; [|reflexivity].
    destruct (wr2 nlat bi _ _ _); cbn [bind]; [|reflexivity].
    destruct (wr2 nlat cr _ _ _); cbn [bind]; [|reflexivity].
    destruct (wr2 nlat ci _ _ _); reflexivity.
  - destruct (wr2 nlat br _ _ _); cbn [bind]; [|reflexivity].
    destruct (wr2 nlat bi _ _ _); reflexivity.
Qed.
Lemma vrtdiv_out_pair nlat ntrunc r (br bi cr ci : list A) :
  twodtooned_vrtdiv A nlat ntrunc r br bi cr ci
  = match twodtooned_vrt A nlat ntrunc r cr ci, twodtooned_div A nlat ntrunc r br bi with
    | Some v, Some d => Some (v, d) | _, _ => None end.
Proof.
  unfold twodtooned_vrtdiv, twodtooned_vrt, twodtooned_div. apply tri_loop_pair.
  intros m n nm v d. cbn [fst snd].
  destruct (rd2 nlat br m n), (rd2 nlat bi m n); cbn [bind];
  destruct (rd2 nlat cr m n), (rd2 nlat ci m n); cbn [bind]; try reflexivity;
  try (destruct (wrz d nm _); cbn [bind]; try reflexivity);
  try (destruct (wrz v nm _); cbn [bind]; try reflexivity).
Qed.
End Pair.

Section Vals.
Variable A : rl.
Variable LW : rlaws A.
Variable is0 : A -> bool.
Hypothesis is0_spec : forall x, is0 x = true <-> x = rz A 0.
Notation C := (T A * T A)%type.
Notation E := (ext A is0).
Notation CE := (T E * T E)%type.
Definition fth := rl_field A LW.
Add Field Afield : fth.
Notation "0f" := (rz A 0). Notation "1f" := (rz A 1).
(** sqrt(n*(n-1)) vanishes only for n = 1 *)
Definition sqrt_ok : Prop := forall n, 1 <= n ->
  (rsqrt A (rmul A (rz A n) (rsub A (rz A n) 1f)) = 0f <-> n = 1).
Hypothesis SQ : sqrt_ok.
Definition s_of (n : Z) : A := rsqrt A (rmul A (rz A n) (rsub A (rz A n) 1f)).

Definition fin (d : list C) : list CE := map (fun c => (Some (fst c), Some (snd c))) d.
Lemma is0_false x : x <> 0f -> is0 x = false.
Proof. intro H. destruct (is0 x) eqn:Ex; [apply is0_spec in Ex; contradiction|reflexivity]. Qed.
Lemma half_E : half E = Some (half A).
Proof. unfold half; cbn [ext rdiv rz]. rewrite is0_false by (apply (rl_nz A LW); lia). reflexivity. Qed.
Lemma half_nz : half A <> 0f.
Proof.
  unfold half. intro H. assert (H2 : rz A 2 <> 0f) by (apply (rl_nz A LW); lia).
  apply (rl_nz A LW 1); [lia|]. transitivity (rmul A (rz A 2) (rdiv A 1f (rz A 2))); [field; exact H2|].
  rewrite H. ring.
Qed.
Lemma n_factor_1 r : n_factor_in E (Some r) 1 = None.
Proof.
  unfold n_factor_in; cbn [ext rdiv rz rmul rsub rsqrt option_map].
  rewrite (proj2 (is0_spec _)); [reflexivity|]. apply SQ; lia.
Qed.
Lemma n_factor_2 r n : 2 <= n -> n_factor_in E (Some r) n = Some (rdiv A r (s_of n)).
Proof.
  intro H. unfold n_factor_in; cbn [ext rdiv rz rmul rsub rsqrt option_map].
  rewrite is0_false; [reflexivity|]. intro F. apply SQ in F; lia.
Qed.
Lemma s_nz n : 2 <= n -> s_of n <> 0f.
Proof. intros H F. apply SQ in F; lia. Qed.

(** the value stored for a finite coefficient *)
Definition vrt_in (r : A) (n : nat) (x : A) : E :=
  if (n =? 0)%nat then None
  else Some (rdiv A (rmul A (rdiv A r (s_of (Z.of_nat n + 1))) x) (half A)).
Definition div_in (r : A) (n : nat) (x : A) : E :=
  if (n =? 0)%nat then None
  else Some (rdiv A (rmul A (ropp A (rdiv A r (s_of (Z.of_nat n + 1)))) x) (half A)).

Lemma nth_fin (d : list C) k c : nth_error d k = Some c -> nth_error (fin d) k = Some (Some (fst c), Some (snd c)).
Proof. intro H. unfold fin. rewrite nth_error_map, H. reflexivity. Qed.
Lemma nth_fin_inv (d : list C) k c : nth_error (fin d) k = Some c ->
  exists c', nth_error d k = Some c' /\ c = (Some (fst c'), Some (snd c')).
Proof. unfold fin. rewrite nth_error_map. destruct (nth_error d k) as [c'|]; cbn [option_map]; [|discriminate].
  intro H; injection H as <-. exists c'; split; reflexivity. Qed.

Lemma matrix_fin N nlat get (f : Z -> E -> E) (g : nat -> A -> E) (pr : forall B : Type, B * B -> B) (d : list C) :
  (forall n x, f (Z.of_nat n + 1) (Some x) = g n x) ->
  (forall c : C, pr E (Some (fst c), Some (snd c)) = Some (pr A c)) ->
  is_matrix N nlat get (rz E 0) (fun m n c => f (Z.of_nat n + 1) (pr E c)) (fin d) ->
  is_matrix N nlat get (Some 0f) (fun m n (c : C) => g n (pr A c)) d.
Proof.
  intros Hf Hp [H1 H2]. split.
  - intros m n c B Hc. rewrite (H1 m n _ B (nth_fin _ _ _ Hc)), Hp, Hf. reflexivity.
  - exact H2.
Qed.
Lemma vrt_in_spec r n x : rdiv E (rmul E (n_factor_in E (Some r) (Z.of_nat n + 1)) (Some x)) (half E) = vrt_in r n x.
Proof.
  unfold vrt_in. destruct (Nat.eqb_spec n 0) as [->|Hn].
  - change (Z.of_nat 0 + 1) with 1. rewrite n_factor_1. reflexivity.
  - rewrite n_factor_2 by lia. rewrite half_E. cbn [ext rmul rdiv]. rewrite is0_false by exact half_nz. reflexivity.
Qed.
Lemma div_in_spec r n x : rdiv E (rmul E (ropp E (n_factor_in E (Some r) (Z.of_nat n + 1))) (Some x)) (half E) = div_in r n x.
Proof.
  unfold div_in. destruct (Nat.eqb_spec n 0) as [->|Hn].
  - change (Z.of_nat 0 + 1) with 1. rewrite n_factor_1. reflexivity.
  - rewrite n_factor_2 by lia. rewrite half_E. cbn [ext ropp rmul rdiv option_map].
    rewrite is0_false by exact half_nz. reflexivity.
Qed.
Lemma fin_length d : length (fin d) = length d. Proof. apply map_length. Qed.

Lemma vrt_in_result N nlat r (v : list C) : length v = tri N -> Z.of_nat N + 1 <= nlat ->
  exists cr ci, onedtotwod_vrt_at E (Z.of_nat N) nlat (Some r) (fin v) = Some (cr, ci) /\
    is_matrix N nlat (rd2 nlat cr) (Some 0f) (fun m n (c : C) => vrt_in r n (fst c)) v /\
    is_matrix N nlat (rd2 nlat ci) (Some 0f) (fun m n (c : C) => vrt_in r n (snd c)) v.
Proof.
  intros Hv HN.
  destruct (two_store E (fun n c => rdiv E (rmul E (n_factor_in E (Some r) n) (fst c)) (half E))
      (fun n c => rdiv E (rmul E (n_factor_in E (Some r) n) (snd c)) (half E)) N nlat (fin v))
    as (cr & ci & Eq & _ & _ & M1 & M2); [rewrite fin_length; lia|exact HN|].
  exists cr, ci. split; [exact Eq|]. split.
  - apply (matrix_fin N nlat _ (fun n x => rdiv E (rmul E (n_factor_in E (Some r) n) x) (half E)) (vrt_in r) (fun B => @fst B B) v);
      [intros; apply vrt_in_spec|reflexivity|exact M1].
  - apply (matrix_fin N nlat _ (fun n x => rdiv E (rmul E (n_factor_in E (Some r) n) x) (half E)) (vrt_in r) (fun B => @snd B B) v);
      [intros; apply vrt_in_spec|reflexivity|exact M2].
Qed.
Lemma div_in_result N nlat r (v : list C) : length v = tri N -> Z.of_nat N + 1 <= nlat ->
  exists br bi, onedtotwod_div_at E (Z.of_nat N) nlat (Some r) (fin v) = Some (br, bi) /\
    is_matrix N nlat (rd2 nlat br) (Some 0f) (fun m n (c : C) => div_in r n (fst c)) v /\
    is_matrix N nlat (rd2 nlat bi) (Some 0f) (fun m n (c : C) => div_in r n (snd c)) v.
Proof.
  intros Hv HN.
  destruct (two_store E (fun n c => rdiv E (rmul E (ropp E (n_factor_in E (Some r) n)) (fst c)) (half E))
      (fun n c => rdiv E (rmul E (ropp E (n_factor_in E (Some r) n)) (snd c)) (half E)) N nlat (fin v))
    as (cr & ci & Eq & _ & _ & M1 & M2); [rewrite fin_length; lia|exact HN|].
  exists cr, ci. split; [exact Eq|]. split.
  - apply (matrix_fin N nlat _ (fun n x => rdiv E (rmul E (ropp E (n_factor_in E (Some r) n)) x) (half E)) (div_in r) (fun B => @fst B B) v);
      [intros; apply div_in_spec|reflexivity|exact M1].
  - apply (matrix_fin N nlat _ (fun n x => rdiv E (rmul E (ropp E (n_factor_in E (Some r) n)) x) (half E)) (div_in r) (fun B => @snd B B) v);
      [intros; apply div_in_spec|reflexivity|exact M2].
Qed.

(** the way back *)
Lemma n_factor_out_E r n : r <> 0f ->
  n_factor_out E (rdiv E (rz E 1) (Some r)) n = Some (rmul A (rmul A (s_of n) (rdiv A 1f r)) (half A)).
Proof.
  intro Hr. unfold n_factor_out. rewrite half_E. cbn [ext rdiv rz rmul rsub rsqrt option_map].
  rewrite is0_false by exact Hr. reflexivity.
Qed.
Lemma back_vrt r n x : r <> 0f -> (1 <= n)%nat ->
  rmul E (n_factor_out E (rdiv E (rz E 1) (Some r)) (Z.of_nat n + 1)) (vrt_in r n x) = Some x.
Proof.
  intros Hr Hn. rewrite n_factor_out_E by exact Hr. unfold vrt_in. destruct (Nat.eqb_spec n 0); [lia|].
  cbn [ext rmul]. f_equal. pose proof (s_nz (Z.of_nat n + 1) ltac:(lia)) as Hs. pose proof half_nz as Hh.
  field. repeat split; assumption.
Qed.
Lemma back_div r n x : r <> 0f -> (1 <= n)%nat ->
  rmul E (ropp E (n_factor_out E (rdiv E (rz E 1) (Some r)) (Z.of_nat n + 1))) (div_in r n x) = Some x.
Proof.
  intros Hr Hn. rewrite n_factor_out_E by exact Hr. unfold div_in. destruct (Nat.eqb_spec n 0); [lia|].
  cbn [ext rmul ropp option_map]. f_equal. pose proof (s_nz (Z.of_nat n + 1) ltac:(lia)) as Hs. pose proof half_nz as Hh.
  field. repeat split; assumption.
Qed.
Definition no_mean (d : list C) : list CE := (None, None) :: tl (fin d).
Lemma no_mean_length N d : length d = tri N -> length (no_mean d) = tri N.
Proof.
  intro H. unfold no_mean. pose proof (tri2 N). destruct d as [|c d]; [cbn [length] in H; lia|].
  cbn [fin map tl length] in *. rewrite map_length. exact H.
Qed.
Lemma no_mean_nth N d k m n c : length d = tri N -> nth_error (pairs N) k = Some (m, n) -> nth_error d k = Some c ->
  nth_error (no_mean d) k = Some (if (n =? 0)%nat then (None, None) else (Some (fst c), Some (snd c))).
Proof.
  intros Hd Hk Hc. destruct (pairs_head N) as [pl Ep]. destruct k as [|k].
  - rewrite Ep in Hk. injection Hk as <- <-. reflexivity.
  - assert (H : nth_error (tl (pairs N)) k = Some (m, n)) by (rewrite Ep in *; exact Hk).
    apply pairs_tail in H. destruct (Nat.eqb_spec n 0); [lia|].
    destruct d as [|c0 d]; [discriminate|]. unfold no_mean. cbn [fin map tl nth_error] in *.
    rewrite nth_error_map, Hc. reflexivity.
Qed.
Lemma vrt_roundtrip N nlat r (v : list C) : r <> 0f -> length v = tri N -> Z.of_nat N + 1 <= nlat ->
  exists cr ci, onedtotwod_vrt_at E (Z.of_nat N) nlat (Some r) (fin v) = Some (cr, ci) /\
    twodtooned_vrt E nlat (Z.of_nat N) (Some r) cr ci = Some (no_mean v).
Proof.
  intros Hr Hv HN. destruct (vrt_in_result N nlat r v Hv HN) as (cr & ci & Eq & [M1 _] & [M2 _]).
  exists cr, ci. split; [exact Eq|].
  apply (gather E (fun n c => cscale E (n_factor_out E (rdiv E (rz E 1) (Some r)) n) c)); [apply no_mean_length; exact Hv|].
  intros k m n Hk. destruct (index_unique _ _ _ _ Hk) as [Ek B].
  destruct (nth_error v k) as [c|] eqn:Ec.
  2:{ apply nth_error_None in Ec. pose proof (index_lt N m n B). lia. }
  rewrite Ek in Ec. exists (vrt_in r n (fst c)), (vrt_in r n (snd c)).
  split; [apply (M1 m n c B Ec)|]. split; [apply (M2 m n c B Ec)|]. rewrite <- Ek in Ec.
  rewrite (no_mean_nth N v k m n c Hv Hk Ec). unfold cscale; cbn [fst snd].
  destruct (Nat.eqb_spec n 0) as [->|Hn].
  - rewrite n_factor_out_E by exact Hr. reflexivity.
  - rewrite !back_vrt by (try exact Hr; lia). reflexivity.
Qed.
Lemma div_roundtrip N nlat r (v : list C) : r <> 0f -> length v = tri N -> Z.of_nat N + 1 <= nlat ->
  exists br bi, onedtotwod_div_at E (Z.of_nat N) nlat (Some r) (fin v) = Some (br, bi) /\
    twodtooned_div E nlat (Z.of_nat N) (Some r) br bi = Some (no_mean v).
Proof.
  intros Hr Hv HN. destruct (div_in_result N nlat r v Hv HN) as (cr & ci & Eq & [M1 _] & [M2 _]).
  exists cr, ci. split; [exact Eq|].
  apply (gather E (fun n c => cscale E (ropp E (n_factor_out E (rdiv E (rz E 1) (Some r)) n)) c)); [apply no_mean_length; exact Hv|].
  intros k m n Hk. destruct (index_unique _ _ _ _ Hk) as [Ek B].
  destruct (nth_error v k) as [c|] eqn:Ec.
  2:{ apply nth_error_None in Ec. pose proof (index_lt N m n B). lia. }
  rewrite Ek in Ec. exists (div_in r n (fst c)), (div_in r n (snd c)).
  split; [apply (M1 m n c B Ec)|]. split; [apply (M2 m n c B Ec)|]. rewrite <- Ek in Ec.
  rewrite (no_mean_nth N v k m n c Hv Hk Ec). unfold cscale; cbn [fst snd].
  destruct (Nat.eqb_spec n 0) as [->|Hn].
  - rewrite n_factor_out_E by exact Hr. reflexivity.
  - rewrite !back_div by (try exact Hr; lia). reflexivity.
Qed.
(** gradient: divergence coefficients from a Laplacian *)
Lemma grad_value r n x : r <> 0f -> 2 <= n ->
  rmul A (s_of n) (s_of n) = rmul A (rz A n) (rsub A (rz A n) 1f) ->
  rdiv A (rmul A (ropp A (n_factor_in A r n)) (rmul A (lapf A r n) x)) (half A)
  = rdiv A (rmul A (rz A 2) (rmul A (s_of n) x)) r.
Proof.
  intros Hr Hn Hs. pose proof (s_nz n Hn) as Hs0. unfold lapf, n_factor_in. fold (s_of n).
  assert (H2 : rz A 2 <> 0f) by (apply (rl_nz A LW); lia).
  transitivity (rdiv A (rmul A (rz A 2) (rmul A (rmul A (rz A n) (rsub A (rz A n) 1f)) x)) (rmul A (s_of n) r)).
  - unfold half. field. repeat split; try assumption.
    all: try exact half_nz; apply (rl_nz A LW 1); lia.
  - rewrite <- Hs. field. split; assumption.
Qed.
End Vals.
