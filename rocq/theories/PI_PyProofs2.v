From Coq Require Import Reals List Arith Lia ZArith Bool Permutation Lra String.
From Verif Require SH_Proofs.
From Verif Require Import Base Buffer VH_Model VH_Proofs PI_Model PI_Model2 PI_Spec PI_Proofs1 PI_Proofs2 PI_Proofs3 PI_Proofs4 PI_Props2 PI_Py PI_PySpec PI_PyProofs.
Import ListNotations.
Local Open Scope nat_scope.

Lemma flip_rev {A} (l : list A) d : flip_list 1 (List.length l) l d = rev l.
Proof.
  symmetry. apply flip_unique with (q := 1); rewrite ?rev_length; try lia. intros t k z Ht Hk Hz.
  assert (t = 0) by lia. assert (z = 0) by lia. subst.
  replace (0 + 1 * (k + List.length l * 0)) with k by lia. replace (0 + 1 * (List.length l - 1 - k + List.length l * 0)) with (List.length l - 1 - k) by lia.
  destruct l as [|a l]; [cbn in Hk; lia|]. rewrite (nth_error_nth' (rev (a :: l)) a) by (rewrite rev_length; auto). rewrite rev_nth by auto.
  symmetry. replace (List.length (a :: l) - S k) with (List.length (a :: l) - 1 - k) by lia. apply nth_error_nth'. lia.
Qed.
Definition ord {A} (P : list R) (l : list A) : list A := if upside_down P then rev l else l.
Lemma ord_length {A} P (l : list A) : List.length (ord P l) = List.length l.
Proof. unfold ord. destruct (upside_down P); rewrite ?rev_length; auto. Qed.

Lemma shape_eqb_refl a : shape_eqb a a = true.
Proof. unfold shape_eqb. destruct (list_eq_dec _ a a); auto. Qed.
Lemma shape_eqb_eq a b : shape_eqb a b = true <-> a = b.
Proof. unfold shape_eqb. destruct (list_eq_dec _ a b); split; auto; discriminate. Qed.
(** the compiled outflow flag and CKCD of a call *)
Definition settings (diag : option (string * R)) (ofl : Z) (ck : R) : Prop :=
  match diag with None => ofl = 0%Z /\ ck = (9 / 10)%R | Some (s, k) => outflow_flag s = Ret ofl /\ ck = k end.
Definition is_diag (diag : option (string * R)) : bool := match diag with None => false | _ => true end.

Lemma single_is_diag s p nl P T r o : 1 <= nl -> calculate_pi_profile_diagnostics s p nl P T r nl 0 (9 / 10) = Some o ->
  calculate_pi_single_profile s p P T r nl = Some (o_pmin o, o_vmax o, o_flag o).
Proof.
  intros N H. unfold calculate_pi_profile_diagnostics in H. unfold calculate_pi_single_profile.
  replace (Nat.min (Nat.max nl 1) nl) with nl in H by lia. destruct (rle (to_C s) 5); [injection H as <-; auto|]. rewrite H. auto.
Qed.

Section Calls.
Variables (sched : nat -> list nat) (junk : nat -> list (list R)) (flag0 : Z).
Notation call := (pi_call sched junk flag0).

(** a call on one column *)
Lemma profile_call diag ofl ck (s p : R) (P Tc rc : list (option R)) nl o : settings diag ofl ck ->
  List.length P = nl -> List.length Tc = nl -> List.length rc = nl -> 1 <= nl ->
  let P0 := map nan_undef P in
  calculate_pi_profile_diagnostics s p nl (ord P0 P0) (ord P0 (map nan_undef Tc)) (ord P0 (map nan_undef rc)) nl ofl ck = Some o ->
  exists x, call diag (scalar (Some s)) (scalar (Some p)) P (vec Tc) (vec rc) None = Some (Ret x) /\
    sh (r_val x) = [] /\ dat (r_val x) = map post (fields (is_diag diag) o) :: nil /\ r_flag x = o_flag o.
Proof.
  intros HS LP LT Lr N P0 Ho.
  assert (LP0 : List.length P0 = nl) by (unfold P0; rewrite map_length; auto).
  set (q := mkprep Profile (scalar s) (scalar p) (ord P0 P0) (vec (ord P0 (map nan_undef Tc))) (vec (ord P0 (map nan_undef rc))) false nl).
  assert (EP : prepare_inputs (scalar (Some s)) (scalar (Some p)) P (vec Tc) (vec rc) None = Some (Ret q)).
  { unfold prepare_inputs, detect_kind, py_float, prepare_profile, py_len, vec. cbn [sh dat List.length scalar].
    rewrite LT, Lr, LP, Nat.eqb_refl. cbn [andb negb]. fold P0.
    rewrite ordering_flipped; [|left; reflexivity|cbn; auto]. unfold flipped, cleaned. cbn [sh dat below levels_of].
    replace (flip_list 1 nl (map nan_undef Tc) 0%R) with (rev (map nan_undef Tc)) by (rewrite <- (flip_rev _ 0%R), map_length, LT; auto).
    replace (flip_list 1 nl (map nan_undef rc) 0%R) with (rev (map nan_undef rc)) by (rewrite <- (flip_rev _ 0%R), map_length, Lr; auto).
    unfold q, vec, ord. destruct (upside_down P0); unfold dimensions_ok; cbn [sh]; rewrite ?rev_length, ?map_length, ?LP0, ?LT, ?Lr, !shape_eqb_refl; cbn [andb negb];
      (destruct (Z.ltb_spec (Z.of_nat nl) 1); [lia|]); rewrite Z.ltb_irrefl; cbn [orb]; rewrite Nat2Z.id; reflexivity. }
  unfold pi_call. rewrite EP. cbn [bind]. unfold settings in HS. destruct diag as [[src k]|].
  - destruct HS as [-> ->]. unfold calc. cbn [q_kind q q_T vec sh q_sst q_psl scalar dat q_P q_r q_actual].
    rewrite ord_length, LP0. rewrite Ho. cbn [bind]. eexists. split; [reflexivity|]. cbn. auto.
  - destruct HS as [-> ->]. unfold calc. cbn [q_kind q q_T vec sh q_sst q_psl scalar dat q_P q_r q_actual].
    rewrite (single_is_diag _ _ nl _ _ _ o) by auto. cbn [bind]. eexists. split; [reflexivity|]. cbn. auto.
Qed.

(** * Columns, uniformly *)
Definition colG {A} (m nl : nat) (X : list A) (t z : nat) (c : list A) : Prop :=
  List.length c = nl /\ forall k, k < nl -> nth_error X (t + m * (k + nl * z)) = nth_error c k.
Lemma colG_unique {A} m nl (X : list A) t z c c' : colG m nl X t z c -> colG m nl X t z c' -> c = c'.
Proof.
  intros [L H] [L' H']. apply SH_Proofs.nth_error_ext_all. intros k. destruct (Nat.lt_ge_cases k nl) as [K|K].
  - rewrite <- H, <- H' by auto. auto.
  - rewrite !(proj2 (nth_error_None _ _)); auto; lia.
Qed.
Lemma colG_map {A B} (f : A -> B) m nl X t z c : colG m nl X t z c -> colG m nl (map f X) t z (map f c).
Proof. intros [L H]. split; [rewrite map_length; auto|]. intros k K. rewrite !nth_error_map, H by auto. auto. Qed.
Lemma colG_flip {A} m nl q (X : list A) t z c d : List.length X = m * nl * q -> t < m -> z < q -> colG m nl X t z c -> colG m nl (flip_list m nl X d) t z (rev c).
Proof.
  intros LX Ht Hz [L H]. split; [rewrite rev_length; auto|]. intros k K. rewrite (flip_at m nl q) by auto. rewrite H by lia.
  destruct c as [|a c]; [cbn in L; lia|]. rewrite (nth_error_nth' (rev (a :: c)) a) by (rewrite rev_length; lia). rewrite rev_nth by lia.
  rewrite L. replace (nl - S k) with (nl - 1 - k) by lia. apply nth_error_nth'. lia.
Qed.
Lemma colG_exists {A} m nl q (X : list A) t z : List.length X = m * nl * q -> t < m -> z < q -> exists c, colG m nl X t z c.
Proof.
  intros L Ht Hz. destruct X as [|d X].
  - destruct nl as [|nl]; [exists []; split; [auto|intros; lia]|]. cbn in L. assert (0 < m * S nl * q) by nia. lia.
  - exists (map (fun k => nth (t + m * (k + nl * z)) (d :: X) d) (seq 0 nl)). split; [rewrite map_length, seq_length; auto|].
    intros k K. rewrite nth_error_map, (nth_error_nth' (seq 0 nl) 0) by (rewrite seq_length; auto). rewrite seq_nth by auto. cbn [option_map plus].
    apply nth_error_nth'. rewrite L. apply box; auto.
Qed.
Lemma col3_G nl X c T : col3 nl X c T -> colG 1 nl X 0 c T.
Proof.
  intros [L H]. split; auto. intros k K. specialize (H k K). rewrite Nat.add_1_r in H. cbn [rd] in H.
  replace (k + 1 + nl * c) with (S (k + nl * c)) in H by lia. cbn [rd] in H.
  replace (0 + 1 * (k + nl * c)) with (k + nl * c) by lia. auto.
Qed.
Lemma col4_G nt nl X c T : col4 nt nl X c T -> colG nt nl X (c mod nt) (c / nt) T.
Proof.
  intros [L H]. split; auto. intros k K. specialize (H k K). rewrite (Nat.add_1_r k) in H. cbn [rd] in H.
  replace (c mod nt + 1 + nt * (k + nl * (c / nt))) with (S (c mod nt + nt * (k + nl * (c / nt)))) in H by lia. auto.
Qed.
(** the column of the array handed to the compiled routine *)
Lemma ordered_column P0 m nl q (X : list (option R)) t z c : List.length X = m * nl * q -> t < m -> z < q -> colG m nl X t z c ->
  colG m nl (if upside_down P0 then flip_list m nl (map nan_undef X) 0%R else map nan_undef X) t z (ord P0 (map nan_undef c)).
Proof.
  intros L Ht Hz H. unfold ord. destruct (upside_down P0); [|apply colG_map; auto].
  apply colG_flip with (q := q); auto; [rewrite map_length; auto|apply colG_map; auto].
Qed.

(** * The gridded routines *)
Hypothesis HJ : forall N, List.length (junk N) = N.
Hypothesis HSch : forall N, Permutation (sched N) (seq 0 N).

Definition npoints (four : bool) (nt nlat nlon : nat) : nat := if four then nt * nlat * nlon else nlat * nlon.
Definition pcol (four : bool) (nt nl : nat) : list R -> nat -> list R -> Prop := if four then col4 nt nl else col3 nl.
Definition zsettings (diag : option (Z * R)) (ofl : Z) (ck : R) : Prop :=
  match diag with None => ofl = 0%Z /\ ck = (9 / 10)%R | Some (o, k) => ofl = o /\ ck = k end.
Definition zdiag (diag : option (Z * R)) : bool := match diag with None => false | _ => true end.

Lemma run_plain four diag ofl ck nt nl nlat nlon g vals fl lk : 1 <= nl -> zsettings diag ofl ck -> (four = true \/ (0 < ck)%R) ->
  run_grid sched junk flag0 four false diag nt nl nlat nlon g = Some (vals, fl, lk) ->
  exists f, grid_result (npoints four nt nlat nlon) (plain_point (zdiag diag) nl ofl ck (pcol four nt nl) g) vals f.
Proof.
  intros N HZ HK H. unfold run_grid in H. destruct four; destruct diag as [[o k]|]; cbn [zdiag npoints pcol] in *; destruct HZ as [-> ->].
  - bnd H x Ex. destruct x as [[v z] l]. injection H as <- _ _.
    destruct (C82_4d_diagnostics _ nt nlat nlon nl g (junk (nt * nlat * nlon)) o k v z l N (HSch _) (HJ _) Ex) as [(f & G & _) _]. eauto.
  - bnd H x Ex. destruct x as [v z]. injection H as <- _ _.
    destruct (C82_4d_data _ nt nlat nlon nl g (junk (nt * nlat * nlon)) v z N (HSch _) (HJ _) Ex) as (f & G & _). eauto.
  - bnd H x Ex. destruct x as [[v z] l]. injection H as <- _ _. destruct HK as [HK|HK]; [discriminate|].
    destruct (C82_gridded_diagnostics _ nlat nlon nl g (junk (nlat * nlon)) o k v z l N HK (HSch _) (HJ _) Ex) as [(f & G & _) _]. eauto.
  - bnd H x Ex. destruct x as [v z]. injection H as <- _ _.
    destruct (C82_gridded_data_partial nlat nlon nl g (junk (nlat * nlon)) flag0 v z N (HJ _) Ex) as (f & G & _). eauto.
Qed.
Lemma run_missing four diag ofl ck nt nl nlat nlon g vals fl lk : zsettings diag ofl ck ->
  run_grid sched junk flag0 four true diag nt nl nlat nlon g = Some (vals, fl, lk) ->
  exists f, grid_result (npoints four nt nlat nlon) (missing_point (zdiag diag) nl ofl ck (pcol four nt nl) g) vals f.
Proof.
  intros HZ H. unfold run_grid in H. destruct four; destruct diag as [[o k]|]; cbn [zdiag npoints pcol] in *; destruct HZ as [-> ->].
  - bnd H x Ex. destruct x as [[v z] l]. injection H as <- _ _.
    destruct (C82_4d_diagnostics_with_missing _ nt nlat nlon nl g (junk (nt * nlat * nlon)) o k v z l (HSch _) (HJ _) Ex) as [(f & G & _) _]. eauto.
  - bnd H x Ex. destruct x as [v z]. injection H as <- _ _.
    destruct (C82_4d_with_missing _ nt nlat nlon nl g (junk (nt * nlat * nlon)) v z (HSch _) (HJ _) Ex) as (f & G & _). eauto.
  - bnd H x Ex. destruct x as [[v z] l]. injection H as <- _ _.
    destruct (C82_gridded_diagnostics_with_missing _ nlat nlon nl g (junk (nlat * nlon)) o k v z l (HSch _) (HJ _) Ex) as [(f & G & _) _]. eauto.
  - bnd H x Ex. destruct x as [v z]. injection H as <- _ _.
    destruct (C82_gridded_with_missing_partial nlat nlon nl g (junk (nlat * nlon)) v z (HJ _) Ex) as (f & G & _). eauto.
Qed.
End Calls.
