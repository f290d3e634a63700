(** Proofs about the tropopause drivers. *)
From Coq Require Import Reals.
From Verif Require Import Base Buffer VH_Model VH_Proofs TP_Model TP_Spec TP_Proofs.
Local Close Scope Qc_scope.
Local Open Scope nat_scope.

Section D.
Variable A : fl.
Variables (hgt : A -> A) (tmsg crit : A).
Notation marker := (fc A 1 10000000000).
Hypothesis CRIT : fltb A (fc A 1000000000 1) crit = false.

Lemma stattropx_ok p t punit lapse phalf : length t = length p -> length p - 1 <= length lapse -> length p - 1 <= length phalf ->
  let pm := if (punit =? 0)%Z then p else map (fun x => fmul A x (fc A 1 100)) p in
  let out := fun q => if (punit =? 0)%Z then q else fmul A q (fc A 100 1) in
  exists ptrop itrop work, stattropx A p t tmsg crit punit lapse phalf = Some (ptrop, itrop, work) /\
    (forall k r h, layer A pm t k r h -> nth_error work k = Some r) /\
    ((exists k q, first_tropopause A pm t crit k q /\ ptrop = out (fmax A q (fc A 85 1)) /\ itrop = Z.of_nat k) \/
     ((forall k q, ~ tropopause A pm t crit k q) /\ ptrop = out tmsg /\ itrop = (-1000)%Z)).
Proof.
  intros LT L1 L2 pm out. unfold stattropx. fold pm.
  assert (LP : length pm = length p) by (unfold pm; destruct (punit =? 0)%Z; rewrite ?map_length; auto).
  destruct (dstattrop_ok A pm t ltac:(congruence) tmsg crit CRIT lapse phalf ltac:(lia) ltac:(lia)) as (q & i & w & -> & W & D).
  cbn [bind fst snd]. do 3 eexists. split; [reflexivity|]. split; [auto|].
  destruct D as [(k & q' & T & -> & ->)|(N & -> & ->)].
  - left. exists k, q'. split; [auto|]. split; [reflexivity|lia].
  - right. split; [auto|]. split; [reflexivity|lia].
Qed.

Lemma first_fun p t k q k' q' : first_tropopause A p t crit k q -> first_tropopause A p t crit k' q' -> k = k' /\ q = q'.
Proof.
  intros (T & U) (T' & U'). assert (k = k') as <-.
  { destruct (lt_eq_lt_dec k k') as [[L|L]|L]; [|auto|]; exfalso; [apply (U k' q')|apply (U' k q)]; auto. }
  split; [auto|]. destruct T as (_ & C & _), T' as (_ & C' & _). eapply crossing_fun; eauto.
Qed.

Lemma solve_indep p t punit lapse phalf lapse' phalf' : length t = length p ->
  length p - 1 <= length lapse -> length p - 1 <= length phalf -> length p - 1 <= length lapse' -> length p - 1 <= length phalf' ->
  solve_column A hgt p t tmsg crit punit lapse phalf = solve_column A hgt p t tmsg crit punit lapse' phalf'.
Proof.
  intros LT L1 L2 L1' L2'. unfold solve_column.
  destruct (stattropx_ok p t punit lapse phalf LT L1 L2) as (q & i & w & -> & W & D).
  destruct (stattropx_ok p t punit lapse' phalf' LT L1' L2') as (q' & i' & w' & -> & W' & D'). cbn [bind].
  set (pm := if (punit =? 0)%Z then p else map (fun x => fmul A x (fc A 1 100)) p) in *.
  assert (LP : length pm = length p) by (unfold pm; destruct (punit =? 0)%Z; rewrite ?map_length; auto).
  destruct D as [(k & x & T & -> & ->)|(N & -> & ->)], D' as [(k' & x' & T' & -> & ->)|(N' & -> & ->)].
  - destruct (first_fun _ _ _ _ _ _ T T') as [<- <-].
    match goal with |- context [fltb A ?a ?b] => destruct (fltb A a b) end; [|reflexivity].
    destruct ((1 <=? Z.of_nat k)%Z && (Z.of_nat k <? Z.of_nat (length p) - 1)%Z) eqn:E; [|reflexivity].
    apply andb_true_iff in E as [E1 E2]. apply Z.ltb_lt in E2.
    destruct (layer_at A pm t ltac:(congruence) k ltac:(lia)) as (r & h & Y).
    replace (Z.to_nat (Z.of_nat k + 1)) with (S k) by lia. cbn [rd]. rewrite (W _ _ _ Y), (W' _ _ _ Y). reflexivity.
  - exfalso. destruct T as [T _]. apply (N' _ _ T).
  - exfalso. destruct T' as [T' _]. apply (N _ _ T').
  - reflexivity.
Qed.

(** outcome in hPa *)
Lemma solve_hpa p t lapse phalf : length t = length p -> length p - 1 <= length lapse -> length p - 1 <= length phalf ->
  (forall q, fltb A marker (fabs A (fsub A (fmax A q (fc A 85 1)) tmsg)) = true) ->
  fltb A marker (fabs A (fsub A tmsg tmsg)) = false ->
  exists res, solve_column A hgt p t tmsg crit 0 lapse phalf = Some res /\
    ((exists k q, first_tropopause A p t crit k q /\ r_pressure A res = fmax A q (fc A 85 1) /\
        r_height A res = dstdatmp A hgt (fmax A q (fc A 85 1)) /\ r_index A res = Z.of_nat k /\
        (k = 0 -> r_lapse A res = tmsg) /\ (forall r h, 0 < k -> layer A p t k r h -> r_lapse A res = r) /\
        r_success A res = 1%Z) \/
     ((forall k q, ~ tropopause A p t crit k q) /\ res = missing_result A tmsg)).
Proof.
  intros LT L1 L2 H1 H2. unfold solve_column.
  destruct (stattropx_ok p t 0%Z lapse phalf LT L1 L2) as (q & i & w & -> & W & D). cbn [Z.eqb bind] in *.
  destruct D as [(k & x & T & -> & ->)|(N & -> & ->)].
  - rewrite H1. destruct (T) as [T0 _]. pose proof (tropopause_bound A p t LT crit k x T0) as B.
    destruct (layer_at A p t LT k ltac:(lia)) as (r & h & Y).
    destruct (Nat.eq_dec k 0) as [->|NK].
    + cbn [Z.of_nat Z.leb Z.compare andb bind]. eexists. split; [reflexivity|]. left. exists 0, x. cbn [r_pressure r_height r_index r_lapse r_success].
      split; [exact T|]. repeat split; auto. intros; lia.
    + destruct (Z.leb_spec 1 (Z.of_nat k)); [|lia]. destruct (Z.ltb_spec (Z.of_nat k) (Z.of_nat (length p) - 1)); [|lia]. cbn [andb].
      replace (Z.to_nat (Z.of_nat k + 1)) with (S k) by lia. cbn [rd]. rewrite (W _ _ _ Y). cbn [bind].
      eexists. split; [reflexivity|]. left. exists k, x. cbn [r_pressure r_height r_index r_lapse r_success].
      split; [exact T|]. repeat split; auto. intros; lia.
      intros r' h' _ Y'. destruct (layer_fun A p t _ _ _ _ _ Y Y') as [<- _]. auto.
  - rewrite H2. eexists. split; [reflexivity|]. right. auto.
Qed.

(** in Pa, the marker is multiplied by 100 before it is recognised *)
Lemma solve_pa p t punit lapse phalf : (punit =? 0)%Z = false ->
  length t = length p -> length p - 1 <= length lapse -> length p - 1 <= length phalf ->
  fltb A marker (fabs A (fsub A (fmul A tmsg (fc A 100 1)) tmsg)) = true ->
  (forall k q, ~ tropopause A (map (fun x => fmul A x (fc A 1 100)) p) t crit k q) ->
  let x := fmul A (fmul A tmsg (fc A 100 1)) (fc A 1 100) in
  solve_column A hgt p t tmsg crit punit lapse phalf = Some (mk_result A x (dstdatmp A hgt x) (-1000) tmsg 1).
Proof.
  intros PU LT L1 L2 H1 N. unfold solve_column.
  destruct (stattropx_ok p t punit lapse phalf LT L1 L2) as (q & i & w & -> & W & D). rewrite PU in *. cbn [bind] in *.
  destruct D as [(k & x & T & _)|(_ & -> & ->)]; [exfalso; destruct T as [T _]; apply (N _ _ T)|].
  rewrite H1. reflexivity.
Qed.

(** ** validity *)
Lemma all_present_ok l : all_present A tmsg l = true <-> (forall x, In x l -> is_missing A tmsg x = false).
Proof.
  induction l as [|a l IH]; cbn [all_present In]; [intuition|].
  destruct (is_missing A tmsg a) eqn:E.
  - split; [discriminate|]. intros H. rewrite (H a) in E by auto. discriminate.
  - rewrite IH. split; [intros H x [<-|I]; auto|intros H x I; auto].
Qed.
Lemma both_ok p t : length t = length p ->
  both_present A tmsg (length p) 1 p t = Some (all_present A tmsg t && all_present A tmsg p).
Proof.
  assert (G : forall n m, m + n = length p -> length t = length p ->
    both_present A tmsg n (m + 1) p t = Some (all_present A tmsg (skipn m t) && all_present A tmsg (skipn m p))).
  { induction n as [|n IH]; intros m H LT; cbn [both_present].
    - rewrite !skipn_all2 by lia. reflexivity.
    - destruct (nth_error p m) as [a|] eqn:P0; [|apply nth_error_None in P0; lia].
      destruct (nth_error t m) as [b|] eqn:T0; [|apply nth_error_None in T0; lia].
      replace (rd p (m + 1)) with (Some a) by (rewrite Nat.add_1_r; auto).
      replace (rd t (m + 1)) with (Some b) by (rewrite Nat.add_1_r; auto). cbn [bind].
      assert (S1 : forall (l : list A) x, nth_error l m = Some x -> skipn m l = x :: skipn (m + 1) l).
      { clear. intros l. revert m. induction l as [|y l IH]; intros [|m] x E; cbn in *; try discriminate; [congruence|]. apply IH; auto. }
      rewrite (S1 p a P0), (S1 t b T0). cbn [all_present]. rewrite (IH (m + 1)) by lia.
      destruct (is_missing A tmsg a), (is_missing A tmsg b); cbn [orb andb]; rewrite ?andb_false_r; reflexivity. }
  intros LT. apply (G (length p) 0); auto.
Qed.
Lemma profile_agrees p t punit lapse phalf : length t = length p ->
  profile_1d A hgt p t tmsg crit punit lapse phalf = grid_column A hgt p t tmsg crit punit lapse phalf.
Proof.
  intros LT. unfold profile_1d, grid_column. rewrite both_ok by auto. cbn [bind].
  destruct (all_present A tmsg t), (all_present A tmsg p); reflexivity.
Qed.
Lemma column_total p t punit lapse phalf : length t = length p -> length p - 1 <= length lapse -> length p - 1 <= length phalf ->
  exists res, grid_column A hgt p t tmsg crit punit lapse phalf = Some res.
Proof.
  intros LT L1 L2. unfold grid_column. destruct (all_present A tmsg t), (all_present A tmsg p); eauto.
  unfold solve_column. destruct (stattropx_ok p t punit lapse phalf LT L1 L2) as (q & i & w & -> & W & D). cbn [bind].
  set (pm := if (punit =? 0)%Z then p else map (fun x => fmul A x (fc A 1 100)) p) in *.
  assert (LP : length pm = length p) by (unfold pm; destruct (punit =? 0)%Z; rewrite ?map_length; auto).
  match goal with |- context [fltb A ?a ?b] => destruct (fltb A a b) end; eauto.
  destruct ((1 <=? i)%Z && (i <? Z.of_nat (length p) - 1)%Z) eqn:E; cbn [bind]; eauto.
  apply andb_true_iff in E as [E1 E2]. apply Z.ltb_lt in E2. apply Z.leb_le in E1.
  destruct (layer_at A pm t ltac:(congruence) (Z.to_nat i) ltac:(lia)) as (r & h & Y).
  replace (Z.to_nat (i + 1)) with (S (Z.to_nat i)) by lia. cbn [rd]. rewrite (W _ _ _ Y). cbn [bind]. eauto.
Qed.
Lemma column_indep p t punit lapse phalf lapse' phalf' : length t = length p ->
  length p - 1 <= length lapse -> length p - 1 <= length phalf -> length p - 1 <= length lapse' -> length p - 1 <= length phalf' ->
  grid_column A hgt p t tmsg crit punit lapse phalf = grid_column A hgt p t tmsg crit punit lapse' phalf'.
Proof. intros. unfold grid_column. rewrite (solve_indep p t punit lapse phalf lapse' phalf'); auto. Qed.

(** ** the loops over grid points *)
Lemma grid3_ok p tf punit la ph nlat nlon :
  (forall i j, 1 <= i <= nlat -> 1 <= j <= nlon -> exists r, grid_column A hgt p (tf i j) tmsg crit punit (la i j) (ph i j) = Some r) ->
  exists out, tropopause_grid_3d A hgt nlat nlon p tf tmsg crit punit la ph = Some out /\
    forall i j, 1 <= i <= nlat -> 1 <= j <= nlon ->
      grid_column A hgt p (tf i j) tmsg crit punit (la i j) (ph i j) = Some (out i j).
Proof.
  intros TOT. unfold tropopause_grid_3d.
  set (L := flat_map _ _).
  assert (IN : forall i j, In (i, j) L <-> 1 <= i <= nlat /\ 1 <= j <= nlon).
  { intros i j. unfold L. rewrite in_flat_map. split.
    - intros (b & B & I). apply in_map_iff in I as (a & E & I). injection E as -> ->. apply in_seq in B, I. lia.
    - intros [H1 H2]. exists j. rewrite in_seq. split; [lia|]. apply in_map_iff. exists i. rewrite in_seq. split; [auto|lia]. }
  assert (G : forall l out0, (forall x, In x l -> In x L) ->
    exists out, foldM (point_step A hgt p tf tmsg crit punit la ph) l out0 = Some out /\
      forall i j, (In (i, j) l -> grid_column A hgt p (tf i j) tmsg crit punit (la i j) (ph i j) = Some (out i j)) /\
                  (~ In (i, j) l -> out i j = out0 i j)).
  { induction l as [|[a b] l IH]; intros out0 SUB; cbn [foldM].
    - exists out0. split; [reflexivity|]. intros i j. split; [intros []|auto].
    - assert (B : In (a, b) L) by (apply SUB; left; auto). apply IN in B as [B1 B2].
      destruct (TOT a b B1 B2) as (r & E). unfold point_step at 1. rewrite E. cbn [bind].
      destruct (IH (fun a0 b0 => if (a0 =? a) && (b0 =? b) then r else out0 a0 b0)) as (out & E' & U); [intros; apply SUB; right; auto|].
      exists out. split; [exact E'|]. intros i j. destruct (U i j) as [U1 U2].
      assert (DEC : In (i, j) l \/ ~ In (i, j) l).
      { assert (PD : forall x y : nat * nat, {x = y} + {x <> y}) by (decide equality; apply Nat.eq_dec). destruct (in_dec PD (i, j) l); auto. }
      split.
      + intros [EQ|I]; [|auto]. injection EQ as <- <-. destruct DEC as [I|NI]; [auto|]. rewrite (U2 NI), !Nat.eqb_refl. cbn [andb]. exact E.
      + intros NI. rewrite U2 by (intros I; apply NI; right; auto).
        destruct (Nat.eqb_spec i a), (Nat.eqb_spec j b); cbn [andb]; auto. subst. exfalso. apply NI. left. auto. }
  destruct (G L (fun _ _ => missing_result A tmsg) (fun x H => H)) as (out & E & U).
  exists out. split; [exact E|]. intros i j H1 H2. apply (proj1 (U i j)). apply IN. auto.
Qed.

Lemma grid2_ok p tf punit la ph n :
  (forall i, 1 <= i <= n -> exists r, grid_column A hgt p (tf i) tmsg crit punit (la i) (ph i) = Some r) ->
  exists out, tropopause_grid_2d A hgt n p tf tmsg crit punit la ph = Some out /\
    forall i, 1 <= i <= n -> grid_column A hgt p (tf i) tmsg crit punit (la i) (ph i) = Some (out i).
Proof.
  intros TOT. unfold tropopause_grid_2d.
  match goal with |- context [foldM ?f _ _] => assert (G : forall l out0, (forall i, In i l -> 1 <= i <= n) ->
    exists out, foldM f l out0 = Some out /\
      forall i, (In i l -> grid_column A hgt p (tf i) tmsg crit punit (la i) (ph i) = Some (out i)) /\ (~ In i l -> out i = out0 i)) end.
  { induction l as [|a l IH]; intros out0 SUB; cbn [foldM].
    - exists out0. split; [reflexivity|]. intros i. split; [intros []|auto].
    - destruct (TOT a (SUB a ltac:(left; auto))) as (r & E). rewrite E. cbn [bind].
      destruct (IH (fun b => if b =? a then r else out0 b)) as (out & E' & U); [intros; apply SUB; right; auto|].
      exists out. split; [exact E'|]. intros i. destruct (U i) as [U1 U2]. split.
      + intros [<-|I]; [|auto]. destruct (in_dec Nat.eq_dec a l) as [I|NI]; [auto|]. rewrite (U2 NI), Nat.eqb_refl. exact E.
      + intros NI. rewrite U2 by (intros I; apply NI; right; auto).
        destruct (Nat.eqb_spec i a); auto. subst. exfalso. apply NI. left. auto. }
  destruct (G (seq 1 n) (fun _ => missing_result A tmsg)) as (out & E & U); [intros i I; apply in_seq in I; lia|].
  exists out. split; [exact E|]. intros i H. apply (proj1 (U i)). apply in_seq. lia.
Qed.
Lemma grid4_ok p tf punit la ph nlat nlon nt :
  (forall t i j, 1 <= t <= nt -> 1 <= i <= nlat -> 1 <= j <= nlon -> exists r, grid_column A hgt p (tf t i j) tmsg crit punit (la t i j) (ph t i j) = Some r) ->
  exists out, tropopause_grid_4d A hgt nlat nlon nt p tf tmsg crit punit la ph = Some out /\
    forall t i j, 1 <= t <= nt -> 1 <= i <= nlat -> 1 <= j <= nlon ->
      grid_column A hgt p (tf t i j) tmsg crit punit (la t i j) (ph t i j) = Some (out t i j).
Proof.
  intros TOT. unfold tropopause_grid_4d.
  match goal with |- context [foldM ?f _ _] => assert (G : forall l out0, (forall u, In u l -> 1 <= u <= nt) ->
    exists out, foldM f l out0 = Some out /\
      forall u i j, 1 <= i <= nlat -> 1 <= j <= nlon ->
        (In u l -> grid_column A hgt p (tf u i j) tmsg crit punit (la u i j) (ph u i j) = Some (out u i j)) /\ (~ In u l -> out u i j = out0 u i j)) end.
  { induction l as [|a l IH]; intros out0 SUB; cbn [foldM].
    - exists out0. split; [reflexivity|]. intros u i j _ _. split; [intros []|auto].
    - destruct (grid3_ok p (tf a) punit (la a) (ph a) nlat nlon) as (g & E & V).
      { intros i j Hi Hj. apply TOT; auto. apply SUB. left. auto. }
      rewrite E. cbn [bind].
      match goal with |- context [foldM _ l ?o] => destruct (IH o) as (out & E' & U); [intros; apply SUB; right; auto|] end.
      exists out. split; [exact E'|]. intros u i j Hi Hj. destruct (U u i j Hi Hj) as [U1 U2]. split.
      + intros [<-|I]; [|auto]. destruct (in_dec Nat.eq_dec a l) as [I|NI]; [auto|]. rewrite (U2 NI), Nat.eqb_refl. apply V; auto.
      + intros NI. rewrite U2 by (intros I; apply NI; right; auto).
        destruct (Nat.eqb_spec u a); auto. subst. exfalso. apply NI. left. auto. }
  destruct (G (seq 1 nt) (fun _ _ _ => missing_result A tmsg)) as (out & E & U); [intros i I; apply in_seq in I; lia|].
  exists out. split; [exact E|]. intros t i j H Hi Hj. apply (proj1 (U t i j Hi Hj)). apply in_seq. lia.
Qed.
End D.
