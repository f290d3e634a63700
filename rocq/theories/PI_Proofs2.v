(** Lemmas about the outflow and about calculate_pi_core. *)
From Coq Require Import Reals List Arith Lia ZArith Bool Lra.
From Verif Require Import Base Buffer VH_Model VH_Proofs PI_Model PI_Spec PI_Proofs1.
Import ListNotations.
Local Open Scope nat_scope.

(** ** Consequences of cape_result *)
Lemma conv_pos x y l : (0 < x -> 0 < y -> 0 < l <= 1 -> 0 < (1 - l) * x + l * y)%R.
Proof.
  intros X Y L. assert (0 <= (1 - l) * x)%R by (apply Rmult_le_pos; lra).
  assert (0 < l * y)%R by (apply Rmult_lt_0_compat; lra). lra.
Qed.

Lemma cape_result_bounds T p n pp v o : sounding T p n -> 1 <= n -> cape_result T p n pp v o ->
  c_flag o = 1%Z /\ (0 <= c_cape o)%R /\ (0 < c_T o)%R /\
  (c_cape o = 0%R /\ c_T o = lev T 1 /\ c_p o = 0%R \/
   exists l u, 2 <= l <= n /\ u <= n /\ (u = l + 1 \/ u = l) /\
     (lev p u <= c_p o <= lev p l)%R /\
     (Rmin (lev T l) (lev T u) <= c_T o <= Rmax (lev T l) (lev T u))%R).
Proof.
  intros (LT & LP & Pos & Dec) N [[_ ->]|(l & area & L & _ & _ & Fl & Ca & Out)].
  - cbn. split; [auto|]. split; [lra|]. split; [apply Pos; lia|]. left. auto.
  - split; [auto|]. split; [rewrite Ca; apply Rmax_r|].
    destruct Out as [(-> & _ & HT & HP)|(Ln & lam & Lam & _ & HP & HT & _)].
    + split; [rewrite HT; apply Pos; lia|]. right. exists n, n. split; [lia|]. split; [lia|]. split; [auto|].
      rewrite HP, HT. split; [lra|]. split; [apply Rmin_l|apply Rmax_l].
    + split; [rewrite HT; apply conv_pos; [apply Pos; lia|apply Pos; lia|auto]|].
      right. exists l, (l + 1). split; [lia|]. split; [lia|]. split; [auto|].
      assert (D : (lev p (l + 1) < lev p l)%R) by (apply Dec; lia). split.
      * rewrite HP. assert (0 <= lam * (lev p l - lev p (l + 1)))%R by (apply Rmult_le_pos; lra).
        assert (0 <= (1 - lam) * (lev p l - lev p (l + 1)))%R by (apply Rmult_le_pos; lra). lra.
      * rewrite HT. set (x := lev T l). set (y := lev T (l + 1)). 
        unfold Rmin, Rmax. destruct (Rle_dec x y) as [G|G].
        -- assert (0 <= lam * (y - x))%R by (apply Rmult_le_pos; lra).
           assert (0 <= (1 - lam) * (y - x))%R by (apply Rmult_le_pos; lra). lra.
        -- assert (0 <= lam * (x - y))%R by (apply Rmult_le_pos; lra).
           assert (0 <= (1 - lam) * (x - y))%R by (apply Rmult_le_pos; lra). lra.
Qed.

(** ** effective_points *)
Lemma find_top_some p : forall m k top top0,
  find_top p (seq k m) top (Rabs (lev p top - 50)) = Some top0 ->
  1 <= top < k -> 
  (forall i, 1 <= i < top -> (Rabs (lev p top - 50) < Rabs (lev p i - 50))%R) ->
  (forall i, 1 <= i < k -> (Rabs (lev p top - 50) <= Rabs (lev p i - 50))%R) ->
  nearest50 p (k + m - 1) top0.
Proof.
  induction m as [|m IH]; intros k top top0 H K A B; cbn [seq find_top] in H.
  - injection H as <-. split; [lia|]. split; [auto|]. intros. apply B. lia.
  - bnd H x Ex. apply rd_lev in Ex. destruct Ex as [<- _].
    replace (k + S m - 1) with (S k + m - 1) by lia.
    destruct (rlt_spec (Rabs (lev p k - 50)) (Rabs (lev p top - 50))) as [C|C].
    + apply IH in H; auto; [lia| |].
      * intros i I. specialize (B i). assert (Rabs (lev p top - 50) <= Rabs (lev p i - 50))%R by (apply B; lia). lra.
      * intros i I. destruct (Nat.eq_dec i k) as [->|]; [lra|].
        assert (Rabs (lev p top - 50) <= Rabs (lev p i - 50))%R by (apply B; lia). lra.
    + apply IH in H; auto; [lia|]. intros i I. destruct (Nat.eq_dec i k) as [->|]; [lra|]. apply B. lia.
Qed.

Lemma effective_some p num n : 1 <= num -> effective_points p num = Some n ->
  exists top, nearest50 p num top /\ n = Nat.max 1 (top - 1).
Proof.
  intros N H. unfold effective_points in H. bnd H p1 Ep1. bnd H top Etop. injection H as <-.
  apply rd_lev in Ep1. destruct Ep1 as [<- _]. apply find_top_some in Etop; [|lia|intros; lia|].
  - replace (2 + (num - 1) - 1) with num in Etop by lia. eauto.
  - intros i I. assert (i = 1) by lia. subst. lra.
Qed.

Lemma nearest50_unique p num a b : nearest50 p num a -> nearest50 p num b -> a = b.
Proof.
  intros (A1 & A2 & A3) (B1 & B2 & B3). destruct (lt_eq_lt_dec a b) as [[G|G]|G]; [|auto|].
  - specialize (B2 a). specialize (A3 b). assert (Rabs (lev p b - 50) < Rabs (lev p a - 50))%R by (apply B2; lia).
    assert (Rabs (lev p a - 50) <= Rabs (lev p b - 50))%R by (apply A3; lia). lra.
  - specialize (A2 b). specialize (B3 a). assert (Rabs (lev p a - 50) < Rabs (lev p b - 50))%R by (apply A2; lia).
    assert (Rabs (lev p b - 50) <= Rabs (lev p a - 50))%R by (apply B3; lia). lra.
Qed.

Lemma effective_ok p num : 1 <= num <= length p -> exists n, effective_points p num = Some n.
Proof.
  intros N. unfold effective_points. rewrite lev_rd by lia. cbn [bind].
  assert (X : forall m k top d, 1 <= k -> k + m <= S (length p) -> exists t, find_top p (seq k m) top d = Some t).
  { induction m as [|m IH]; intros k top d K M; cbn [seq find_top]; [eauto|].
    rewrite lev_rd by lia. cbn [bind]. destruct (rlt _ d); apply IH; lia. }
  destruct (X (num - 1) 2 1 (Rabs (lev p 1 - 50))) as [t Et]; [lia|lia|]. rewrite Et. cbn. eauto.
Qed.

(** ** One pass of the loop *)
Section Pass.
Variables (E : env) (n : nat) (T1 r1 sst es psl : R) (ofl : Z) (cenv : R).
Let kernel Tp rp pp := cape_from_cached_environment Tp rp pp E n 0.

Definition pass_ok (pm : R) (k : pass) (cat : R) : Prop :=
  exists cm cs, let pp := Rmin pm 1000 in
    let rs := (EPS_CONST * es / (pp - es))%R in
    kernel T1 (EPS_CONST * r1 * psl / (pp * (EPS_CONST + r1) - r1 * psl))%R pp = Some cm /\ c_flag cm = 1%Z /\
    kernel sst rs pp = Some cs /\ c_flag cs = 1%Z /\
    k_m k = c_cape cm /\ k_s k = c_cape cs /\
    k_To k = (if (ofl =? 1)%Z then c_T cm else c_T cs) /\ k_po k = (if (ofl =? 1)%Z then c_p cm else c_p cs) /\
    k_To k <> 0%R /\ k_rat k = (sst / k_To k)%R /\
    k_tv k = (1 / 2 * (T1 * (1 + r1 * INV_0622) / (1 + r1) + sst * (1 + rs * INV_0622) / (1 + rs)))%R /\
    cat = Rmax (k_m k - cenv + 1 / 2 * CKCD_SOLVER * k_rat k * (k_s k - k_m k)) 0.

Lemma core_pass_some pm k cat : core_pass E n T1 r1 sst es psl ofl cenv pm = Some (inr (k, cat)) -> pass_ok pm k cat.
Proof.
  unfold core_pass. intros H. bnd H rp Er. bnd H cm Em. destruct (Z.eqb_spec (c_flag cm) 1) as [Fm|]; [|discriminate].
  cbn [negb] in H. bnd H rs Ers. bnd H cs Ecs. destruct (Z.eqb_spec (c_flag cs) 1) as [Fs|]; [|discriminate].
  cbn [negb] in H. bnd H rat Era. bnd H tv0 Etv. bnd H tvs Ets. injection H as <- <-.
  apply rdiv_some in Er, Ers, Era, Etv, Ets. destruct Er as [_ ->], Ers as [_ ->], Era as [N ->], Etv as [_ ->], Ets as [_ ->].
  exists cm, cs. cbn [k_m k_s k_To k_po k_rat k_tv]. repeat (split; [auto; fail|]). auto.
Qed.

Lemma core_pass_err pm fl : core_pass E n T1 r1 sst es psl ofl cenv pm = Some (inl fl) ->
  exists Tp rp pp c, kernel Tp rp pp = Some c /\ c_flag c = fl /\ fl <> 1%Z.
Proof.
  unfold core_pass. intros H. bnd H rp Er. bnd H cm Em. destruct (Z.eqb_spec (c_flag cm) 1) as [Fm|Fm]; cbn [negb] in H.
  - bnd H rs Ers. bnd H cs Ecs. destruct (Z.eqb_spec (c_flag cs) 1) as [Fs|Fs]; cbn [negb] in H.
    + bnd H rat Era. bnd H tv0 Etv. bnd H tvs Ets. discriminate.
    + injection H as <-. exists sst, rs, (Rmin pm 1000), cs. auto.
  - injection H as <-. exists T1, rp, (Rmin pm 1000), cm. auto.
Qed.

(** the state of the loop between passes *)
Definition loop_inv (np : nat) (pm pmold pnew : R) (last : option pass) : Prop :=
  match last with
  | None => np = 0 /\ pnew = 0%R /\ pmold = 970%R
  | Some k => 1 <= np <= 200 /\ pnew = pm /\ (400 <= pm)%R /\ k_tv k <> 0%R /\
      exists cat, pass_ok pmold k cat /\ pm = (psl * exp (- cat * INV_RD / k_tv k))%R
  end.

Lemma core_loop_some fuel : forall np pm pmold pnew last o, loop_inv np pm pmold pnew last ->
  core_loop fuel np E n T1 r1 sst es psl ofl cenv pm pmold pnew last = Some o ->
  match o with
  | Lfuel => fuel + np <= 200
  | Lerr fl last' => exists Tp rp pp c, kernel Tp rp pp = Some c /\ c_flag c = fl /\ fl <> 1%Z
  | Ldiv => True
  | Ldone np' pm' pmold' last' =>
      exists k, last' = Some k /\ loop_inv np' pm' pmold' pm' (Some k) /\ (Rabs (pm' - pmold') <= 1 / 2)%R
  end.
Proof.
  assert (A0 : forall np pm pmold pnew last, loop_inv np pm pmold pnew last -> np <= 200).
  { intros np pm pmold pnew [k|] H; cbn in H; lia. }
  induction fuel as [|fuel IH]; intros np pm pmold pnew last o I H; cbn [core_loop] in H;
    destruct (rlt_spec (1 / 2) (Rabs (pnew - pmold))) as [C|C]; cbn [negb] in H.
  - injection H as <-. apply A0 in I. lia.
  - injection H as <-. destruct last as [k|].
    + exists k. split; [auto|]. cbn in I |- *. destruct I as (I1 & -> & I2). split; [auto|lra].
    + cbn in I. destruct I as (_ & -> & ->). exfalso. apply C.
      replace (0 - 970)%R with (- (970))%R by ring. rewrite Rabs_Ropp, Rabs_pos_eq; lra.
  - bnd H op Ep. destruct op as [fl|[k cat]].
    + injection H as <-. eapply core_pass_err; eauto.
    + bnd H x Ex. apply rdiv_some in Ex. destruct Ex as [Nz ->].
      destruct (orb (CORE_MAX_IT <? S np) (rlt (psl * exp (- cat * INV_RD / k_tv k)) 400)) eqn:B; [injection H as <-; auto|].
      apply orb_false_iff in B. destruct B as [B1 B2]. apply Nat.ltb_ge in B1. unfold CORE_MAX_IT in B1.
      destruct (rlt_spec (psl * exp (- cat * INV_RD / k_tv k)) 400) as [|B3]; [discriminate|].
      apply IH in H.
      * destruct o; auto. lia.
      * cbn. split; [lia|]. split; [auto|]. split; [lra|]. split; [auto|]. exists cat. split; [|auto].
        apply core_pass_some. auto.
  - injection H as <-. destruct last as [k|].
    + exists k. split; [auto|]. cbn in I |- *. destruct I as (I1 & -> & I2). split; [auto|lra].
    + cbn in I. destruct I as (_ & -> & ->). exfalso. apply C.
      replace (0 - 970)%R with (- (970))%R by ring. rewrite Rabs_Ropp, Rabs_pos_eq; lra.
Qed.
End Pass.

(** ** After the loop *)
Lemma core_finish_some sst psl cenv lnck vck k o : (0 < k_To k)%R ->
  core_finish sst psl cenv lnck vck k = Some o ->
  o_flag o = 1%Z /\ o_To o = k_To k /\ o_po o = k_po k /\ o_lnckcd o = lnck /\
  (k_tv k <> 0)%R /\
  o_pmin o = (psl * exp (- Rmax (k_m k - cenv + CKCD_SOLVER * k_rat k * (1 / 2 * (1 + 1 / 2)) * (k_s k - k_m k)) 0 * INV_RD / k_tv k))%R /\
  o_vmax o = (8 / 10 * sqrt (CKCD_SOLVER * k_rat k * Rmax 0 (k_s k - k_m k)))%R /\
  (0 < o_vmax o -> o_lnpi o = 2 * ln (o_vmax o))%R /\ (o_vmax o = 0%R -> o_lnpi o = UNDEF) /\
  (k_To k < sst -> o_lneff o = ln ((sst - k_To k) / k_To k))%R /\ (sst <= k_To k -> o_lneff o = UNDEF)%R /\
  (o_lndiseq o = if vck then if rlt 0 (o_vmax o) then if rlt (k_To k) sst
                  then (o_lnpi o - o_lneff o - lnck)%R else UNDEF else UNDEF else UNDEF).
Proof.
  intros Pos H. unfold core_finish in H. bnd H x Ex. bnd H sq Esq. bnd H lef Ele. bnd H lp Elp. injection H as <-.
  apply rdiv_some in Ex. apply rsqrt_some in Esq. destruct Ex as [N ->], Esq as [P ->].
  cbn [o_flag o_To o_po o_lnckcd o_pmin o_vmax o_lnpi o_lneff o_lndiseq].
  do 4 (split; [auto|]). split; [auto|]. do 2 (split; [auto|]).
  set (V := (8 / 10 * sqrt (CKCD_SOLVER * k_rat k * Rmax 0 (k_s k - k_m k)))%R) in *.
  assert (LE : lef = if rlt (k_To k) sst then Some (ln ((sst - k_To k) / k_To k)) else None).
  { destruct (rlt_spec 0 (k_To k)); [|contradiction]. cbn [andb] in Ele. destruct (rlt_spec (k_To k) sst) as [A|A].
    - rewrite rdiv_ok in Ele by lra. cbn [bind] in Ele.
      assert (Q : (0 < (sst - k_To k) / k_To k)%R) by (apply Rdiv_lt_0_compat; lra).
      destruct (rlt_spec 0 ((sst - k_To k) / k_To k)); [|contradiction]. rewrite rlog_ok in Ele by auto. cbn in Ele. congruence.
    - congruence. }
  assert (LP : lp = if rlt 0 V then Some (2 * ln V)%R else None).
  { destruct (rlt_spec 0 V) as [A|A]; [rewrite rlog_ok in Elp by auto; cbn in Elp; congruence|congruence]. }
  clear Ele Elp. subst lef lp.
  split; [intros A; destruct (rlt_spec 0 V); [auto|contradiction]|].
  split; [intros A; destruct (rlt_spec 0 V); [lra|auto]|].
  split; [intros A; destruct (rlt_spec (k_To k) sst); [auto|contradiction]|].
  split; [intros A; destruct (rlt_spec (k_To k) sst); [lra|auto]|].
  destruct vck, (rlt 0 V), (rlt (k_To k) sst); auto.
Qed.
