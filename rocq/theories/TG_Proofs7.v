From Verif Require Import Base Buffer Loops VH_Model VH_Proofs LI_Proofs TG_Model TG_Spec TG_Proofs TG_Proofs2 TG_Proofs3 TG_Proofs4 TG_Proofs5 TG_Proofs6.
Local Open Scope nat_scope.

Lemma clamp_ok c : clamp1 c = (if Qcleb 1 (if Qcleb (0 - 1) c then c else (0 - 1)) then 1 else if Qcleb (0 - 1) c then c else (0 - 1))%Qc.
Proof.
  unfold clamp1, qcmax, qcmin. replace (- (1))%Qc with (0 - 1)%Qc by ring. destruct (Qcleb (0 - 1) c)%Qc; auto.
Qed.
Lemma ranking_ok T gc o a b s1 s2 : rank_distance T gc o a b s1 s2 = ranking T gc a b s1 s2 o.
Proof. unfold rank_distance, ranking, arc, cos_angle. destruct gc; auto. Qed.
Lemma node_distance_ok T gc a b o : node_distance T gc a b o = if gc then sphere T a b o else plane T a b o.
Proof. unfold node_distance, sphere, arc, cos_angle, plane, plane2. destruct gc; auto. Qed.

Lemma nearest_ext (P Q : triple -> Prop) (d e : triple -> Qc) obs mv v : (forall o, P o <-> Q o) -> (forall o, d o = e o) -> nearest_value P d obs mv v -> nearest_value Q e obs mv v.
Proof.
  intros H K [[l1 [o [l2 [E [U [V [A B]]]]]]]|[E F]].
  - left. exists l1, o, l2. split; auto. split; [apply H; auto|]. split; auto. split; intros q I J; rewrite <- !K; [apply A|apply B]; auto; apply H; auto.
  - right. split; auto. intros q I J. apply (F q I). apply H. auto.
Qed.
Lemma node_rule_ext gx gy (P Q : triple -> Prop) (d e : triple -> Qc) obs mv a b v : (forall o, P o <-> Q o) -> (forall o, d o = e o) -> node_rule gx gy P d obs mv a b v -> node_rule gx gy Q e obs mv a b v.
Proof.
  intros H K [L|[N [[A E]|[A E]]]]; [left; auto|right; split; auto; left; auto|right; split; auto; right; split; auto]. eapply nearest_ext; [exact H|exact K|exact E].
Qed.
Lemma second_values T obs zmsg gx gy mflag nflag gc ddcrit e1 e2 : axes_fit (mflag && nflag) gx gy ->
  (forall q, (0 <= sq T q)%Qc) -> (forall q, (0 <= ac T q * re T)%Qc) ->
  exists g ier s1 s2, trip2grd2_impl T obs zmsg gx gy mflag nflag gc ddcrit e1 e2 = Some (g, ier) /\ length g = length gx * length gy /\
   (forall o, coordinate mflag gx e1 (tx o) (s1 o) /\ coordinate nflag gy e2 (ty o) (s2 o)) /\
   (let all := forall o, In o obs -> exists m n, node gx gy m n (tx o) (ty o) in (all /\ ier = (-1)%Z) \/ (~ all /\ ier = 0%Z)) /\
   forall m n a b, node gx gy m n a b -> exists v, rd g ((n - 1) * length gx + m) = Some v /\
     second_pass T gc mflag nflag gx gy ddcrit s1 s2 obs (Some zmsg) m n a b v.
Proof.
  intros A B C. destruct (trip2grd2_ok T obs zmsg gx gy mflag nflag gc ddcrit e1 e2 A B C) as [g [ier [fx [fy [E [L [F [I H]]]]]]]].
  exists g, ier, fx, fy. split; [exact E|]. split; [exact L|]. split; [exact F|]. split; [exact I|]. intros m n a b N. destruct (H m n a b N) as [v [R K]]. exists v. split; [exact R|].
  unfold second_pass. cbv zeta. eapply node_rule_ext; [|intros o; apply ranking_ok|exact K]. intros o. cbv beta. rewrite ranking_ok. tauto.
Qed.
Lemma third_values T obs zmsg gx gy mflag nflag (gc : bool) ddcrit : axes_fit (mflag && nflag) gx gy ->
  exists g ier, trip2grd3_impl T obs zmsg gx gy mflag nflag gc ddcrit = Some (g, ier) /\ length g = length gx * length gy /\
   (let all := forall o, In o obs -> exists m n, node gx gy m n (tx o) (ty o) in (all /\ ier = (-11)%Z) \/ (~ all /\ ier = 0%Z)) /\
   forall m n a b, node gx gy m n a b -> exists v, rd g ((n - 1) * length gx + m) = Some v /\
     let dist := if gc then sphere T a b else plane T a b in
     node_rule gx gy (fun o => tz o <> Some zmsg /\ (dist o < far)%Qc /\ (dist o < ddcrit)%Qc) dist obs (Some zmsg) a b v.
Proof.
  intros A. destruct (trip2grd3_ok T obs zmsg gx gy mflag nflag gc ddcrit A) as [g [ier [E [L [I H]]]]].
  exists g, ier. split; [exact E|]. split; [exact L|]. split; [exact I|]. intros m n a b N. destruct (H m n a b N) as [v [R K]]. exists v. split; [exact R|]. cbv zeta.
  assert (Q : forall o, node_distance T gc a b o = (if gc then sphere T a b else plane T a b) o) by (intros o; rewrite node_distance_ok; destruct gc; auto).
  eapply node_rule_ext; [|exact Q|exact K]. intros o. cbv beta. rewrite Q. tauto.
Qed.
Lemma root_lt f p q : rootlike f -> (0 <= p)%Qc -> (0 <= q)%Qc -> ((f p < f q)%Qc <-> (p < q)%Qc).
Proof.
  intros [_ H] P Q. split; [|apply H; auto]. intros F. destruct (Qclt_le_dec p q) as [|G]; auto. exfalso. apply Qcle_lt_or_eq in G. destruct G as [G|G].
  - specialize (H q p Q G). revert F. apply Qcle_not_lt. apply Qclt_le_weak. auto.
  - subst. revert F. apply Qcle_not_lt, Qcle_refl.
Qed.
Lemma root_le f p q : rootlike f -> (0 <= p)%Qc -> (0 <= q)%Qc -> ((f p <= f q)%Qc <-> (p <= q)%Qc).
Proof. intros H P Q. pose proof (root_lt f q p H Q P) as X. split; intros F; apply Qcnot_lt_le; intros Y; apply X in Y; apply (Qclt_not_le _ _ Y F). Qed.
Lemma plane2_nonneg a b o : (0 <= plane2 a b o)%Qc.
Proof. unfold plane2. pose proof (Qcsquare_nonneg (tx o - a)). pose proof (Qcsquare_nonneg (ty o - b)). qclra. Qed.
Lemma nearest_plane T (P : triple -> Prop) a b obs mv v : rootlike (sq T) -> nearest_value P (plane T a b) obs mv v -> nearest_value P (plane2 a b) obs mv v.
Proof.
  intros R [[l1 [o [l2 [E [U [V [A B]]]]]]]|[E F]]; [left|right; auto]. exists l1, o, l2. split; auto. split; auto. split; auto.
  split; intros q I J; [specialize (A q I J); apply (proj1 (root_lt _ _ _ R (plane2_nonneg a b o) (plane2_nonneg a b q))) in A|specialize (B q I J); apply (proj1 (root_le _ _ _ R (plane2_nonneg a b o) (plane2_nonneg a b q))) in B]; auto.
Qed.

Lemma head_tail (A : Type) (l : list A) (B : Type) (x y : B) : l <> [] -> match l with [] => x | _ :: _ => y end = y.
Proof. destruct l; congruence. Qed.
Lemma t2g_inside T obs zmsg gx gy domain gc distmx e1 e2 : axes_fit false gx gy -> strip obs zmsg <> [] -> (forall o, In o (strip obs zmsg) -> in_grid gx gy o) ->
  exists mflag nflag, (mflag = true <-> nearly_equal gx) /\ (nflag = true <-> nearly_equal gy) /\
  triple2grid1_impl T obs zmsg gx gy domain gc distmx e1 e2 = trip2grd2_impl T (strip obs zmsg) zmsg gx gy mflag nflag gc (if Qcleb distmx 0%Qc then far else distmx) e1 e2.
Proof.
  intros [Lx [Ly [Gx [Gy _]]]] NE IN.
  destruct (spacing_flag_ok gx) as [mflag [Em Hm]]; auto; [lia|]. destruct (spacing_flag_ok gy) as [nflag [En Hn]]; auto; [lia|]. exists mflag, nflag. split; auto. split; auto.
  unfold triple2grid1_impl. destruct (rd_Some gx (i := 1)) as [x1 X1]; [lia|]. destruct (rd_Some gx (i := length gx)) as [xn Xn]; [lia|].
  destruct (rd_Some gy (i := 1)) as [y1 Y1]; [lia|]. destruct (rd_Some gy (i := length gy)) as [yn Yn]; [lia|].
  destruct (strip obs zmsg) as [|o l] eqn:Es; [congruence|]. rewrite X1, Xn, Y1, Yn, Em, En. cbn [bind].
  rewrite (proj2 (inside_ok gx gy (o :: l) x1 xn y1 yn X1 Xn Y1 Yn)); auto.
Qed.
Lemma t2g_outside T obs zmsg gx gy domain gc distmx e1 e2 : axes_fit false gx gy -> (exists o, In o (strip obs zmsg) /\ ~ in_grid gx gy o) ->
  exists mflag nflag wx wy, (mflag = true <-> nearly_equal gx) /\ (nflag = true <-> nearly_equal gy) /\ widened gx domain wx /\ widened gy domain wy /\
  triple2grid1_impl T obs zmsg gx gy domain gc distmx e1 e2 =
    bind (trip2grd2_impl T (strip obs zmsg) zmsg wx wy mflag nflag gc (if Qcleb distmx 0%Qc then far else distmx) e1 e2)
         (fun r => bind (interior (length gx) (length gy) (fst r)) (fun g => Some (g, snd r))).
Proof.
  intros [Lx [Ly [Gx [Gy _]]]] [q [Iq Oq]].
  destruct (spacing_flag_ok gx) as [mflag [Em Hm]]; auto; [lia|]. destruct (spacing_flag_ok gy) as [nflag [En Hn]]; auto; [lia|].
  destruct (big_axis_ok gx domain) as [wx [Ex Wx]]; [lia|]. destruct (big_axis_ok gy domain) as [wy [Ey Wy]]; [lia|]. exists mflag, nflag, wx, wy. split; auto. split; auto. split; auto. split; auto.
  unfold triple2grid1_impl. destruct (rd_Some gx (i := 1)) as [x1 X1]; [lia|]. destruct (rd_Some gx (i := length gx)) as [xn Xn]; [lia|].
  destruct (rd_Some gy (i := 1)) as [y1 Y1]; [lia|]. destruct (rd_Some gy (i := length gy)) as [yn Yn]; [lia|].
  destruct (strip obs zmsg) as [|o l] eqn:Es; [contradiction|]. rewrite X1, Xn, Y1, Yn, Em, En. cbn [bind].
  destruct (existsb (outside x1 xn y1 yn) (o :: l)) eqn:Eo.
  - cbn [negb]. rewrite Ex, Ey. cbn [bind]. reflexivity.
  - exfalso. apply Oq. apply (proj1 (inside_ok gx gy (o :: l) x1 xn y1 yn X1 Xn Y1 Yn)); auto.
Qed.
Lemma axes_weaken b gx gy : axes_fit b gx gy -> axes_fit false gx gy.
Proof. intros [A [B [C [D _]]]]. split; auto. split; auto. split; auto. split; auto. discriminate. Qed.
Lemma axes_flags gx gy mflag nflag : axes_fit false gx gy -> (mflag = true <-> nearly_equal gx) -> (nflag = true <-> nearly_equal gy) ->
  (nearly_equal gx -> nearly_equal gy -> (exists d, equally_spaced gx d) /\ (exists d, equally_spaced gy d)) -> axes_fit (mflag && nflag) gx gy.
Proof.
  intros [A [B [C [D _]]]] M N H. split; auto. split; auto. split; auto. split; auto. intros E. apply andb_true_iff in E. destruct E as [E1 E2]. apply H; [apply M|apply N]; auto.
Qed.
Lemma widened_fit gx gy domain wx wy mflag nflag : axes_fit false gx gy -> widened gx domain wx -> widened gy domain wy -> (0 < domain)%Qc ->
  (mflag = true <-> nearly_equal gx) -> (nflag = true <-> nearly_equal gy) ->
  (nearly_equal gx -> nearly_equal gy -> domain = 1%Qc /\ (exists d, equally_spaced gx d) /\ (exists d, equally_spaced gy d)) -> axes_fit (mflag && nflag) wx wy.
Proof.
  intros [A [B [C [D _]]]] Wx Wy Hd M N H. pose proof (widened_len _ _ _ Wx). pose proof (widened_len _ _ _ Wy).
  split; [lia|]. split; [lia|]. split; [eapply widened_increasing; [exact Wx|exact Hd|lia|exact C]|]. split; [eapply widened_increasing; [exact Wy|exact Hd|lia|exact D]|].
  intros E. apply andb_true_iff in E. destruct E as [E1 E2]. destruct H as [-> [[d1 K1] [d2 K2]]]; [apply M; auto|apply N; auto|].
  split; [exists d1|exists d2]; eapply widened_equal; eauto; lia.
Qed.
Lemma triple_to_grid_eq T x_in y_in data x_out y_out domain gc distmx e1 e2 m f : length y_in = length x_in -> length data = length x_in ->
  triple_to_grid T true x_in y_in data x_out y_out domain gc distmx e1 e2 m f =
  bind (triple2grid1_impl T (combine x_in (combine y_in (if needs_rewrite data m f then py2fort_msg data m f else data))) f x_out y_out domain gc distmx e1 e2)
       (fun r => bind (c_flatten (length x_out) (length y_out) (fst r))
          (fun flat => Some (Some (map (fun v => if cell_is f v then m else v) flat),
             if needs_rewrite data m f then map (fun v => if cell_is f v then m else v) data else data))).
Proof.
  intros A B. unfold triple_to_grid. rewrite A, B, !Nat.eqb_refl. cbn [negb andb].
  destruct (triple2grid1_impl _ _ _ _ _ _ _ _ _ _) as [r|]; [|reflexivity]. cbn [bind]. destruct (c_flatten _ _ _) as [flat|]; [|reflexivity]. cbn [bind]. f_equal. f_equal.
  - destruct m as [q|]; [|reflexivity]. destruct (Qceqb_spec q f) as [->|N]; cbn [negb]; [|reflexivity]. f_equal. symmetry. apply restore_id. auto.
  - destruct (needs_rewrite data m f); auto. apply restore_rewrite.
Qed.
Lemma combine_recell (x y : list Qc) (data : list cell) f : combine x (combine y (map f data)) = map (recell f) (combine x (combine y data)).
Proof.
  revert y data. induction x as [|a x IH]; intros y data; auto. destruct y as [|b y], data as [|c data]; auto. simpl. f_equal. apply IH.
Qed.
Lemma strip_valid (x y : list Qc) (data : list cell) m f :
  kept (fun o => tz o <> m /\ tz o <> Some f) (combine x (combine y data)) (strip (combine x (combine y (if needs_rewrite data m f then py2fort_msg data m f else data))) f).
Proof.
  pose proof (strip_kept (combine x (combine y (if needs_rewrite data m f then py2fort_msg data m f else data))) f) as K. revert K.
  set (out := strip _ f). clearbody out. intros K.
  assert (IN : forall o, In o (combine x (combine y data)) -> In (tz o) data).
  { intros [a [b c]] I. apply in_combine_r in I. apply in_combine_r in I. exact I. }
  destruct (needs_rewrite_spec data m f) as [[N _]|N].
  - unfold py2fort_msg in K. rewrite combine_recell in K.
    apply (kept_map _ _ _ (fun o => tz o <> m /\ tz o <> Some f)) in K.
    + destruct K as [o' [K ->]]. replace (map _ o') with o'; auto. rewrite <- (map_id o') at 1. apply map_ext_in. intros o I. apply (kept_In _ _ _ _ o K) in I. destruct I as [_ [I1 I2]].
      unfold recell. destruct (is_msg_spec m (tz o)) as [E|E]; [congruence|]. destruct o as [? [? ?]]; reflexivity.
    + intros o I. rewrite tz_recell. destruct (is_msg_spec m (tz o)) as [E|E]; split; tauto.
  - eapply kept_ext; [|exact K]. intros o I. split; [|tauto]. intros H. split; auto. intros E. apply N. split; [congruence|]. rewrite <- E. apply IN. auto.
Qed.
Lemma map_nth_error_opt (A B : Type) (f : A -> B) l n : nth_error (map f l) n = option_map f (nth_error l n).
Proof. revert n. induction l; intros [|n]; simpl; auto. Qed.
(** element [i, j] of the array handed back *)
Lemma flat_entry (mx ny : nat) g : length g = mx * ny -> exists r, c_flatten mx ny g = Some r /\
  length r = mx * ny /\ forall i j, i < ny -> j < mx -> nth_error r (i * mx + j) = rd g (((i * mx + j) mod ny) * mx + ((i * mx + j) / ny + 1)).
Proof.
  intros L. destruct (c_flatten_ok mx ny g L) as [r [E [Lr H]]]. exists r. split; auto. split; auto. intros i j Hi Hj. set (q := i * mx + j).
  assert (Q : q < ny * mx) by (unfold q; nia). assert (P : 0 < ny) by lia.
  rewrite (Nat.div_mod_eq q ny) at 1. rewrite (Nat.mul_comm ny). apply H; [apply Nat.div_lt_upper_bound; lia|apply Nat.mod_upper_bound; lia].
Qed.
