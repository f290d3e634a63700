(** One backward pass: it undoes the forward pass, up to the factor r. *)
From Coq Require Import Reals List Arith Lia Lra Bool.
From Verif Require Import Base Buffer VH_Model RS_Spec RS_Dft FF_Model FF_Model2 FF_Proofs FF_Proofs2 FF_Proofs3 FF_Proofs5 FF_Proofs6.
Import ListNotations.
Local Open Scope R_scope.

Lemma Cs_scal N c y p : Cs N (fun j => c * y j) p = c * Cs N y p.
Proof. unfold Cs. rewrite <- sumR_scal. apply sumR_ext. intros. ring. Qed.
Lemma Sn_scal N c y p : Sn N (fun j => c * y j) p = c * Sn N y p.
Proof. unfold Sn. rewrite <- sumR_scal. apply sumR_ext. intros. ring. Qed.
Lemma hc_scal N c y t : hc N (fun j => c * y j) t = c * hc N y t.
Proof. unfold hc. destruct (andb _ _); [rewrite Sn_scal; ring|apply Cs_scal]. Qed.

(** ** Every half-complex array is a transform *)
Section Trip.
Variable n : nat.
Hypothesis Hn : (1 <= n)%nat.
Variable r : list R.
Definition coef_of (m : nat) : R * R :=
  if (m =? 0)%nat then (nth 0 r 0, 0) else (nth (2 * m - 1) r 0, if (2 * m =? n)%nat then 0 else nth (2 * m) r 0).
Lemma backward_nth i : (i < n)%nat -> nth i (backward n r) 0 =
  nth 0 r 0 + sumR ((n - 1) / 2) (fun k => let m := S k in
             2 * (nth (2 * m - 1) r 0 * cos (angle n m i) - nth (2 * m) r 0 * sin (angle n m i)))
         + (if Nat.even n then nth (n - 1) r 0 * cos (angle n (n / 2) i) else 0).
Proof.
  intros H. unfold backward.
  match goal with |- nth i (map ?f _) 0 = _ => rewrite (nth_indep (map f (seq 0 n)) 0 (f 0%nat)) by (rewrite map_length, seq_length; auto);
    rewrite (map_nth f), seq_nth by auto end. reflexivity.
Qed.
Lemma backward_series i : (i < n)%nat -> nth i (backward n r) 0 = series n (n / 2) coef_of i.
Proof.
  intros H. rewrite backward_nth by auto. unfold series. rewrite Nat.min_id. cbn zeta.
  pose proof (Nat.div_mod_eq n 2) as D. pose proof (Nat.mod_upper_bound n 2 ltac:(lia)) as M.
  destruct (Nat.even n) eqn:E.
  - apply Nat.even_spec in E. destruct E as [h E].
    assert (E1 : ((n - 1) / 2 = h - 1)%nat).
    { replace (n - 1)%nat with (1 + (h - 1) * 2)%nat by lia. rewrite Nat.div_add by lia. reflexivity. }
    assert (E2 : (n / 2 = S (h - 1))%nat) by (rewrite E, Nat.mul_comm, Nat.div_mul; lia).
    rewrite E1, E2. cbn [sumR]. change (fst (coef_of 0)) with (nth 0 r 0). rewrite <- Rplus_assoc.
    f_equal; [f_equal; apply sumR_ext; intros k Hk|].
    + unfold coef_of. cbn [Nat.eqb]. destruct (Nat.eqb_spec (2 * S k) n); [lia|]. cbn [fst snd]. reflexivity.
    + replace (S (h - 1)) with h by lia. unfold coef_of. destruct (Nat.eqb_spec h 0); [lia|].
      destruct (Nat.eqb_spec (2 * h) n); [|lia]. cbn [fst snd]. replace (2 * h - 1)%nat with (n - 1)%nat by lia. ring.
  - assert (O : Nat.odd n = true) by (unfold Nat.odd; now rewrite E). apply Nat.odd_spec in O. destruct O as [h O].
    assert (E1 : ((n - 1) / 2 = h)%nat) by (replace (n - 1)%nat with (h * 2)%nat by lia; apply Nat.div_mul; lia).
    assert (E2 : (n / 2 = h)%nat).
    { replace n with (1 + h * 2)%nat by lia. rewrite Nat.div_add by lia. reflexivity. }
    rewrite E1, E2. change (fst (coef_of 0)) with (nth 0 r 0). rewrite Rplus_0_r. f_equal. apply sumR_ext. intros k Hk.
    unfold coef_of. cbn [Nat.eqb]. destruct (Nat.eqb_spec (2 * S k) n); [lia|]. reflexivity.
Qed.
Lemma backward_dft m : (2 * m <= n)%nat ->
  Cs n (fun j => nth j (backward n r) 0) m = INR n * fst (coef_of m) /\
  ((0 < m)%nat -> (2 * m < n)%nat -> - Sn n (fun j => nth j (backward n r) 0) m = INR n * snd (coef_of m)).
Proof.
  intros Hm. pose proof (INR_pos n ltac:(lia)) as P.
  assert (HM : (m <= n / 2)%nat) by (apply Nat.div_le_lower_bound; lia).
  pose proof (dft_series n ltac:(lia) (n / 2) coef_of m HM Hm) as D.
  assert (A : forall a i, angle n a i = th n (i * a)).
  { intros. unfold angle, th. rewrite mult_INR. unfold Rdiv. ring. }
  unfold dft in D. pose proof (f_equal fst D) as D1. pose proof (f_equal snd D) as D2. cbn [fst snd] in D1, D2.
  assert (C : Cs n (fun j => nth j (backward n r) 0) m = sumR n (fun i => series n (n / 2) coef_of i * cos (angle n m i))).
  { apply sumR_ext. intros i Hi. rewrite backward_series, A by auto. reflexivity. }
  assert (S : Sn n (fun j => nth j (backward n r) 0) m = sumR n (fun i => series n (n / 2) coef_of i * sin (angle n m i))).
  { apply sumR_ext. intros i Hi. rewrite backward_series, A by auto. reflexivity. }
  split.
  - rewrite C, <- D1. field. lra.
  - intros H0 H1. destruct (Nat.eqb_spec m 0); [lia|]. destruct (Nat.eqb_spec (2 * m) n); [lia|]. cbn [orb] in D2.
    rewrite S, <- D2. field. lra.
Qed.
Lemma hc_backward t : (t < n)%nat -> hc n (fun j => nth j (backward n r) 0) t = INR n * nth t r 0.
Proof.
  intros Ht. destruct (Nat.eq_dec t 0) as [->|T0].
  - rewrite hc_0. destruct (backward_dft 0 ltac:(lia)) as [-> _]. reflexivity.
  - pose proof (Nat.div_mod_eq t 2). pose proof (Nat.mod_upper_bound t 2 ltac:(lia)).
    destruct (Nat.eq_dec (t mod 2) 0) as [E|E].
    + set (m := (t / 2)%nat) in *. replace t with (2 * m)%nat by lia. rewrite hc_im by lia.
      destruct (backward_dft m ltac:(lia)) as [_ D]. rewrite D by lia. unfold coef_of. destruct (Nat.eqb_spec m 0); [lia|].
      destruct (Nat.eqb_spec (2 * m) n); [lia|]. reflexivity.
    + set (m := (t / 2)%nat) in *. replace t with (2 * (m + 1) - 1)%nat by lia. rewrite hc_re by lia.
      destruct (backward_dft (m + 1)%nat ltac:(lia)) as [-> _]. unfold coef_of. destruct (Nat.eqb_spec (m + 1) 0); [lia|]. reflexivity.
Qed.
End Trip.

(** ** Orthogonality of the r-th roots, r = 2 h + 1 *)
Section Orth.
Variables r h : nat.
Hypothesis Hr : r = (2 * h + 1)%nat.
Lemma full_sum s u : (u <= s)%nat -> (s < r)%nat ->
  sumR r (fun a => cos (th r (s * a)) * cos (th r (u * a)) + sin (th r (s * a)) * sin (th r (u * a))) = if (s =? u)%nat then INR r else 0.
Proof.
  intros H1 H2. rewrite (sumR_ext r _ (fun i => cos (angle r (s - u) i))).
  - destruct (Nat.eqb_spec s u).
    + apply cos_sum_full; lia.
    + apply cos_sum_zero; lia.
  - intros a Ha. rewrite <- cos_minus. f_equal. unfold angle, th. rewrite !mult_INR, minus_INR by lia. unfold Rdiv. ring.
Qed.
Lemma kernel s u : (s < r)%nat -> (u < r)%nat ->
  1 + 2 * sumR h (fun v => cos (th r (s * S v)) * cos (th r (u * S v)) + sin (th r (s * S v)) * sin (th r (u * S v)))
  = if (s =? u)%nat then INR r else 0.
Proof.
  intros Hs Hu.
  assert (F : sumR r (fun a => cos (th r (s * a)) * cos (th r (u * a)) + sin (th r (s * a)) * sin (th r (u * a))) = if (s =? u)%nat then INR r else 0).
  { destruct (le_lt_dec u s); [apply full_sum; auto|]. rewrite Nat.eqb_sym. rewrite <- (full_sum u s) by lia. apply sumR_ext. intros. ring. }
  rewrite <- F.
  pose proof (sumR_pair h (fun a => cos (th r (s * a)) * cos (th r (u * a)) + sin (th r (s * a)) * sin (th r (u * a)))) as P.
  rewrite <- Hr in P. rewrite P. rewrite !Nat.mul_0_r, !th_0, cos_0, sin_0.
  replace (1 * 1 + 0 * 0) with 1 by ring. f_equal. rewrite <- sumR_scal. apply sumR_ext. intros v Hv.
  rewrite !(Nat.mul_comm _ (r - S v)). rewrite !cos_refl, !sin_refl by lia. rewrite !(Nat.mul_comm (S v)). ring.
Qed.
Lemma undo (T : nat -> R) s : (s < r)%nat ->
  sumR r T + sumR h (fun v => cos (th r (s * S v)) * (2 * sumR r (fun u => cos (th r (u * S v)) * T u))
                              + sin (th r (s * S v)) * (2 * sumR r (fun u => sin (th r (u * S v)) * T u))) = INR r * T s.
Proof.
  intros Hs.
  rewrite (sumR_ext h _ (fun v => sumR r (fun u => T u * (2 * (cos (th r (s * S v)) * cos (th r (u * S v)) + sin (th r (s * S v)) * sin (th r (u * S v))))))).
  - rewrite sumR_swap, <- sumR_plus. rewrite (sumR_one r _ s Hs).
    + rewrite !sumR_scal. pose proof (kernel s s Hs Hs) as K. rewrite Nat.eqb_refl in K. rewrite <- K. ring.
    + intros u Hu Hne. rewrite !sumR_scal. pose proof (kernel s u Hs Hu) as K. destruct (Nat.eqb_spec s u); [lia|].
      transitivity (T u * (1 + 2 * sumR h (fun v => cos (th r (s * S v)) * cos (th r (u * S v)) + sin (th r (s * S v)) * sin (th r (u * S v))))); [ring|].
      rewrite K. ring.
  - intros v _. rewrite <- !sumR_scal, <- sumR_plus. apply sumR_ext. intros. ring.
Qed.
End Orth.

(** ** One stage *)
Section Stage.
Variable d : R.
Variables r ido l1 : nat.
Variable x : nat -> R.
Variable A : list R.
Hypothesis Hr : (0 < r)%nat.
Hypothesis Hido : (0 < ido)%nat.
Hypothesis Hl1 : (0 < l1)%nat.
Hypothesis Hin : stage_out d r ido l1 x A.
Variable w : nat -> nat -> R.
Hypothesis Hw : twisted r ido w.
Local Notation N := (r * ido)%nat.
Local Notation y k := (strided x l1 (k - 1)).

Definition Ub (t k s : nat) : R := INR r * hc ido (sub r (strided x l1 k) s) t.
Definition targetb : nat -> R := at3 ido l1 Ub.
Lemma outb_ok i k j e : (1 <= i <= ido)%nat -> (1 <= j <= r)%nat -> (1 <= k <= l1)%nat ->
  e (el3 d ido r A) = INR r * hc ido (sub r (y k) (j - 1)) (i - 1) ->
  let z := outb d ido r l1 (i, k, j) e in
  a_ch z = true /\ (a_ix z < ido * l1 * r)%nat /\ (forall b, a_val z A b = targetb (a_ix z)).
Proof.
  intros H1 H2 H3 H4. cbn. split; auto. split; [apply c3_bound; auto|]. intros _. unfold targetb. rewrite at3_c3 by auto. exact H4.
Qed.
Lemma stage_scaled B' : (forall t k s, (t < ido)%nat -> (k < l1)%nat -> (s < r)%nat -> nth (t + ido * (k + l1 * s)) B' d = Ub t k s) ->
  stage_in d r ido l1 (fun j => INR r * x j) B'.
Proof.
  intros H k s t Hk Hs Ht. rewrite H by auto. unfold Ub. rewrite <- hc_scal. reflexivity.
Qed.
Lemma passb_ok p B : length B = (ido * l1 * r)%nat ->
  (forall z, In z p -> a_ch z = true /\ (a_ix z < ido * l1 * r)%nat /\ (forall b, a_val z A b = targetb (a_ix z))) ->
  (forall i j k, (1 <= i <= ido)%nat -> (1 <= j <= r)%nat -> (1 <= k <= l1)%nat ->
     Exists (fun z => a_ix z = c3 ido l1 i k j) p) ->
  exists B', run p (A, B) = Some (A, B') /\ length B' = length B /\ stage_in d r ido l1 (fun j => INR r * x j) B'.
Proof.
  intros HB H1 H2. destruct (run_ch d targetb p A B) as (B' & R1 & R2 & R3 & _).
  { intros z Hz. rewrite HB. auto. }
  exists B'. split; auto. split; auto. apply stage_scaled. intros t k s Ht Hk Hs.
  rewrite R3.
  - unfold targetb. apply at3_flat; auto.
  - specialize (H2 (t + 1)%nat (s + 1)%nat (k + 1)%nat ltac:(lia) ltac:(lia) ltac:(lia)).
    unfold c3 in H2. rewrite !Nat.add_sub in H2. exact H2.
Qed.

(** Elements read *)
Lemma rdb i j k : (1 <= i <= ido)%nat -> (1 <= j <= r)%nat -> (1 <= k <= l1)%nat ->
  el3 d ido r A i j k = hc N (y k) (i - 1 + ido * (j - 1)).
Proof.
  intros. unfold el3, c3.
  replace (i - 1 + ido * (j - 1 + r * (k - 1)))%nat with ((i - 1 + ido * (j - 1)) + N * (k - 1))%nat by nia.
  apply Hin; [lia|]. assert (ido * (j - 1) <= ido * (r - 1))%nat by (apply Nat.mul_le_mono_l; lia).
  rewrite Nat.mul_sub_distr_l in H2. nia.
Qed.
Lemma rb_first k : (1 <= k <= l1)%nat -> el3 d ido r A 1 1 k =
  sumR r (fun s => cos (th r (s * 0)) * TR r ido (y k) 0 s + sin (th r (s * 0)) * TI r ido (y k) 0 s).
Proof. intros. rewrite rdb by lia. now apply (out_first r ido l1 x Hr Hido). Qed.
Lemma rb_he a k : (1 <= k <= l1)%nat -> (1 <= a)%nat -> (2 * a <= r)%nat -> el3 d ido r A ido (2 * a) k =
  sumR r (fun s => cos (th r (s * a)) * TR r ido (y k) 0 s + sin (th r (s * a)) * TI r ido (y k) 0 s).
Proof. intros. rewrite rdb by lia. now apply (out_head_even r ido l1 x Hr Hido). Qed.
Lemma rb_ho a k : (1 <= k <= l1)%nat -> (1 <= a)%nat -> (2 * a + 1 <= r)%nat -> el3 d ido r A 1 (2 * a + 1) k =
  sumR r (fun s => cos (th r (s * a)) * TI r ido (y k) 0 s - sin (th r (s * a)) * TR r ido (y k) 0 s).
Proof. intros. rewrite rdb by lia. now apply (out_head_odd r ido l1 x Hr Hido). Qed.
Lemma rb_rp a q k : (1 <= k <= l1)%nat -> (1 <= q)%nat -> (2 * q <= ido)%nat -> (2 * a + 1 <= r)%nat -> el3 d ido r A (2 * q + 1 - 1) (2 * a + 1) k =
  sumR r (fun s => cos (th r (s * a)) * TR r ido (y k) q s + sin (th r (s * a)) * TI r ido (y k) q s).
Proof. intros. rewrite rdb by lia. now apply (out_re_plus r ido l1 x Hr Hido). Qed.
Lemma rb_ip a q k : (1 <= k <= l1)%nat -> (1 <= q)%nat -> (2 * q + 1 <= ido)%nat -> (2 * a + 1 <= r)%nat -> el3 d ido r A (2 * q + 1) (2 * a + 1) k =
  sumR r (fun s => cos (th r (s * a)) * TI r ido (y k) q s - sin (th r (s * a)) * TR r ido (y k) q s).
Proof. intros. rewrite rdb by lia. now apply (out_im_plus r ido l1 x Hr Hido). Qed.
Lemma rb_rm a q k : (1 <= k <= l1)%nat -> (1 <= a)%nat -> (1 <= q)%nat -> (2 * q + 1 <= ido)%nat -> (2 * a <= r)%nat ->
  el3 d ido r A (ido + 2 - (2 * q + 1) - 1) (2 * a) k =
  sumR r (fun s => cos (th r (s * a)) * TR r ido (y k) q s - sin (th r (s * a)) * TI r ido (y k) q s).
Proof. intros. rewrite rdb by lia. now apply (out_re_minus r ido l1 x Hr Hido). Qed.
Lemma rb_im a q k : (1 <= k <= l1)%nat -> (1 <= a)%nat -> (1 <= q)%nat -> (2 * q <= ido)%nat -> (2 * a <= r)%nat ->
  el3 d ido r A (ido + 2 - (2 * q + 1)) (2 * a) k =
  sumR r (fun s => - cos (th r (s * a)) * TI r ido (y k) q s - sin (th r (s * a)) * TR r ido (y k) q s).
Proof. intros. rewrite rdb by lia. now apply (out_im_minus r ido l1 x Hr Hido). Qed.
Lemma rb_rh a h k : (1 <= k <= l1)%nat -> ido = (2 * h)%nat -> (2 * a + 1 <= r)%nat -> el3 d ido r A ido (2 * a + 1) k =
  sumR r (fun s => cos (th r (s * a)) * TR r ido (y k) h s + sin (th r (s * a)) * TI r ido (y k) h s).
Proof. intros. rewrite <- rb_rp by lia. f_equal. lia. Qed.
Lemma rb_ih a h k : (1 <= k <= l1)%nat -> ido = (2 * h)%nat -> (1 <= a)%nat -> (2 * a <= r)%nat -> el3 d ido r A 1 (2 * a) k =
  sumR r (fun s => - cos (th r (s * a)) * TI r ido (y k) h s - sin (th r (s * a)) * TR r ido (y k) h s).
Proof. intros. rewrite <- rb_im by lia. f_equal. lia. Qed.

(** Elements written *)
Lemma un_0 k s : hc ido (sub r (y k) s) (1 - 1) = TR r ido (y k) 0 s.
Proof. cbn [Nat.sub]. rewrite hc_0. unfold TR. rewrite Nat.mul_0_r, th_0, cos_0, sin_0. ring. Qed.
Lemma un_re0 k q : (1 <= q)%nat -> hc ido (sub r (y k) 0) (2 * q + 1 - 1 - 1) = TR r ido (y k) q 0.
Proof.
  intros. replace (2 * q + 1 - 1 - 1)%nat with (2 * q - 1)%nat by lia. rewrite hc_re by lia.
  unfold TR. rewrite Nat.mul_0_l, th_0, cos_0, sin_0. ring.
Qed.
Lemma un_im0 k q : (1 <= q)%nat -> hc ido (sub r (y k) 0) (2 * q + 1 - 1) = TI r ido (y k) q 0.
Proof.
  intros. replace (2 * q + 1 - 1)%nat with (2 * q)%nat by lia. rewrite hc_im by lia.
  unfold TI. rewrite Nat.mul_0_l, th_0, cos_0, sin_0. ring.
Qed.
Lemma un_re k s q : (1 <= s < r)%nat -> (1 <= q)%nat -> (2 * q + 1 <= ido)%nat -> hc ido (sub r (y k) s) (2 * q + 1 - 1 - 1) =
  w (s - 1) (2 * q + 1 - 2) * TR r ido (y k) q s - w (s - 1) (2 * q + 1 - 1) * TI r ido (y k) q s.
Proof.
  intros. replace (2 * q + 1 - 1 - 1)%nat with (2 * q - 1)%nat by lia. rewrite hc_re by lia. destruct (Hw s q) as [W1 W2]; auto.
  replace (2 * q + 1 - 2)%nat with (2 * q - 1)%nat by lia. replace (2 * q + 1 - 1)%nat with (2 * q)%nat by lia. rewrite W1, W2.
  unfold TR, TI. pose proof (sin2_cos2 (th N (s * q))) as P. unfold Rsqr in P.
  transitivity ((sin (th N (s * q)) * sin (th N (s * q)) + cos (th N (s * q)) * cos (th N (s * q))) * Cs ido (sub r (y k) s) q); [rewrite P; ring|ring].
Qed.
Lemma un_im k s q : (1 <= s < r)%nat -> (1 <= q)%nat -> (2 * q + 1 <= ido)%nat -> hc ido (sub r (y k) s) (2 * q + 1 - 1) =
  w (s - 1) (2 * q + 1 - 2) * TI r ido (y k) q s + w (s - 1) (2 * q + 1 - 1) * TR r ido (y k) q s.
Proof.
  intros. replace (2 * q + 1 - 1)%nat with (2 * q)%nat by lia. rewrite hc_im by lia. destruct (Hw s q) as [W1 W2]; auto.
  replace (2 * q + 1 - 2)%nat with (2 * q - 1)%nat by lia. rewrite W1, W2.
  unfold TR, TI. pose proof (sin2_cos2 (th N (s * q))) as P. unfold Rsqr in P.
  transitivity (- ((sin (th N (s * q)) * sin (th N (s * q)) + cos (th N (s * q)) * cos (th N (s * q))) * Sn ido (sub r (y k) s) q)); [rewrite P; ring|ring].
Qed.
Lemma un_h k s h : ido = (2 * h)%nat -> hc ido (sub r (y k) s) (ido - 1) = Cs ido (sub r (y k) s) h.
Proof. intros. replace (ido - 1)%nat with (2 * h - 1)%nat by lia. apply hc_re. lia. Qed.
Lemma TRb_h k s h : ido = (2 * h)%nat -> TR r ido (y k) h s = cos (th (2 * r) s) * Cs ido (sub r (y k) s) h.
Proof. intros. unfold TR. rewrite (th_half r ido l1) by lia. rewrite (Sn_half ido _ h) by auto. ring. Qed.
Lemma TIb_h k s h : ido = (2 * h)%nat -> TI r ido (y k) h s = - sin (th (2 * r) s) * Cs ido (sub r (y k) s) h.
Proof. intros. unfold TI. rewrite (th_half r ido l1) by lia. rewrite (Sn_half ido _ h) by auto. ring. Qed.

(** The inverse sums for an odd radix *)
Section Odd.
Variable h : nat.
Hypothesis Hrh : r = (2 * h + 1)%nat.
Lemma inv_0 k s : (1 <= k <= l1)%nat -> (s < r)%nat -> INR r * TR r ido (y k) 0 s =
  el3 d ido r A 1 1 k + sumR h (fun v => cos (th r (s * S v)) * (2 * el3 d ido r A ido (2 * S v) k)
                                         - sin (th r (s * S v)) * (2 * el3 d ido r A 1 (2 * S v + 1) k)).
Proof.
  intros Hk Hs. rewrite <- (undo r h Hrh (fun u => TR r ido (y k) 0 u) s Hs). f_equal.
  - rewrite rb_first by auto. apply sumR_ext. intros u _. rewrite Nat.mul_0_r, th_0, cos_0, sin_0. ring.
  - apply sumR_ext. intros v Hv. rewrite rb_he, rb_ho by lia.
    rewrite (sumR_ext r (fun s0 => cos (th r (s0 * S v)) * TR r ido (y k) 0 s0 + _) (fun u => cos (th r (u * S v)) * TR r ido (y k) 0 u))
      by (intros; rewrite TI_0; ring).
    rewrite (sumR_ext r (fun s0 => cos (th r (s0 * S v)) * TI r ido (y k) 0 s0 - _) (fun u => - (sin (th r (u * S v)) * TR r ido (y k) 0 u)))
      by (intros; rewrite TI_0; ring).
    rewrite sumR_opp. ring.
Qed.
Lemma inv_re k s q : (1 <= k <= l1)%nat -> (s < r)%nat -> (1 <= q)%nat -> (2 * q + 1 <= ido)%nat -> INR r * TR r ido (y k) q s =
  el3 d ido r A (2 * q + 1 - 1) 1 k + sumR h (fun v =>
     cos (th r (s * S v)) * (el3 d ido r A (2 * q + 1 - 1) (2 * S v + 1) k + el3 d ido r A (ido + 2 - (2 * q + 1) - 1) (2 * S v) k)
     - sin (th r (s * S v)) * (el3 d ido r A (2 * q + 1) (2 * S v + 1) k + el3 d ido r A (ido + 2 - (2 * q + 1)) (2 * S v) k)).
Proof.
  intros Hk Hs Q1 Q2. rewrite <- (undo r h Hrh (fun u => TR r ido (y k) q u) s Hs). f_equal.
  - pose proof (rb_rp 0 q k Hk Q1 ltac:(lia) ltac:(lia)) as E. cbn [Nat.mul Nat.add] in E. etransitivity; [|symmetry; exact E]. apply sumR_ext. intros u _. rewrite Nat.mul_0_r, th_0, cos_0, sin_0. ring.
  - apply sumR_ext. intros v Hv. rewrite rb_rp, rb_rm, rb_ip, rb_im by lia. rewrite <- !sumR_plus.
    rewrite (sumR_ext r (fun k0 => cos (th r (k0 * S v)) * TR r ido (y k) q k0 + _ + _) (fun u => 2 * (cos (th r (u * S v)) * TR r ido (y k) q u)))
      by (intros; ring).
    rewrite (sumR_ext r (fun k0 => cos (th r (k0 * S v)) * TI r ido (y k) q k0 - _ + _) (fun u => - (2 * (sin (th r (u * S v)) * TR r ido (y k) q u))))
      by (intros; ring).
    rewrite sumR_opp, !sumR_scal. ring.
Qed.
Lemma inv_im k s q : (1 <= k <= l1)%nat -> (s < r)%nat -> (1 <= q)%nat -> (2 * q + 1 <= ido)%nat -> INR r * TI r ido (y k) q s =
  el3 d ido r A (2 * q + 1) 1 k + sumR h (fun v =>
     cos (th r (s * S v)) * (el3 d ido r A (2 * q + 1) (2 * S v + 1) k - el3 d ido r A (ido + 2 - (2 * q + 1)) (2 * S v) k)
     + sin (th r (s * S v)) * (el3 d ido r A (2 * q + 1 - 1) (2 * S v + 1) k - el3 d ido r A (ido + 2 - (2 * q + 1) - 1) (2 * S v) k)).
Proof.
  intros Hk Hs Q1 Q2. rewrite <- (undo r h Hrh (fun u => TI r ido (y k) q u) s Hs). f_equal.
  - pose proof (rb_ip 0 q k Hk Q1 ltac:(lia) ltac:(lia)) as E. cbn [Nat.mul Nat.add] in E. etransitivity; [|symmetry; exact E]. apply sumR_ext. intros u _. rewrite Nat.mul_0_r, th_0, cos_0, sin_0. ring.
  - apply sumR_ext. intros v Hv. rewrite rb_rp, rb_rm, rb_ip, rb_im by lia. rewrite <- !sumR_minus.
    rewrite (sumR_ext r (fun k0 => cos (th r (k0 * S v)) * TI r ido (y k) q k0 - _ - _) (fun u => 2 * (cos (th r (u * S v)) * TI r ido (y k) q u)))
      by (intros; ring).
    rewrite (sumR_ext r (fun k0 => cos (th r (k0 * S v)) * TR r ido (y k) q k0 + _ - _) (fun u => 2 * (sin (th r (u * S v)) * TI r ido (y k) q u)))
      by (intros; ring).
    rewrite !sumR_scal. ring.
Qed.
End Odd.
End Stage.
