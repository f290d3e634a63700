(** Evaluation at a point, index tables, recovery of the truncation. *)
From Coq Require Import Lia Arith ZArith List Bool Field_theory Field Reals Lra.
From Verif Require Import Base Buffer VH_Model VH_Proofs SH_Model SH_Spec SH_Proofs SH_Proofs2 SH_Proofs3 SH_Proofs4 TG_Proofs SH_Float.
Import ListNotations.
Local Open Scope Z_scope.

(** ** getspecindx *)
Lemma combine_app_eq (X Y : Type) (a1 a2 : list X) (b1 b2 : list Y) : length a1 = length b1 ->
  combine (a1 ++ a2) (b1 ++ b2) = combine a1 b1 ++ combine a2 b2.
Proof.
  revert b1; induction a1 as [|x a1 IH]; intros [|y b1] H; try discriminate; [reflexivity|].
  cbn [app combine]; f_equal; apply IH; cbn [length] in H; lia.
Qed.
Lemma grid_pairs (r l : list Z) :
  combine (flat_map (fun m => map (fun _ => m) r) l) (flat_map (fun _ => r) l)
  = flat_map (fun m => map (fun n => (m, n)) r) l.
Proof.
  induction l as [|m l IH]; [reflexivity|]. cbn [flat_map]. rewrite combine_app_eq by (rewrite map_length; reflexivity).
  rewrite IH. f_equal. clear. induction r as [|x r IH]; [reflexivity|]. cbn [map combine]; f_equal; exact IH.
Qed.
Lemma filter_flat_map (X Y : Type) (p : Y -> bool) (f : X -> list Y) l :
  filter p (flat_map f l) = flat_map (fun x => filter p (f x)) l.
Proof. induction l as [|x l IH]; [reflexivity|]; cbn [flat_map]; rewrite filter_app, IH; reflexivity. Qed.
Lemma filter_all (X : Type) (p : X -> bool) l : (forall x, In x l -> p x = true) -> filter p l = l.
Proof. induction l as [|x l IH]; intro H; [reflexivity|]; cbn [filter]; rewrite H by (left; reflexivity); f_equal; apply IH; intros; apply H; right; assumption. Qed.
Lemma filter_none (X : Type) (p : X -> bool) l : (forall x, In x l -> p x = false) -> filter p l = [].
Proof. induction l as [|x l IH]; intro H; [reflexivity|]; cbn [filter]; rewrite H by (left; reflexivity); apply IH; intros; apply H; right; assumption. Qed.
Lemma getspecindx_pairs (N : nat) :
  getspecindx (Z.of_nat N) = Some (map (fun p => Z.of_nat (fst p)) (pairs N), map (fun p => Z.of_nat (snd p)) (pairs N)).
Proof.
  unfold getspecindx. destruct (Z.ltb_spec (Z.of_nat N) 0); [lia|].
  replace (Z.to_nat (Z.of_nat N + 1)) with (N + 1)%nat by lia. cbv zeta.
  rewrite grid_pairs, filter_flat_map.
  assert (E : flat_map (fun x => filter (fun mn => snd mn >? fst mn - 1) (map (fun n => (x, n)) (map Z.of_nat (seq 0 (N + 1)))))
      (map Z.of_nat (seq 0 (N + 1))) = map (fun p => (Z.of_nat (fst p), Z.of_nat (snd p))) (pairs N)).
  { unfold pairs. rewrite flat_map_concat_map, map_map, <- flat_map_concat_map.
    rewrite !flat_map_concat_map, concat_map, map_map. f_equal. apply map_ext_in. intros m Hm. apply in_seq in Hm.
    replace (N + 1)%nat with (m + (N + 1 - m))%nat at 1 by lia.
    rewrite seq_app, !map_app, filter_app.
    rewrite filter_none, filter_all.
    - cbn [app Nat.add]. rewrite !map_map. reflexivity.
    - intros [a b] Hx. apply in_map_iff in Hx. destruct Hx as (y & F & Hy). injection F as <- <-.
      apply in_map_iff in Hy. destruct Hy as (z & <- & Hz). apply in_seq in Hz. cbn [fst snd]. apply Z.gtb_lt. lia.
    - intros [a b] Hx. apply in_map_iff in Hx. destruct Hx as (y & F & Hy). injection F as <- <-.
      apply in_map_iff in Hy. destruct Hy as (z & <- & Hz). apply in_seq in Hz. cbn [fst snd].
      rewrite Z.gtb_ltb. apply Z.ltb_ge. lia. }
  rewrite E, !map_map. reflexivity.
Qed.

(** ** Recovery of the truncation *)
Lemma trunc_tri n : 0 <= n -> nmdim_of n < 2 ^ 31 ->
  trunc32 (nmdim_of n) = Some n /\ trunc64 (nmdim_of n) = Some n.
Proof. intros N H. split; [apply trunc32_tri|apply trunc64_tri]; assumption. Qed.
(** any length: the largest truncation that fits *)
Lemma trunc_any nm : 0 <= nm < 2 ^ 21 ->
  exists t, trunc32 nm = Some t /\ trunc64 nm = Some t /\ -1 <= t /\ nmdim_of t <= nm < nmdim_of (t + 1).
Proof.
  intro H. destruct (trunc32_any nm H) as (t & E & T & B). destruct (trunc64_any nm ltac:(lia)) as (t' & E' & T' & B').
  exists t. assert (t' = t); [|subst; repeat split; try assumption; lia].
  pose proof (nmdim_sq t). pose proof (nmdim_sq (t + 1)). pose proof (nmdim_sq t'). pose proof (nmdim_sq (t' + 1)).
  assert (t' <= t) by nia. assert (t <= t') by nia. lia.
Qed.
Lemma trunc_real (n : Z) : 0 <= n ->
  (-1.5 + 0.5 * R_sqrt.sqrt (9 - 8 * (1 - IZR (nmdim_of n))) = IZR n)%R.
Proof.
  intro H. assert (E : IZR (nmdim_of n) = ((IZR n + 1) * (IZR n + 2) / 2)%R).
  { unfold nmdim_of. assert (D : 2 * ((n + 1) * (n + 2) / 2) = (n + 1) * (n + 2)).
    { assert (M : ((n + 1) * (n + 2)) mod 2 = 0).
      { rewrite Z.mul_mod by lia. pose proof (Z.mod_pos_bound (n + 1) 2 ltac:(lia)).
        replace ((n + 2) mod 2) with ((n + 1 + 1) mod 2) by (f_equal; lia).
        rewrite (Z.add_mod (n + 1) 1 2) by lia.
        assert (C : (n + 1) mod 2 = 0 \/ (n + 1) mod 2 = 1) by lia. destruct C as [->| ->]; reflexivity. }
      apply Z.mod_divide in M; [|lia]. destruct M as [q Hq]. rewrite Hq, Z.div_mul by lia. lia. }
    assert (DR : (2 * IZR ((n + 1) * (n + 2) / 2) = (IZR n + 1) * (IZR n + 2))%R).
    { rewrite <- !plus_IZR, <- !mult_IZR. f_equal. exact D. }
    lra. }
  rewrite E. replace (9 - 8 * (1 - (IZR n + 1) * (IZR n + 2) / 2))%R with ((2 * IZR n + 3) * (2 * IZR n + 3))%R by field.
  rewrite R_sqrt.sqrt_square by (apply IZR_le in H; lra). lra.
Qed.
(** a length for which the kernels recover a truncation that does not fit *)
Lemma trunc32_too_large : trunc32 10619135 = Some 4607 /\ trunc64 10619135 = Some 4606 /\ nmdim_of 4607 = 10619136.
Proof. vm_compute. repeat split; reflexivity. Qed.
