(** C34: the angle formulas of triple2grid.f90 over the real numbers. *)
From Coq Require Import Reals Lra.
From Verif Require Import TG_Model.
Local Open Scope R_scope.

(** ** the formula on the sphere *)
Definition code_cos (lat1 lat2s lat2c lon1 lon2 : R) : R := cos_angle Rplus Rminus Rmult sin cos (PI / 180) lat1 lat2s lat2c lon1 lon2.
(** the unit vector of a point given in degrees *)
Definition vec (lon lat : R) : R * (R * R) :=
  (cos (lat * (PI / 180)) * cos (lon * (PI / 180)), (cos (lat * (PI / 180)) * sin (lon * (PI / 180)), sin (lat * (PI / 180)))).
Definition dot (u v : R * (R * R)) : R := fst u * fst v + fst (snd u) * fst (snd v) + snd (snd u) * snd (snd v).
Theorem search_angle_correct lon1 lat1 lon2 lat2 : code_cos lat1 lat2 lat2 lon1 lon2 = dot (vec lon1 lat1) (vec lon2 lat2).
Proof.
  unfold code_cos, cos_angle, dot, vec. simpl. rewrite Rmult_minus_distr_r, cos_minus. ring.
Qed.
(** the second pass puts the node's longitude in one place of its latitude: an
    observation and a node at the same point of the sphere get cosine 1/4, not 1 *)
Theorem second_pass_angle_refuted : exists lon lat, dot (vec lon lat) (vec lon lat) = 1 /\ code_cos lat lon lat lon lon = 1 / 4.
Proof.
  exists 0, 60. split.
  - unfold dot, vec. simpl. replace (0 * (PI / 180)) with 0 by field. rewrite cos_0, sin_0. pose proof (sin2_cos2 (60 * (PI / 180))) as H. unfold Rsqr in H. lra.
  - unfold code_cos, cos_angle. replace (60 * (PI / 180)) with (PI / 3) by field. replace (0 * (PI / 180)) with 0 by field. replace ((0 - 0) * (PI / 180)) with 0 by field.
    rewrite sin_0, cos_0, cos_PI3. field.
Qed.

Example search_angle_example : code_cos 0 0 0 90 0 = 0.
Proof. rewrite search_angle_correct. unfold dot, vec. simpl. replace (90 * (PI / 180)) with (PI / 2) by field. replace (0 * (PI / 180)) with 0 by field. rewrite cos_PI2, sin_0, cos_0. ring. Qed.
Print Assumptions search_angle_correct.
Print Assumptions second_pass_angle_refuted.
