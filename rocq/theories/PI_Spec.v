(** What the potential-intensity kernels are meant to compute, written without
    the helper functions of PI_Model (only its output records are used). *)
From Coq Require Import Reals List Arith Lia ZArith.
From Verif Require Import Base PI_Model.
Import ListNotations.
Local Open Scope R_scope.

(** element k (from 1) of a profile *)
Definition lev (l : list R) (k : nat) : R := nth (k - 1) l 0.

(** Bolton's saturation vapour pressure (mb) at T (K) *)
Definition esat (T : R) : R := 6112 / 1000 * exp (1767 / 100 * (T - 27315 / 100) / (T - 2965 / 100)).
Definition eps : R := 28704 / 46150.
(** saturation mixing ratio at pressure p, and vapour pressure of a mixing ratio *)
Definition wsat (p T : R) : R := eps * esat T / (p - esat T).
Definition vapour (r p : R) : R := r * p / (eps + r).
(** density temperature with vapour r and total water rt *)
Definition Tdens (T r rt : R) : R := T * (1 + r / eps) / (1 + rt).
Definition Lv (T : R) : R := 2501000 - 630 * (T - 27315 / 100).
(** reversible entropy with total water rt, and its temperature derivative
    along saturation *)
Definition s_moist (rt p T r : R) : R :=
  (10057 / 10 + 2500 * rt) * ln T - 28704 / 100 * ln (p - vapour r p) + Lv T * r / T.
Definition s_rate (rt T r : R) : R := (10057 / 10 + 2500 * rt + Lv T ^ 2 * r / (4615 / 10 * T ^ 2)) / T.
Definition rel_hum (T r p : R) : R := Rmin (vapour r p / esat T) 1.
Definition s_parcel (T r p : R) : R := s_moist r p T r - r * (4615 / 10) * ln (rel_hum T r p).
(** condensation pressure *)
Definition p_lcl (T r p : R) : R :=
  p * Rpower (rel_hum T r p) (T / (1669 - 122 * rel_hum T r p - T)).

(** The buoyancy of the parcel (Tp, rp, pp) at level k of the sounding (T, r, p):
    dry adiabat below the condensation pressure; above it a saturated
    temperature whose entropy differs from the parcel's by at most what a
    (possibly damped) Newton correction of 0.001 K amounts to; zero above 50 mb. *)
Inductive buoyancy (T r p : list R) (Tp rp pp sig : R) (k : nat) : R -> Prop :=
| B_dry : 50 <= lev p k -> p_lcl Tp rp pp <= lev p k ->
    buoyancy T r p Tp rp pp sig k
      (Tdens (Tp * Rpower (lev p k / pp) (28704 / 100570)) rp rp - Tdens (lev T k) (lev r k) (lev r k))
| B_moist t a : 50 <= lev p k -> lev p k < p_lcl Tp rp pp ->
    (a = 3 / 10 \/ a = 1) -> 0 < t ->
    (t = lev T k \/ esat t <= lev p k - 1) ->
    a * Rabs (s_parcel Tp rp pp - s_moist rp (lev p k) t (wsat (lev p k) t))
      <= 1 / 1000 * Rabs (s_rate rp t (wsat (lev p k) t)) ->
    buoyancy T r p Tp rp pp sig k
      (Tdens t (wsat (lev p k) t) (sig * wsat (lev p k) t + (1 - sig) * rp)
         - Tdens (lev T k) (lev r k) (lev r k))
| B_top : lev p k < 50 -> buoyancy T r p Tp rp pp sig k 0.

(** trapezoidal buoyancy work from level 1 to level l *)
Fixpoint work (p : list R) (v : nat -> R) (l : nat) : R :=
  match l with
  | O => 0
  | S O => 0
  | S m => work p v m + (v (S m) + v m) * (28704 / 100 * (lev p m - lev p (S m)) / (lev p m + lev p (S m)))
  end.

(** The result for buoyancies v at levels 1..n: either nothing above level 1 is
    buoyant, or l is the highest buoyant level, the outflow is where the
    buoyancy interpolated in pressure vanishes (level n itself when l = n) and
    CAPE is the work up to there, cut off at zero. *)
Definition cape_result (T p : list R) (n : nat) (pp : R) (v : nat -> R) (o : cape_out) : Prop :=
  ((forall k, (2 <= k <= n)%nat -> v k <= 0) /\ o = mkcape 0 (lev T 1) 0 1) \/
  (exists l area, (2 <= l <= n)%nat /\ 0 < v l /\ (forall k, (l < k <= n)%nat -> v k <= 0) /\
     c_flag o = 1%Z /\
     c_cape o = Rmax (work p v l + 28704 / 100 * (pp - lev p 1) / (pp + lev p 1) * v 1%nat + area) 0 /\
     ((l = n /\ area = 0 /\ c_T o = lev T n /\ c_p o = lev p n) \/
      ((l < n)%nat /\ exists lam, 0 < lam <= 1 /\ (1 - lam) * v l + lam * v (l + 1)%nat = 0 /\
         c_p o = (1 - lam) * lev p l + lam * lev p (l + 1) /\
         c_T o = (1 - lam) * lev T l + lam * lev T (l + 1) /\
         area = 28704 / 100 * v l * (lev p l - c_p o) / (lev p l + c_p o)))).

(** pressures positive and strictly decreasing upwards, temperatures positive *)
Definition sounding (T p : list R) (n : nat) : Prop :=
  (n <= length T)%nat /\ (n <= length p)%nat /\
  (forall k, (1 <= k <= n)%nat -> 0 < lev T k /\ 0 < lev p k) /\
  (forall i j, (1 <= i < j)%nat -> (j <= n)%nat -> lev p j < lev p i).

(** the level nearest 50 mb, the lowest one if there are several *)
Definition nearest50 (p : list R) (num k : nat) : Prop :=
  (1 <= k <= num)%nat /\
  (forall i, (1 <= i < k)%nat -> Rabs (lev p k - 50) < Rabs (lev p i - 50)) /\
  (forall i, (1 <= i <= num)%nat -> Rabs (lev p k - 50) <= Rabs (lev p i - 50)).

(** mixing ratio of the environment's lowest-level air brought to pressure pp,
    and of air saturated at the sea surface (constants as rounded in the core
    routine) *)
Definition eps_core : R := 62197183 / 100000000.
Definition r_core (r1 psl pp : R) : R :=
  eps_core * r1 * psl / (pp * (eps_core + r1) - r1 * psl).
Definition rsat_core (sst pp : R) : R := eps_core * esat sst / (pp - esat sst).
Definition Tv_core (T r : R) : R := T * (1 + 16077899 / 10000000 * r) / (1 + r).

(** The fixed point the solver looks for: [cape] gives CAPE and outflow of a
    parcel.  From the pressure [pm0], with coefficient [f] on the CAPE
    difference, the next pressure is [psl * exp (- w / (Rd Tv))]. *)
Definition pressure_of (psl cenv cm cs rat tv f : R) : R :=
  psl * exp (- Rmax (cm - cenv + 9 / 10 * f * rat * (cs - cm)) 0 / (28704 / 100 * tv)).
