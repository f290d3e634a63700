(** Model of the growth-rate diagnostics
      src/skyborn/calc/growth_rate/fortran/growth_rate_kernels.f90
      src/skyborn/calc/growth_rate/core.py (explicit tropopause pressure, fixed wavenumber grid)

    The assembly of the eigenproblem, the sampling over wavenumbers and the final
    reductions are written over an arbitrary type of numbers [K] with its
    operations [fops]; theorems about spectra use the reals, examples the rationals.
    Arithmetic is exact.  NaN is [None].  Array reads are checked: the outer
    [option] is [None] when a read is outside its array.
    The QZ solver (EISPACK qzhes/qzit/qzval) is the argument [qz]; [None] is
    info /= 0.  cos, acos(-1)/180, log and ** kappa are arguments. *)
From Verif Require Import Base Buffer Loops VH_Model I2P_Model.
Local Open Scope nat_scope.

(** the operations of the number type *)
Record fops (K : Type) := {
  fz : Z -> K;
  fadd : K -> K -> K; fsub : K -> K -> K; fmul : K -> K -> K; fdiv : K -> K -> K; fopp : K -> K;
  fleb : K -> K -> bool }.
Arguments fz {K}. Arguments fadd {K}. Arguments fsub {K}. Arguments fmul {K}. Arguments fdiv {K}. Arguments fopp {K}. Arguments fleb {K}.
Definition Qops : fops Qc := {| fz := qz; fadd := Qcplus; fsub := Qcminus; fmul := Qcmult; fdiv := Qcdiv; fopp := Qcopp; fleb := Qcleb |}.

(** what a Python call does: returns (NaN is [None]) or raises *)
Inductive outcome (A : Type) := Returns (a : A) | Raises.
Arguments Returns {A}. Arguments Raises {A}.

(** every entry finite: its values (the negation of np.any(~np.isfinite(x)), core.py:508, 819-824, 957-960) *)
Fixpoint all_present {A : Type} (l : list (option A)) : option (list A) :=
  match l with
  | [] => Some []
  | None :: _ => None
  | Some q :: r => let* t := all_present r in Some (q :: t)
  end.

Section Kernel.
Context {K : Type} (O : fops K).
Local Notation "a +. b" := (fadd O a b) (at level 50, left associativity).
Local Notation "a -. b" := (fsub O a b) (at level 50, left associativity).
Local Notation "a *. b" := (fmul O a b) (at level 40, left associativity).
Local Notation "a /. b" := (fdiv O a b) (at level 40, left associativity).
Local Notation "-. a" := (fopp O a) (at level 35, right associativity).
Local Notation z0 := (fz O 0).
Local Notation z1 := (fz O 1).
Local Notation z2 := (fz O 2).
(** a > b *)
Definition fgtb (a b : K) : bool := negb (fleb O a b).
Definition fmax (a b : K) : K := if fleb O a b then b else a.

(** growth_rate_kernels.f90:17-24 *)
Definition omega : K := fz O 7292 /. fz O 100000000.
Definition radius : K := fz O 6371000.
Definition gas_constant_dry : K := fz O 28704 /. fz O 100.
Definition wavenumber_step : K := z1 /. fz O 10000000.
Definition nwavenumbers : nat := 200.

(** * Reductions *)
(** the running maximum of the three loops growth_rate_kernels.f90:87-98, 234-244 and 333-343: the first
    valid sample, then max *)
Definition max_step (m v : option K) : option K :=
  match v with
  | None => m
  | Some v => match m with None => Some v | Some m => Some (fmax m v) end
  end.
Definition max_valid (l : list (option K)) : option K := fold_left max_step l None.

(** growth_rate_kernels.f90:89-91: one eigenvalue (alfr, alfi, beta), skipped when
    |beta| <= tiny *)
Definition imag_sample (tiny : K) (e : K * K * K) : option K :=
  let '(_, ai, b) := e in
  if fleb O b tiny && fleb O (-. tiny) b then None else Some (ai /. b).
(** growth_rate_kernels.f90:66-106; [None] is info /= 0 *)
Definition generalized_eig_max_imag (tiny : K) (qz : list (list K) -> list (list K) -> option (list (K * K * K)))
    (a b : list (list K)) : option K :=
  match qz a b with
  | None => None
  | Some l => max_valid (map (imag_sample tiny) l)
  end.

(** growth_rate_kernels.f90:226-252; [inr] is ier *)
Definition finalize_barot_growth (growth : list (option K)) : K + Z :=
  match max_valid growth with Some m => inl m | None => inr 200%Z end.

(** growth_rate_kernels.f90:281-293: the mean of the valid samples of one window *)
Definition mean_step (s : K * nat) (v : option K) : K * nat :=
  match v with None => s | Some v => (fst s +. v, S (snd s)) end.
Definition window_mean (l : list (option K)) : option K :=
  let s := fold_left mean_step l (z0, 0) in
  if 0 <? snd s then Some (fst s /. fz O (Z.of_nat (snd s))) else None.
(** growth_rate_kernels.f90:264-295 *)
Definition apply_centered_running_mean (values : list (option K)) (window : Z) : option (list (option K)) :=
  if (window <=? 1)%Z then Some values
  else
    let half := Z.to_nat (window / 2) in
    mapM (fun i =>
      let js := Nat.max 1 (i - half) in
      let je := Nat.min (length values) (i + half) in
      let* w := mapM (fun j => rd values j) (seq js (je + 1 - js)) in
      Some (window_mean w)) (seq 1 (length values)).

(** growth_rate_kernels.f90:321-325: the last i with used(i) > used(i+1), 0 if none *)
Definition turn_step (used : list (option K)) (acc : option nat) (i : nat) : option nat :=
  let* last := acc in
  let* a := rd used i in
  let* b := rd used (i + 1) in
  match a, b with
  | Some a, Some b => if fgtb (a -. b) z0 then Some i else Some last
  | _, _ => Some last
  end.
Definition last_turn (used : list (option K)) : option nat :=
  fold_left (turn_step used) (seq 1 (length used - 1)) (Some 0).
(** growth_rate_kernels.f90:309-351 *)
Definition finalize_baroc_growth (growth : list (option K)) (smooth_window : Z) : option (K + Z) :=
  let* used := apply_centered_running_mean growth smooth_window in
  let* t := last_turn used in
  if t =? 0 then Some (inr 300%Z)
  else
    let* pre := mapM (fun i => rd used i) (seq 1 (t + 1)) in
    Some (match max_valid pre with Some m => inl m | None => inr 301%Z end).

(** * The eigenproblem *)
(** the coefficient arrays of one profile: a_diag_linear, a_lower_coeff,
    a_upper_coeff, b_diag_base, b_lower_coeff, b_upper_coeff *)
Record coefs := { ad : list K; al : list K; au : list K; bd : list K; bl : list K; bu : list K }.

(** growth_rate_kernels.f90:437-449 = 589-601: the two matrices at wavenumber kval *)
Definition a_entry (u : list K) (c : coefs) (kval : K) (i j : nat) : option K :=
  if i =? j then let* d := rd (ad c) i in let* v := rd u i in Some (kval *. d -. (kval *. kval *. kval) *. v)
  else if i =? j + 1 then let* l := rd (al c) j in Some (kval *. l)
  else if j =? i + 1 then let* v := rd (au c) i in Some (kval *. v)
  else Some z0.
Definition b_entry (c : coefs) (kval : K) (i j : nat) : option K :=
  if i =? j then let* d := rd (bd c) i in Some (d -. kval *. kval)
  else if i =? j + 1 then rd (bl c) j
  else if j =? i + 1 then rd (bu c) i
  else Some z0.
Definition matrix (n : nat) (e : nat -> nat -> option K) : option (list (list K)) :=
  mapM (fun i => mapM (e i) (seq 1 n)) (seq 1 n).
(** growth_rate_kernels.f90:432-453 = 584-605: the loop over the wavenumbers *)
Definition spectrum (tiny : K) (qz : list (list K) -> list (list K) -> option (list (K * K * K))) (u : list K) (c : coefs)
    (factor : K) (count : nat) : option (list (option K)) :=
  mapM (fun k =>
    let kval := fz O (Z.of_nat k - 1) *. factor in
    let* a := matrix (length u) (a_entry u c kval) in
    let* b := matrix (length u) (b_entry c kval) in
    Some (generalized_eig_max_imag tiny qz a b)) (seq 1 count).

Section Barotropic.
(** cos and acos(-1)/180 *)
Variables (cs : K -> K) (rad : K).
Record geometry := { dy : list K; dy2 : list K; y1 : K; y2 : K; beta_arr : list K }.
(** (y(n+1) - y(n)) * cos of the middle latitude, growth_rate_kernels.f90:399-401 *)
Definition dist_at (lat y : list K) (n : nat) : option K :=
  let* ya := rd y n in
  let* yb := rd y (n + 1) in
  let* la := rd lat n in
  let* lb := rd lat (n + 1) in
  Some ((yb -. ya) *. cs (rad *. ((lb +. la) /. z2))).
(** growth_rate_kernels.f90:396-402 *)
Definition barot_geometry (lat : list K) : option geometry :=
  let nlat := length lat in
  let y := map (fun l => rad *. l *. radius) lat in
  let* dy1 := mapM (fun n => let* b := rd y (n + 1) in let* a := rd y n in Some ((b +. a) /. z2)) (seq 1 (nlat - 1)) in
  let* dy2 := mapM (fun n => let* b := rd dy1 (n + 1) in let* a := rd dy1 n in Some (b -. a)) (seq 1 (nlat - 2)) in
  let* dy := mapM (dist_at lat y) (seq 1 (nlat - 1)) in
  let* y1 := dist_at lat y 1 in
  let* y2 := dist_at lat y (nlat - 1) in
  Some {| dy := dy; dy2 := dy2; y1 := y1; y2 := y2;
          beta_arr := map (fun l => z2 *. omega *. cs (rad *. l) /. radius) lat |}.

(** growth_rate_kernels.f90:404-425.  Each array is filled by assignments to
    distinct elements; element n of each is given here. *)
Definition barot_ad (g : geometry) (u : list K) (n : nat) : option K :=
  let nlat := length u in
  let* be := rd (beta_arr g) n in
  let* v := rd u n in
  if n =? 1 then
    let* v2 := rd u 2 in
    let* d := rd (dy g) 1 in
    Some (be +. v /. y1 g *. (-. z1 /. y1 g -. z1 /. d) -. (z1 /. y1 g) *. ((-. v /. y1 g) -. ((v -. v2) /. d)))
  else if n =? nlat then
    let* vm := rd u (nlat - 1) in
    let* d := rd (dy g) (nlat - 1) in
    Some (be +. v /. y2 g *. (-. z1 /. d -. z1 /. y2 g) -. (z1 /. y2 g) *. (((vm -. v) /. d) -. v /. y2 g))
  else
    let* vm := rd u (n - 1) in
    let* vp := rd u (n + 1) in
    let* w := rd (dy2 g) (n - 1) in
    let* dm := rd (dy g) (n - 1) in
    let* d := rd (dy g) n in
    Some (be +. v /. w *. (-. z1 /. dm -. z1 /. d) -. (z1 /. w) *. (((vm -. v) /. dm) -. ((v -. vp) /. d))).
Definition barot_bd (g : geometry) (nlat n : nat) : option K :=
  if n =? 1 then let* d := rd (dy g) 1 in Some ((z1 /. y1 g) *. (-. z1 /. y1 g -. z1 /. d))
  else if n =? nlat then let* d := rd (dy g) (nlat - 1) in Some ((z1 /. y2 g) *. (-. z1 /. d -. z1 /. y2 g))
  else
    let* w := rd (dy2 g) (n - 1) in
    let* dm := rd (dy g) (n - 1) in
    let* d := rd (dy g) n in
    Some ((z1 /. w) *. (-. z1 /. dm -. z1 /. d)).
(** element m of the lower arrays belongs to row m + 1; the numerator is u or 1 *)
Definition barot_low (g : geometry) (nlat : nat) (num : nat -> option K) (m : nat) : option K :=
  let* v := num (m + 1) in
  let* d := rd (dy g) m in
  if m + 1 =? nlat then Some (v /. (y2 g *. d))
  else let* w := rd (dy2 g) m in Some (v /. (w *. d)).
Definition barot_up (g : geometry) (num : nat -> option K) (n : nat) : option K :=
  let* v := num n in
  let* d := rd (dy g) n in
  if n =? 1 then Some (v /. (y1 g *. d))
  else let* w := rd (dy2 g) (n - 1) in Some (v /. (w *. d)).
Definition barot_coefs (g : geometry) (u : list K) : option coefs :=
  let nlat := length u in
  let* ad := mapM (barot_ad g u) (seq 1 nlat) in
  let* al := mapM (barot_low g nlat (rd u)) (seq 1 (nlat - 1)) in
  let* au := mapM (barot_up g (rd u)) (seq 1 (nlat - 1)) in
  let* bd := mapM (barot_bd g nlat) (seq 1 nlat) in
  let* bl := mapM (barot_low g nlat (fun _ => Some z1)) (seq 1 (nlat - 1)) in
  let* bu := mapM (barot_up g (fun _ => Some z1)) (seq 1 (nlat - 1)) in
  Some {| ad := ad; al := al; au := au; bd := bd; bl := bl; bu := bu |}.

(** growth_rate_kernels.f90:371-457 *)
Definition dbarot_growth_rate_1d (tiny : K) (qz : list (list K) -> list (list K) -> option (list (K * K * K))) (lat u : list K)
    : option (K + Z) :=
  if length lat <? 3 then Some (inr 1%Z)
  else
    let* g := barot_geometry lat in
    let* c := barot_coefs g u in
    let* growth := spectrum tiny qz u c wavenumber_step nwavenumbers in
    Some (finalize_barot_growth growth).

(** np.all(diffs > 0.0), np.all(diffs < 0.0), core.py:171-176 *)
Fixpoint increasingb (l : list K) : bool :=
  match l with
  | a :: (b :: _) as r => fgtb b a && increasingb r
  | _ => true
  end.
Fixpoint decreasingb (l : list K) : bool :=
  match l with
  | a :: (b :: _) as r => fgtb a b && decreasingb r
  | _ => true
  end.
(** core.py:508-523, the arguments already one-dimensional arrays of the same length *)
Definition barot_growth_rate (tiny : K) (qz : list (list K) -> list (list K) -> option (list (K * K * K)))
    (u lat : list (option K)) : option (outcome (option K)) :=
  match all_present u, all_present lat with
  | Some u, Some lat =>
      if negb (increasingb lat || decreasingb lat) then Some Raises
      else
        let* first := rd lat 1 in
        let* last := rd lat (length lat) in
        let down := fgtb first last in
        let* r := dbarot_growth_rate_1d tiny qz (if down then rev lat else lat) (if down then rev u else u) in
        Some (match r with inl g => Returns (Some g) | inr _ => Raises end)
  | _, _ => Some (Returns None)
  end.
End Barotropic.

(** growth_rate_kernels.f90:542-549 *)
Record column := { dz2 : list K; nz : list K; f2 : K; cbeta : K }.
Definition baroc_column (theta pressure temperature : list K) (f beta : K) : option column :=
  let nlev := length pressure in
  let* dz1 := mapM (fun n => let* b := rd pressure (n + 1) in let* a := rd pressure n in Some ((b +. a) /. z2)) (seq 1 (nlev - 1)) in
  let* dz2 := mapM (fun n =>
                if n =? 1 then let* b := rd pressure 2 in let* a := rd pressure 1 in Some (b -. a)
                else if n =? nlev then let* b := rd pressure nlev in let* a := rd pressure (nlev - 1) in Some (b -. a)
                else let* b := rd dz1 n in let* a := rd dz1 (n - 1) in Some (b -. a)) (seq 1 nlev) in
  let* rho := mapM (fun n => let* p := rd pressure n in let* t := rd temperature n in Some (p /. (gas_constant_dry *. t))) (seq 1 nlev) in
  let* nz := mapM (fun n =>
                let* tb := rd theta (n + 1) in
                let* ta := rd theta n in
                let* r := rd rho n in
                Some (-. ((tb -. ta) *. (z1 /. (r *. ta))))) (seq 1 (nlev - 1)) in
  Some {| dz2 := dz2; nz := nz; f2 := f *. f; cbeta := beta |}.
(** growth_rate_kernels.f90:551-571, element n of each array *)
Definition baroc_ad (c : column) (u : list K) (n : nat) : option K :=
  let nlev := length u in
  let* v := rd u n in
  let* w := rd (dz2 c) n in
  if n =? 1 then
    let* vp := rd u 2 in
    let* s := rd (nz c) 1 in
    Some (cbeta c +. v *. f2 c /. w *. (-. z1 /. s) -. f2 c /. w *. ((vp -. v) /. s))
  else if n =? nlev then
    let* vm := rd u (nlev - 1) in
    let* s := rd (nz c) (nlev - 1) in
    Some (cbeta c +. v *. f2 c /. w *. (-. z1 /. s) -. f2 c /. w *. ((vm -. v) /. s))
  else
    let* vm := rd u (n - 1) in
    let* vp := rd u (n + 1) in
    let* sm := rd (nz c) (n - 1) in
    let* s := rd (nz c) n in
    Some (cbeta c +. v *. f2 c /. w *. (-. z1 /. sm -. z1 /. s) -. f2 c /. w *. (((vm -. v) /. sm) -. ((v -. vp) /. s))).
Definition baroc_bd (c : column) (nlev n : nat) : option K :=
  let* w := rd (dz2 c) n in
  if n =? 1 then let* s := rd (nz c) 1 in Some (f2 c /. w *. (-. z1 /. s))
  else if n =? nlev then let* s := rd (nz c) (nlev - 1) in Some (f2 c /. w *. (-. z1 /. s))
  else
    let* sm := rd (nz c) (n - 1) in
    let* s := rd (nz c) n in
    Some (f2 c /. w *. (-. z1 /. sm -. z1 /. s)).
(** the off-diagonal element of row [row] over the interface [m]; the numerator is u f2 or f2 *)
Definition baroc_off (c : column) (num : nat -> option K) (row m : nat) : option K :=
  let* v := num row in
  let* w := rd (dz2 c) row in
  let* s := rd (nz c) m in
  Some (v /. (w *. s)).
Definition baroc_coefs (c : column) (u : list K) : option coefs :=
  let nlev := length u in
  let uf n := let* v := rd u n in Some (v *. f2 c) in
  let ff (n : nat) := Some (f2 c) in
  let* ad := mapM (baroc_ad c u) (seq 1 nlev) in
  let* al := mapM (fun m => baroc_off c uf (m + 1) m) (seq 1 (nlev - 1)) in
  let* au := mapM (fun m => baroc_off c uf m m) (seq 1 (nlev - 1)) in
  let* bd := mapM (baroc_bd c nlev) (seq 1 nlev) in
  let* bl := mapM (fun m => baroc_off c ff (m + 1) m) (seq 1 (nlev - 1)) in
  let* bu := mapM (fun m => baroc_off c ff m m) (seq 1 (nlev - 1)) in
  Some {| ad := ad; al := al; au := au; bd := bd; bl := bl; bu := bu |}.

(** growth_rate_kernels.f90:488-610; [pi] is acos(-1) *)
Definition dbaroc_growth_rate_1d (pi tiny : K) (qz : list (list K) -> list (list K) -> option (list (K * K * K)))
    (u theta pressure temperature : list K) (f beta : K) (smooth_window mode count : Z) (zonal_length : K) : option (K + Z) :=
  if length u <? 3 then Some (inr 1%Z)
  else if (smooth_window <? 1)%Z then Some (inr 2%Z)
  else if (count <? 2)%Z then Some (inr 3%Z)
  else if negb (mode =? 1)%Z && negb (mode =? 2)%Z then Some (inr 4%Z)
  else if (mode =? 2)%Z && fleb O zonal_length z0 then Some (inr 5%Z)
  else
    let* col := baroc_column theta pressure temperature f beta in
    let* c := baroc_coefs col u in
    let factor := if (mode =? 1)%Z then wavenumber_step else z2 *. pi /. zonal_length in
    let* growth := spectrum tiny qz u c factor (Z.to_nat count) in
    finalize_baroc_growth growth smooth_window.
End Kernel.
Arguments coefs : clear implicits.
Arguments geometry : clear implicits.
Arguments column : clear implicits.

(** * Interpolation to the solver grid *)
Section Interp.
Variable lg : Qc -> Qc.
(** growth_rate_kernels.f90:186-188 *)
Fixpoint level_walk (fuel : nat) (p : list Qc) (t : Qc) (j : nat) : option nat :=
  match fuel with
  | O => None
  | S fuel =>
      let* q := rd p (j + 1) in
      if (j <? length p - 1) && Qcltb q t then level_walk fuel p t (j + 1) else Some j
  end.
(** growth_rate_kernels.f90:190-212 *)
Definition level_value (kind : Z) (p v : list Qc) (t : Qc) (j : nat) : option Qc :=
  let* lo := rd p j in
  let* vlo := rd v j in
  let* hi := rd p (j + 1) in
  let* vhi := rd v (j + 1) in
  if Qceqb t lo then Some vlo
  else if Qceqb t hi then Some vhi
  else if (kind =? 1)%Z then Some (vlo + ((vhi - vlo) / (hi - lo)) * (t - lo))%Qc
  else Some (vlo + ((vhi - vlo) / (lg hi - lg lo)) * (lg t - lg lo))%Qc.
(** growth_rate_kernels.f90:178-213: the loop over the targets, [j] persists *)
Fixpoint target_loop (kind : Z) (p v : list Qc) (ts : list Qc) (j : nat) : option (list Qc + Z) :=
  match ts with
  | [] => Some (inl [])
  | t :: r =>
      let* first := rd p 1 in
      let* last := rd p (length p) in
      if Qcltb t first || Qcltb last t then Some (inr 4%Z)
      else
        let* j := level_walk (length p) p t j in
        let* x := level_value kind p v t j in
        let* rest := target_loop kind p v r j in
        Some (match rest with inl l => inl (x :: l) | inr e => inr e end)
  end.
(** growth_rate_kernels.f90:123-214; [inr] is ier *)
Definition interp_no_extrap (source values target : list Qc) (kind : Z) : option (list Qc + Z) :=
  let nin := length source in
  if nin <? 2 then Some (inr 1%Z)
  else
    let* first := rd source 1 in
    let* last := rd source nin in
    let down := Qcltb last first in
    let p := if down then rev source else source in
    let v := if down then rev values else values in
    if negb (diffs_all Qcltb p) then Some (inr 1%Z)
    else if negb (diffs_all Qcltb target) then Some (inr 2%Z)
    else if (kind =? 2)%Z && (existsb (fun x => Qcleb x 0%Qc) p || existsb (fun x => Qcleb x 0%Qc) target) then Some (inr 3%Z)
    else target_loop kind p v target 1.
End Interp.

(** * The Python layer, explicit tropopause pressure, single latitude per profile *)
Section Wrapper.
Variable lg : Qc -> Qc.
(** (1e5 / p) ** kappa, the Coriolis parameter and its gradient *)
Variables (pwk fcor betaf : Qc -> Qc).
(** dbaroc_growth_rate_1d with the wavenumber arguments fixed: u, theta, pressure, temperature, f, beta *)
Variable kern : list Qc -> list Qc -> list Qc -> list Qc -> Qc -> Qc -> Qc + Z.

Definition p_ref : Qc := qz 100000.
(** theta, growth_rate_kernels.f90:675 = core.py:880-882 *)
Definition theta_of (p t : list Qc) : list Qc := map (fun pt => snd pt * pwk (p_ref / fst pt))%Qc (combine p t).
(** growth_rate_kernels.f90:656-682, one profile; ier = 100 for any interpolation failure *)
Definition baroc_profile (u t source target : list Qc) (f beta : Qc) (kind : Z) : option (Qc + Z) :=
  let* iu := interp_no_extrap lg source u target kind in
  match iu with
  | inr _ => Some (inr 100%Z)
  | inl us =>
      let* it := interp_no_extrap lg source t target kind in
      match it with
      | inr _ => Some (inr 100%Z)
      | inl ts => Some (kern us (theta_of target ts) target ts f beta)
      end
  end.

(** np.linspace(a, b, n), core.py:848-853 *)
Definition linspace (a b : Qc) (n : nat) : list Qc :=
  map (fun i => a + qz (Z.of_nat i) * ((b - a) / qz (Z.of_nat (n - 1))))%Qc (seq 0 n).
(** core.py:1047-1052: tp + (bottom - tp) * linspace(0, 1, n) *)
Definition ramp (a b : Qc) (n : nat) : list Qc :=
  map (fun r => a + (b - a) * r)%Qc (linspace 0%Qc 1%Qc n).

(** core.py:819-925, one profile.  [pressure]: the validated coordinate in Pa
    (positive, strictly monotonic), [tp] the explicit tropopause pressure, [log]
    whether method is "log" *)
Definition baroc_scalar (pressure : list Qc) (bottom : Qc) (levels : nat) (log : bool) (u t : list (option Qc)) (tp : option Qc) (lat : Qc)
    : option (outcome (option Qc)) :=
  match all_present u, all_present t with
  | Some us, Some ts =>
      if existsb (fun x => Qcleb x 0%Qc) ts then Some Raises
      else match tp with
      | None => Some (Returns None)
      | Some tp =>
          let tp := if Qcleb tp (qz 2000) then (tp * qz 100)%Qc else tp in
          if Qcleb bottom tp then Some Raises
          else
            let grid := linspace tp bottom levels in
            let call x := interp_pressure_1d lg (map Some x) (map Some pressure) (map Some grid) log false None in
            match call us, call ts with
            | Some ui, Some ti =>
                match all_present ui, all_present ti with
                | Some ui, Some ti =>
                    match kern ui (theta_of grid ti) grid ti (fcor lat) (betaf lat) with
                    | inl g => Some (Returns (Some g))
                    | inr _ => Some Raises
                    end
                | _, _ => Some (Returns None)
                end
            | _, _ => Some Raises
            end
      end
  | _, _ => Some (Returns None)
  end.

(** one profile of a batch: u, t, tropopause pressure, latitude *)
Definition profile := (list (option Qc) * list (option Qc) * (option Qc * option Qc))%type.
Definition maxl (l : list Qc) : option Qc := match l with [] => None | a :: r => Some (fold_left (fun m x => if Qcleb m x then x else m) r a) end.
(** core.py:989-1001: the tropopause pressures are in hPa when the largest finite one is at most 2000 *)
Definition in_hpa (ps : list profile) : bool :=
  match maxl (finite (map (fun p => fst (snd p)) ps)) with Some m => Qcleb m (qz 2000) | None => false end.
(** a valid profile with its numbers, core.py:957-964 and 1001: everything finite *)
Definition valid_profile (hpa : bool) (p : profile) : option (list Qc * list Qc * (Qc * Qc)) :=
  match p with
  | (u, t, (tp, lat)) =>
      let* us := all_present u in
      let* ts := all_present t in
      let* tp := tp in
      let* lat := lat in
      Some (us, ts, ((if hpa then tp * qz 100 else tp)%Qc, lat))
  end.
(** core.py:1095-1106: result of one profile in the output; [None] inside is NaN *)
Definition batch_entry (r : option (Qc + Z)) : option (outcome (option Qc)) :=
  let* r := r in
  match r with
  | inl g => Some (Returns (Some g))
  | inr e => if (e =? 100)%Z then Some (Returns None) else Some Raises
  end.
(** the whole batch raises when one profile does *)
Fixpoint collect (l : list (outcome (option Qc))) : outcome (list (option Qc)) :=
  match l with
  | [] => Returns []
  | Returns v :: r => match collect r with Returns t => Returns (v :: t) | Raises => Raises end
  | Raises :: _ => Raises
  end.
(** core.py:927-1111 *)
Definition baroc_batch (pressure : list Qc) (bottom : Qc) (levels : nat) (log : bool) (ps : list profile)
    : option (outcome (list (option Qc))) :=
  let hpa := in_hpa ps in
  let vs := map (valid_profile hpa) ps in
  let bad v := match v with Some (_, _, (tp, _)) => Qcleb tp 0%Qc || Qcleb bottom tp | None => false end in
  let cold v := match v with Some (_, ts, _) => existsb (fun x => Qcleb x 0%Qc) ts | None => false end in
  if existsb bad vs then Some Raises
  else if existsb cold vs then Some Raises
  else
    let* rs := mapM (fun v =>
      match v with
      | None => Some (Returns None)
      | Some (us, ts, (tp, lat)) =>
          batch_entry (baroc_profile us ts pressure (ramp tp bottom levels) (fcor lat) (betaf lat) (if log then 2 else 1)%Z)
      end) vs in
    Some (collect rs).
End Wrapper.
