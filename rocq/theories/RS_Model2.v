(** The Python side of the packed reduced-Gaussian transforms
    (src/skyborn/spharm/reduced_gaussian.py), over the kernels of RS_Model and
    the spectral kernels of SH_Model. *)
From Coq Require Import Reals List Arith ZArith Bool.
From Verif Require Import Base VH_Model SH_Model RS_Model.
Import ListNotations.
Local Open Scope nat_scope.

(** numpy's element-by-element a - b and a + b, :834-835 *)
Definition array_sub (a b : list R) : list R := map (fun p => (fst p - snd p)%R) (combine a b).
Definition array_add (a b : list R) : list R := map (fun p => (fst p + snd p)%R) (combine a b).

(** reduced_gaussian.py:816-836 getuv (and :692-693 _invlap, :657-690
    _synthesize_gradient_pair): the inverse Laplacians of the two spectra, one
    paired gradient synthesis, and the two combinations.  The paired routine
    returns the eastward and northward derivatives of chi, then of psi; the
    Python code names the last two v_psi and u_psi. *)
Definition getuv (bwd : nat -> list R -> list R) (junk junk2 junk3 junk4 : nat -> list R) (pl : list nat) (T : nat)
    (vrtspec divspec fresh1 fresh2 : list RS_Model.C) (basis dbasis : list (list R)) (sin_theta : list R) (rsphere : R)
    (out : (list R * list R) * (list R * list R)) : option (list R * list R) :=
  let* psispec := invlap RR rsphere vrtspec fresh1 in
  let* chispec := invlap RR rsphere divspec fresh2 in
  let* g := getgrad_pair bwd junk junk2 junk3 junk4 pl T chispec psispec basis dbasis sin_theta rsphere out in
  let u_chi := fst (fst g) in let v_chi := snd (fst g) in
  let v_psi := fst (snd g) in let u_psi := snd (snd g) in
  Some (array_sub u_chi u_psi, array_add v_chi v_psi).

(** reduced_gaussian.py:888-901 specsmooth: analysis at the default truncation
    nlat - 1 (:216-218), smoothing, synthesis; [None] is an access outside an
    array, [Some None] the ValidationError for a smoothing vector of the wrong
    size. *)
Definition specsmooth (fwd bwd : nat -> list R -> list R) (junk : nat -> list R) (pl : list nat) (grid smooth weights : list R)
    (basis old_cos old_sin : list (list R)) (fresh : list RS_Model.C) (out : list R) : option (option (list R)) :=
  if negb (length smooth =? length pl) then Some None else
  let T := length pl - 1 in
  let* spec := grdtospec fwd pl T grid weights basis old_cos old_sin in
  let* smoothed := multsmoothfact RR smooth spec fresh in
  let* g := spectogrd bwd junk pl T smoothed basis out in
  Some (Some g).

(** ** Output precision *)
Inductive dtype := Single | Double.   (* float32 / complex64, float64 / complex128 *)
Inductive mode := Auto | SingleMode | DoubleMode.

(** :177-186 _public_real_dtype; :188-193 _public_complex_dtype is the same
    choice between the complex types. *)
Definition public_dtype (p : mode) (arrays : list dtype) : dtype :=
  match p with
  | SingleMode => Single
  | DoubleMode => Double
  | Auto => if existsb (fun d => match d with Double => true | Single => false end) arrays then Double else Single
  end.
(** :353, :384 the validated arrays are float32 / complex64 whatever came in *)
Definition validated (d : dtype) : dtype := Single.
(** The public operations and the arrays each passes to the choice of dtype:
    :713 grdtospec and :726 spectogrd pass the rebound, validated array; :733
    _spectogrd_pair, :778 getvrtdivspec, :794 getvrtspec, :807 getdivspec, :840
    getgrad and :868 getgrad_pair pass the caller's arrays; :831 getuv and :885
    _invlapspec the validated ones. *)
Inductive operation := Op_grdtospec | Op_spectogrd | Op_spectogrd_pair | Op_getvrtdivspec | Op_getvrtspec | Op_getdivspec
  | Op_getuv | Op_getgrad | Op_getgrad_pair | Op_invlapspec.
Definition output_dtype (p : mode) (op : operation) (inputs : list dtype) : dtype :=
  match op with
  | Op_grdtospec | Op_spectogrd | Op_getuv | Op_invlapspec => public_dtype p (map validated inputs)
  | Op_spectogrd_pair | Op_getvrtdivspec | Op_getvrtspec | Op_getdivspec | Op_getgrad | Op_getgrad_pair => public_dtype p inputs
  end.

(** ** The basis caches *)
Section Cache.
Context {V : Type}.
(** a dict as its items in insertion order *)
Definition dict (K : Type) := list (K * V).
Context {K : Type} (eqb : K -> K -> bool).
Definition lookup (k : K) (d : dict K) : option V := option_map snd (find (fun kv => eqb k (fst kv)) d).
(** :55-65 _cache_basis_array: nothing when present, else the oldest entry goes
    when the cache is full, then the new one is appended.  [None] is the
    StopIteration of next(iter({})) when max_entries is 0. *)
Definition cache_basis_array (cache : dict K) (key : K) (value : V) (max_entries : nat) : option (dict K) :=
  match lookup key cache with
  | Some _ => Some cache
  | None => if max_entries <=? length cache
            then match cache with [] => None | _ :: rest => Some (rest ++ [(key, value)]) end
            else Some (cache ++ [(key, value)])
  end.
End Cache.

(** :225-253 _basis (and :255-293 _dbasis): the object's cache, then the global
    one, then the kernel [compute nlat ntrunc], which may fail.  The state is
    (object cache, global cache); the result [Some None] is the SpheremackError. *)
Definition pair_eqb (a b : nat * nat) : bool := andb (fst a =? fst b) (snd a =? snd b).
Definition basis_get {V : Type} (compute : nat -> nat -> option V) (max_entries nlat ntrunc : nat) (st : @dict V nat * @dict V (nat * nat))
    : option (option V * (@dict V nat * @dict V (nat * nat))) :=
  match lookup Nat.eqb ntrunc (fst st) with
  | Some b => Some (Some b, st)
  | None =>
    match lookup pair_eqb (nlat, ntrunc) (snd st) with
    | Some b => Some (Some b, (fst st ++ [(ntrunc, b)], snd st))
    | None =>
      match compute nlat ntrunc with
      | None => Some (None, st)
      | Some b => let* g := cache_basis_array pair_eqb (snd st) (nlat, ntrunc) b max_entries in
                  Some (Some b, (fst st ++ [(ntrunc, b)], g))
      end
    end
  end.

(** ** The Legendre table *)
Local Open Scope Z_scope.
(** shags.f90:666-702 shagsp, the checks of its arguments (l from nlon, nlat);
    [inner] is the error of shagsp1 (zero when the Gaussian points converge),
    reported as 6.  Divisions are exact or of non-negative numbers. *)
Definition shagsp_code (nlat nlon lshags ldwork inner : Z) : Z :=
  let l := Z.min ((nlon + 2) / 2) nlat in
  let late := (nlat + nlat mod 2) / 2 in
  if nlat <? 3 then 1
  else if nlon <? 4 then 2
  else if lshags <? nlat * (2 * late + 3 * l - 2) + 3 * l * (1 - l) / 2 + nlon + 15 then 3
  else if ldwork <? nlat * (nlat + 4) then 4
  else if negb (inner =? 0) then 6 else 0.
(** reduced_gaussian_scalar.f90:169-210 reduced_gaussian_legendre_basis: the
    checks, the work space sizes and the call of shagsp *)
Definition legendre_basis_code (nlat ntrunc alloc inner : Z) : Z :=
  if nlat <? 3 then 1
  else if (ntrunc <? 0) || (nlat - 1 <? ntrunc) then 2
  else
    let l := ntrunc + 1 in
    let late := (nlat + 1) / 2 in
    let nlon_basis := Z.max 4 (2 * ntrunc) in
    let lshags := nlat * (2 * late + 3 * l - 2) + 3 * l * (1 - l) / 2 + nlon_basis + 15 in
    let ldwork := nlat * (nlat + 4) in
    if negb (alloc =? 0) then 3
    else if negb (shagsp_code nlat nlon_basis lshags ldwork inner =? 0) then 4 else 0.
(** reduced_gaussian.py:215-223 _validate_ntrunc: [None] is the ValidationError *)
Definition validate_ntrunc (nlat : Z) (ntrunc : option Z) : option Z :=
  match ntrunc with
  | None => Some (nlat - 1)
  | Some n => if (n <? 0) || (nlat - 1 <? n) then None else Some n
  end.
Local Open Scope nat_scope.

(** :213-229: row i of the northern half (and the middle) holds the values
    pmn(n+1, i) of order m, the mirror row the same with the sign [parity],
    which starts at +1 for n = m and changes at every degree; each (row, nm) is
    assigned once.  [pmn m n i] is what legin returns. *)
Definition late (nlat : nat) : nat := (nlat + 1) / 2.
Definition parity_sign (m n : nat) : R := if Nat.even (n - m) then 1%R else (-1)%R.
Definition basis_value (nlat : nat) (pmn : nat -> nat -> nat -> R) (j m n : nat) : R :=
  if j <=? late nlat then pmn m n j else (parity_sign m n * pmn m n (nlat - j + 1)%nat)%R.
(** one table row over nm, in the order of the double loop (:215-218) *)
Definition table_row (ntrunc : nat) (f : nat -> nat -> R) : list R :=
  flat_map (fun m => map (fun n => f m n) (seq m (ntrunc + 1 - m))) (seq 0 (ntrunc + 1)).
Definition legendre_basis (nlat ntrunc : nat) (pmn : nat -> nat -> nat -> R) : list (list R) :=
  map (fun j => table_row ntrunc (basis_value nlat pmn j)) (seq 1 nlat).

(** reduced_gaussian_legendre_derivative_from_basis :236-293; [theta j] are the
    Gaussian colatitudes.  prev_nm (:276) is one less than nm. *)
Definition legendre_derivative (nlat ntrunc : nat) (theta : nat -> R) (basis : list (list R)) : list (list R) :=
  map (fun j => table_row ntrunc (fun m n =>
        let row := nth (j - 1) basis [] in
        let nm := spectral_offset m ntrunc + n - m + 1 in
        derivative_entry m n (theta j) (nth (nm - 1) row 0%R) (nth (nm - 2) row 0%R))) (seq 1 nlat).

(** ** The caches of the Fortran module (:9-163) *)
Section FortranCaches.
Context {Plan : Type} (hrffti : nat -> Plan).
(** the FFT cache: the row lengths it was made for, its first extent, the plans *)
Record fft_cache := { fc_pl : list nat; fc_max : nat; fc_plan : list Plan }.
Definition max_wsave (pl : list nat) : nat := 2 * fold_right Nat.max 0 pl + 15.
Definition list_eqb (a b : list nat) : bool := andb (length a =? length b) (forallb (fun p => fst p =? snd p) (combine a b)).
(** :24-96, [None] = not allocated; [alloc] is the allocation status *)
Definition prepare_fft_cache (pl : list nat) (alloc : bool) (c : option fft_cache) : Z * option fft_cache :=
  if orb (length pl =? 0) (existsb (fun p => p <? 1) pl) then (1%Z, c)
  else
    let matches := match c with
                   | Some k => andb (andb (length (fc_pl k) =? length pl) (max_wsave pl <=? fc_max k)) (list_eqb (fc_pl k) pl)
                   | None => false
                   end in
    if matches then (0%Z, c)
    else if alloc then (0%Z, Some {| fc_pl := pl; fc_max := max_wsave pl; fc_plan := map hrffti pl |})
    else (2%Z, None).
End FortranCaches.
(** the vector cache: the extents nlat and ntrunc of the four arrays (:101-163) *)
Definition prepare_vector_cache (nlat ntrunc : nat) (alloc : bool) (c : option (nat * nat)) : Z * option (nat * nat) :=
  if nlat <? 1 then (1%Z, c)
  else
    let matches := match c with Some (a, b) => andb (a =? nlat) (ntrunc <=? b) | None => false end in
    if matches then (0%Z, c) else if alloc then (0%Z, Some (nlat, ntrunc)) else (2%Z, None).
