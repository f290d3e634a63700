(** Model of the packed reduced-Gaussian transforms
    (src/skyborn/spharm/src/reduced_gaussian_scalar.f90, called from
    src/skyborn/spharm/reduced_gaussian.py).

    The grid rows have lengths pl(1..nlat) and are stored one after another; the
    spectrum is the triangular vector (m, n) of the rest of the package.

    Conventions.
    - Arithmetic is exact (R); the code mixes single and double precision.
    - The loop over the [nt] fields is the same computation on disjoint columns;
      one column is modelled.  The thread-parallel loops over rows and over
      wavenumbers are run in sequence (their bodies write disjoint elements,
      which is proved: every output element is written by exactly one of them).
    - [basis(nm, j)] (and its transpose in grdtospec) is a list of rows
      [basis_j], each a list over nm = 1..nmdim.
    - The row transforms hrfftf and hrfftb are external to this file: they are
      the parameters [fwd] and [bwd], one list of values to one list of values
      (RS_Spec states what they compute; the multi-row calls transform each row
      on its own).
    - Work rows ([fft_rows]) and outputs start with arbitrary contents, given
      as arguments, and every access is checked: [None] is an access outside an
      array. *)
From Coq Require Import Reals List Arith Lia ZArith.
From Verif Require Import Base Buffer VH_Model.
Import ListNotations.
Local Open Scope nat_scope.

Definition C : Type := (R * R)%type.

(** reduced_gaussian_scalar.f90:449-452 (repeated in every routine) *)
Definition spectral_offset (m trunc : nat) : nat := m * (2 * trunc - m + 3) / 2.

(** :367-375: offsets(1) = 0, offsets(j+1) = total after row j *)
Fixpoint offsets_from (total : nat) (pl : list nat) : list nat :=
  total :: match pl with [] => [] | p :: r => offsets_from (total + p) r end.
Definition offsets (pl : list nat) : list nat := offsets_from 0 pl.

(** :509-514 *)
Definition pair_count (pl : list nat) : nat := length pl / 2.
Definition half_nlat (pl : list nat) : nat := (length pl + 1) / 2.
Definition symmetric_pl (pl : list nat) : bool :=
  forallb (fun j => match rd pl j, rd pl (length pl - j + 1) with
                    | Some a, Some b => a =? b | _, _ => false end)
          (seq 1 (pair_count pl)).

(** mlimit = min(ntrunc, row_nlon / 2) (:391, :532, ...) *)
Definition mlimit (ntrunc nlon : nat) : nat := Nat.min ntrunc (nlon / 2).

(** ** Input checks: the value left in ierror *)
Local Open Scope Z_scope.

(** the loop over rows: [None] when some pl(j) < 1 (or, with [sin_theta], some
    sin_theta(j) <= 0), otherwise the total; [pos j] is sin_theta(j) > 0 *)
Definition rows_total (pos : list bool) (pl : list Z) : option Z :=
  fold_left (fun t (pq : Z * bool) =>
               match t with
               | None => None
               | Some s => if (fst pq <? 1) || negb (snd pq) then None else Some (s + fst pq)
               end) (combine pl pos) (Some 0).

(** grdtospec :354-380; [cache], [alloc] are the status of the two allocations *)
Definition grdtospec_code (pl : list Z) (ngptot ntrunc nt cache alloc : Z) : Z :=
  let nlat := Z.of_nat (length pl) in
  if nlat <? 3 then 1
  else if (ntrunc <? 0) || (nlat - 1 <? ntrunc) then 2
  else if nt <? 1 then 3
  else match rows_total (map (fun _ => true) pl) pl with
       | None => 3
       | Some total =>
           if negb (total =? ngptot) then 4
           else if negb (cache =? 0) then 5
           else if negb (alloc =? 0) then 6
           else 0
       end.

(** spectogrd :479-522 and spectogrd_pair :768-803 *)
Definition spectogrd_code (pl : list Z) (nmdim ngptot ntrunc nt cache : Z) : Z :=
  let nlat := Z.of_nat (length pl) in
  if nlat <? 3 then 1
  else if (ntrunc <? 0) || (nlat - 1 <? ntrunc) then 2
  else if negb (nmdim =? (ntrunc + 1) * (ntrunc + 2) / 2) then 3
  else if nt <? 1 then 4
  else match rows_total (map (fun _ => true) pl) pl with
       | None => 4
       | Some total =>
           if negb (total =? ngptot) then 5
           else if negb (cache =? 0) then 6
           else 0
       end.

(** getgrad :1086-1125 and getgrad_pair; [rpos] is rsphere > 0 *)
Definition getgrad_code (pl : list Z) (pos : list bool) (rpos : bool) (nmdim ngptot ntrunc nt cache : Z) : Z :=
  let nlat := Z.of_nat (length pl) in
  if nlat <? 3 then 1
  else if (ntrunc <? 0) || (nlat - 1 <? ntrunc) then 2
  else if negb (nmdim =? (ntrunc + 1) * (ntrunc + 2) / 2) then 3
  else if nt <? 1 then 4
  else if negb rpos then 5
  else match rows_total pos pl with
       | None => 5
       | Some total =>
           if negb (total =? ngptot) then 6
           else if negb (cache =? 0) then 7
           else 0
       end.

(** getvrtdivspec :1983-2022; [vcache] is the status of the vector cache *)
Definition getvrtdivspec_code (pl : list Z) (pos : list bool) (rpos : bool) (ngptot ntrunc nt cache vcache : Z) : Z :=
  let nlat := Z.of_nat (length pl) in
  if nlat <? 3 then 1
  else if (ntrunc <? 0) || (nlat - 1 <? ntrunc) then 2
  else if nt <? 1 then 3
  else if negb rpos then 4
  else match rows_total pos pl with
       | None => 4
       | Some total =>
           if negb (total =? ngptot) then 5
           else if negb (cache =? 0) then 6
           else if negb (vcache =? 0) then 7
           else 0
       end.

(** getvecspec_component :2435-2483 *)
Definition getvecspec_code (component : Z) (pl : list Z) (pos : list bool) (rpos : bool) (ngptot ntrunc nt cache alloc : Z) : Z :=
  let nlat := Z.of_nat (length pl) in
  if nlat <? 3 then 1
  else if (ntrunc <? 0) || (nlat - 1 <? ntrunc) then 2
  else if nt <? 1 then 3
  else if negb rpos then 4
  else if (component <? 1) || (2 <? component) then 5
  else match rows_total pos pl with
       | None => 5
       | Some total =>
           if negb (total =? ngptot) then 6
           else if negb (cache =? 0) then 7
           else if negb (alloc =? 0) then 8
           else 0
       end.

Local Open Scope nat_scope.
Local Open Scope R_scope.

(** ** Synthesis *)
Section Synthesis.
Variable bwd : nat -> list R -> list R.          (* hrfftb on one row *)

(** Filling one work row (:564-565, :617-622, :627-629 and the other copies):
    element 1, elements 2m and 2m+1 for m = 1..mlimit (the second one only when
    2m < nlon), zeros from 2*mlimit+2 to nlon.  [cs] holds the pairs to store
    for m = 1..mlimit. *)
Definition fill_row (nlon : nat) (first : R) (cs : list C) (row : list R) : option (list R) :=
  let* row1 := wrx row 1 first in
  let* row2 := foldM (fun r (mc : nat * C) =>
      let* r1 := wrx r (2 * fst mc) (fst (snd mc)) in
      if (2 * fst mc <? nlon)%nat then wrx r1 (2 * fst mc + 1) (snd (snd mc)) else Some r1)
    (combine (seq 1 (length cs)) cs) row1 in
  foldM (fun r i => wrx r i 0) (seq (2 * length cs + 2) (nlon + 1 - (2 * length cs + 2))) row2.

(** hrfftb in place, then the values 0.5 * fft_rows(k, i), i = 1..nlon
    (:631-639) *)
Definition row_values (nlon : nat) (row : list R) : list R :=
  map (fun v => 0.5 * v) (bwd nlon (firstn nlon row)).

(** datagrid(offset + i) = ... for i = 1..row_nlon (:634-639) *)
Definition put (grid : list R) (offset : nat) (vals : list R) : option (list R) :=
  foldM (fun g (iv : nat * R) => wrx g (offset + fst iv) (snd iv)) (combine (seq 1 (length vals)) vals) grid.

(** Inner loop of a single row (:651-658, :692-699, :902-910): nm runs from
    spectral_offset(m)+1, one step per n = m..ntrunc. *)
Definition direct_step (spec : list C) (prow : list R) (st : nat * C) (_ : nat) : option (nat * C) :=
  let nm := S (fst st) in
  let* p := rd prow nm in
  let* s := rd spec nm in
  Some (nm, (fst (snd st) + fst s * p, snd (snd st) + snd s * p)).
Definition direct_sum (ntrunc : nat) (spec : list C) (prow : list R) (m : nat) : option C :=
  let* st := foldM (direct_step spec prow) (seq m (ntrunc + 1 - m)) (spectral_offset m ntrunc, (0, 0)) in
  Some (snd st).

(** Inner loop of a pair of mirror rows (:535-563, :567-614): the state is nm,
    the sums of row j and the sums of row nlat-j+1; [sgn] is the sign with which
    the term enters the second sums. *)
Definition pair_term (spec : list C) (prow : list R) (sgn : R) (st : nat * (C * C)) : option (nat * (C * C)) :=
  let nm := S (fst st) in
  let* p := rd prow nm in
  let* s := rd spec nm in
  let tr := fst s * p in
  let ti := snd s * p in
  let '((ar, ai), (br, bi)) := snd st in
  Some (nm, ((ar + tr, ai + ti), (br + sgn * tr, bi + sgn * ti))).
Definition pair_sum (ntrunc : nat) (spec : list C) (prow : list R) (m : nat) : option (C * C) :=
  let* st := foldM (fun st (_ : nat) =>
      let* st1 := pair_term spec prow 1 st in pair_term spec prow (-1) st1)
    (seq 0 ((ntrunc - m + 1) / 2)) (spectral_offset m ntrunc, ((0, 0), (0, 0))) in
  let* st := if ((ntrunc - m) mod 2 =? 0)%nat then pair_term spec prow 1 st else Some st in
  Some (snd st).

(** The traversal of the rows shared by the synthesis routines (:528-733,
    :815-1029, :1139-1396): mirror pairs and then the middle row when the row
    lengths are symmetric, otherwise every row on its own.  [single j] are the
    values of row j, [paired j] those of rows j and nlat-j+1, and [store] writes
    the values of one row at an offset.  (In the pair branch the values of the
    two rows are written in one loop; here one row after the other.) *)
Definition drive {V St : Type} (store : St -> nat -> V -> option St)
    (single : nat -> option V) (paired : nat -> option (V * V)) (pl : list nat) (out : St) : option St :=
  let nlat := length pl in
  let one := fun g j => let* o := rd (offsets pl) j in let* v := single j in store g o v in
  if symmetric_pl pl then
    let* g := foldM (fun g j =>
        let* o := rd (offsets pl) j in
        let* os := rd (offsets pl) (nlat - j + 1) in
        let* v := paired j in
        let* g1 := store g o (fst v) in
        store g1 os (snd v)) (seq 1 (pair_count pl)) out in
    if (pair_count pl <? half_nlat pl)%nat then one g (half_nlat pl) else Some g
  else foldM one (seq 1 nlat) out.

Variable junk : nat -> list R.                   (* contents of the work row when row j starts *)

(** One work row of spectogrd from its coefficients for m = 0..mlimit *)
Definition scalar_row (nlon : nat) (co : list C) (row : list R) : option (list R) :=
  match co with
  | [] => None
  | c0 :: cs => fill_row nlon (2 * fst c0) (map (fun c => (2 * fst c, 2 * snd c)) cs) row
  end.

(** spectogrd :674-733 (any row) and :642-671 (middle row) *)
Definition spectogrd_single (pl : list nat) (ntrunc : nat) (spec : list C) (basis : list (list R)) (j : nat) : option (list R) :=
  let* nlon := rd pl j in
  let* prow := rd basis j in
  let* co := mapM (direct_sum ntrunc spec prow) (seq 0 (S (mlimit ntrunc nlon))) in
  let* row := scalar_row nlon co (junk j) in
  Some (row_values nlon row).

(** spectogrd :528-641, rows j and nlat-j+1; the two work rows are the two
    halves (k and nt+k) of fft_rows *)
Definition spectogrd_paired (pl : list nat) (ntrunc : nat) (spec : list C) (basis : list (list R)) (j : nat) : option (list R * list R) :=
  let* nlon := rd pl j in
  let* prow := rd basis j in
  let* co := mapM (pair_sum ntrunc spec prow) (seq 0 (S (mlimit ntrunc nlon))) in
  let* row := scalar_row nlon (map fst co) (junk j) in
  let* row_s := scalar_row nlon (map snd co) (junk (length pl - j + 1)) in
  Some (row_values nlon row, row_values nlon row_s).

(** reduced_gaussian_spectogrd :457-739, one column *)
Definition spectogrd (pl : list nat) (ntrunc : nat) (spec : list C) (basis : list (list R)) (out : list R) : option (list R) :=
  drive put (spectogrd_single pl ntrunc spec basis) (spectogrd_paired pl ntrunc spec basis) pl out.

(** *** Two spectra at once: reduced_gaussian_spectogrd_pair :742-1047 *)
Definition put2 (g : list R * list R) (offset : nat) (v : list R * list R) : option (list R * list R) :=
  let* a := put (fst g) offset (fst v) in
  let* b := put (snd g) offset (snd v) in
  Some (a, b).

(** :902-910, :959-968: both sums in one pass over n *)
Definition direct_step2 (speca specb : list C) (prow : list R) (st : nat * (C * C)) (_ : nat) : option (nat * (C * C)) :=
  let nm := S (fst st) in
  let* p := rd prow nm in
  let* a := rd speca nm in
  let* b := rd specb nm in
  let '((ar, ai), (br, bi)) := snd st in
  Some (nm, ((ar + fst a * p, ai + snd a * p), (br + fst b * p, bi + snd b * p))).
Definition direct_sum2 (ntrunc : nat) (speca specb : list C) (prow : list R) (m : nat) : option (C * C) :=
  let* st := foldM (direct_step2 speca specb prow) (seq m (ntrunc + 1 - m)) (spectral_offset m ntrunc, ((0, 0), (0, 0))) in
  Some (snd st).

(** :830-884: the sums of a, b on row j and of a, b on row nlat-j+1 *)
Definition pair_term2 (speca specb : list C) (prow : list R) (sgn : R) (st : nat * ((C * C) * (C * C))) : option (nat * ((C * C) * (C * C))) :=
  let nm := S (fst st) in
  let* p := rd prow nm in
  let* a := rd speca nm in
  let* b := rd specb nm in
  let atr := fst a * p in let ati := snd a * p in
  let btr := fst b * p in let bti := snd b * p in
  let '(((ar, ai), (br, bi)), ((ars, ais), (brs, bis))) := snd st in
  Some (nm, (((ar + atr, ai + ati), (br + btr, bi + bti)),
             ((ars + sgn * atr, ais + sgn * ati), (brs + sgn * btr, bis + sgn * bti)))).
Definition pair_sum2 (ntrunc : nat) (speca specb : list C) (prow : list R) (m : nat) : option ((C * C) * (C * C)) :=
  let* st := foldM (fun st (_ : nat) =>
      let* st1 := pair_term2 speca specb prow 1 st in pair_term2 speca specb prow (-1) st1)
    (seq 0 ((ntrunc - m + 1) / 2)) (spectral_offset m ntrunc, (((0, 0), (0, 0)), ((0, 0), (0, 0)))) in
  let* st := if ((ntrunc - m) mod 2 =? 0)%nat then pair_term2 speca specb prow 1 st else Some st in
  Some (snd st).

(** fft_rows(:, 1:row_nlon) = 0.0 (:889, :953) *)
Definition clear_row (nlon : nat) (row : list R) : option (list R) :=
  foldM (fun r i => wrx r i 0) (seq 1 nlon) row.
(** the rows of :911-925, :970-984: stored over a cleared row, no zero fill at the end *)
Definition cleared_row (nlon : nat) (co : list C) (row : list R) : option (list R) :=
  let* row0 := clear_row nlon row in
  foldM (fun r (mc : nat * C) =>
      if (fst mc =? 0)%nat then wrx r 1 (2 * fst (snd mc))
      else
        let* r1 := wrx r (2 * fst mc) (2 * fst (snd mc)) in
        if (2 * fst mc <? nlon)%nat then wrx r1 (2 * fst mc + 1) (2 * snd (snd mc)) else Some r1)
    (combine (seq 0 (length co)) co) row0.

Variable junk2 : nat -> list R.                  (* the work row of the second spectrum *)
Definition spectogrd_pair_single (pl : list nat) (ntrunc : nat) (speca specb : list C) (basis : list (list R)) (j : nat) : option (list R * list R) :=
  let* nlon := rd pl j in
  let* prow := rd basis j in
  let* co := mapM (direct_sum2 ntrunc speca specb prow) (seq 0 (S (mlimit ntrunc nlon))) in
  let* ra := cleared_row nlon (map fst co) (junk j) in
  let* rb := cleared_row nlon (map snd co) (junk2 j) in
  Some (row_values nlon ra, row_values nlon rb).
Definition spectogrd_pair_paired (pl : list nat) (ntrunc : nat) (speca specb : list C) (basis : list (list R)) (j : nat)
    : option ((list R * list R) * (list R * list R)) :=
  let* nlon := rd pl j in
  let* prow := rd basis j in
  let* co := mapM (pair_sum2 ntrunc speca specb prow) (seq 0 (S (mlimit ntrunc nlon))) in
  let js := (length pl - j + 1)%nat in
  let* ra := scalar_row nlon (map (fun c => fst (fst c)) co) (junk j) in
  let* rb := scalar_row nlon (map (fun c => snd (fst c)) co) (junk2 j) in
  let* ras := scalar_row nlon (map (fun c => fst (snd c)) co) (junk js) in
  let* rbs := scalar_row nlon (map (fun c => snd (snd c)) co) (junk2 js) in
  Some ((row_values nlon ra, row_values nlon rb), (row_values nlon ras, row_values nlon rbs)).
Definition spectogrd_pair (pl : list nat) (ntrunc : nat) (speca specb : list C) (basis : list (list R))
    (out : list R * list R) : option (list R * list R) :=
  drive put2 (spectogrd_pair_single pl ntrunc speca specb basis) (spectogrd_pair_paired pl ntrunc speca specb basis) pl out.

(** *** The gradient: reduced_gaussian_getgrad :1050-1412 *)

(** :1258-1271, :1318-1331: sums of spec * basis and of spec * dbasis *)
Definition grad_upd (s : C) (p d : R) (x : C * C) : C * C :=
  let '((pr, pi), (dr, di)) := x in
  ((pr + fst s * p, pi + snd s * p), (dr + fst s * d, di + snd s * d)).
Definition grad_step (spec : list C) (prow drow : list R) (st : nat * (C * C)) (_ : nat) : option (nat * (C * C)) :=
  let nm := S (fst st) in
  let* s := rd spec nm in
  let* p := rd prow nm in
  let* d := rd drow nm in
  Some (nm, grad_upd s p d (snd st)).
Definition grad_sum (ntrunc : nat) (spec : list C) (prow drow : list R) (m : nat) : option (C * C) :=
  let* st := foldM (grad_step spec prow drow) (seq m (ntrunc + 1 - m)) (spectral_offset m ntrunc, ((0, 0), (0, 0))) in
  Some (snd st).
(** :1150-1213: the same with the mirror sums; basis terms enter them with
    [sgn], dbasis terms with [-sgn] *)
Definition grad_upd2 (sgn : R) (s : C) (p d : R) (x : (C * C) * (C * C)) : (C * C) * (C * C) :=
  let tpr := fst s * p in let tpi := snd s * p in
  let tdr := fst s * d in let tdi := snd s * d in
  let '(((pr, pi), (dr, di)), ((prs, pis), (drs, dis))) := x in
  (((pr + tpr, pi + tpi), (dr + tdr, di + tdi)),
   ((prs + sgn * tpr, pis + sgn * tpi), (drs - sgn * tdr, dis - sgn * tdi))).
Definition grad_term2 (spec : list C) (prow drow : list R) (sgn : R) (st : nat * ((C * C) * (C * C))) : option (nat * ((C * C) * (C * C))) :=
  let nm := S (fst st) in
  let* s := rd spec nm in
  let* p := rd prow nm in
  let* d := rd drow nm in
  Some (nm, grad_upd2 sgn s p d (snd st)).
Definition grad_pair_sum (ntrunc : nat) (spec : list C) (prow drow : list R) (m : nat) : option ((C * C) * (C * C)) :=
  let* st := foldM (fun st (_ : nat) =>
      let* st1 := grad_term2 spec prow drow 1 st in grad_term2 spec prow drow (-1) st1)
    (seq 0 ((ntrunc - m + 1) / 2)) (spectral_offset m ntrunc, (((0, 0), (0, 0)), ((0, 0), (0, 0)))) in
  let* st := if ((ntrunc - m) mod 2 =? 0)%nat then grad_term2 spec prow drow 1 st else Some st in
  Some (snd st).

(** :1214-1229 and :1236-1248: from the sums of m = 1.. to the pairs stored in
    the u row and the v row; [inv_r] = 1/rsphere, [s] = sin_theta(j) *)
Definition u_entry (inv_r s : R) (m : nat) (c : C * C) : C :=
  let m_grad_scale := INR m * (2 * inv_r / s) in
  let u_cos := - m_grad_scale * snd (fst c) in
  let u_sin := - m_grad_scale * fst (fst c) in
  (u_cos, - u_sin).
Definition v_entry (inv_r : R) (c : C * C) : C :=
  let dp_grad_scale := 2 * inv_r in
  let v_cos := - dp_grad_scale * fst (snd c) in
  let v_sin := dp_grad_scale * snd (snd c) in
  (v_cos, - v_sin).
Definition grad_rows (nlon : nat) (inv_r s : R) (co : list (C * C)) (ru rv : list R) : option (list R * list R) :=
  match co with
  | [] => None
  | c0 :: cs =>
      let v_cos0 := - fst (snd c0) * inv_r in
      let* u := fill_row nlon 0 (map (fun mc => u_entry inv_r s (fst mc) (snd mc)) (combine (seq 1 (length cs)) cs)) ru in
      let* v := fill_row nlon (2 * v_cos0) (map (v_entry inv_r) cs) rv in
      Some (row_values nlon u, row_values nlon v)
  end.

Definition getgrad_single (pl : list nat) (ntrunc : nat) (spec : list C) (basis dbasis : list (list R)) (sin_theta : list R) (rsphere : R)
    (j : nat) : option (list R * list R) :=
  let* nlon := rd pl j in
  let* prow := rd basis j in
  let* drow := rd dbasis j in
  let* s := rd sin_theta j in
  let* co := mapM (grad_sum ntrunc spec prow drow) (seq 0 (S (mlimit ntrunc nlon))) in
  grad_rows nlon (1 / rsphere) s co (junk j) (junk2 j).
(** in the pair branch sin_theta(j) serves both rows (:1146) *)
Definition getgrad_paired (pl : list nat) (ntrunc : nat) (spec : list C) (basis dbasis : list (list R)) (sin_theta : list R) (rsphere : R)
    (j : nat) : option ((list R * list R) * (list R * list R)) :=
  let* nlon := rd pl j in
  let* prow := rd basis j in
  let* drow := rd dbasis j in
  let* s := rd sin_theta j in
  let* co := mapM (grad_pair_sum ntrunc spec prow drow) (seq 0 (S (mlimit ntrunc nlon))) in
  let js := (length pl - j + 1)%nat in
  let* a := grad_rows nlon (1 / rsphere) s (map fst co) (junk j) (junk2 j) in
  let* b := grad_rows nlon (1 / rsphere) s (map snd co) (junk js) (junk2 js) in
  Some (a, b).
Definition getgrad (pl : list nat) (ntrunc : nat) (spec : list C) (basis dbasis : list (list R)) (sin_theta : list R) (rsphere : R)
    (out : list R * list R) : option (list R * list R) :=
  drive put2 (getgrad_single pl ntrunc spec basis dbasis sin_theta rsphere)
             (getgrad_paired pl ntrunc spec basis dbasis sin_theta rsphere) pl out.

(** *** Two gradients at once: reduced_gaussian_getgrad_pair :1415-1937.  The
    sums of the two spectra run in the same loops (:1536-1664, :1742-1767,
    :1842-1867); the work rows and the writes are those of getgrad, once for
    each spectrum (with the mirror rows in a second transform). *)
Definition grad_step4 (speca specb : list C) (prow drow : list R) (st : nat * ((C * C) * (C * C))) (_ : nat) : option (nat * ((C * C) * (C * C))) :=
  let nm := S (fst st) in
  let* a := rd speca nm in
  let* b := rd specb nm in
  let* p := rd prow nm in
  let* d := rd drow nm in
  Some (nm, (grad_upd a p d (fst (snd st)), grad_upd b p d (snd (snd st)))).
Definition grad_sum4 (ntrunc : nat) (speca specb : list C) (prow drow : list R) (m : nat) : option ((C * C) * (C * C)) :=
  let* st := foldM (grad_step4 speca specb prow drow) (seq m (ntrunc + 1 - m))
      (spectral_offset m ntrunc, (((0, 0), (0, 0)), ((0, 0), (0, 0)))) in
  Some (snd st).
Definition grad_term4 (speca specb : list C) (prow drow : list R) (sgn : R)
    (st : nat * (((C * C) * (C * C)) * ((C * C) * (C * C)))) : option (nat * (((C * C) * (C * C)) * ((C * C) * (C * C)))) :=
  let nm := S (fst st) in
  let* a := rd speca nm in
  let* b := rd specb nm in
  let* p := rd prow nm in
  let* d := rd drow nm in
  Some (nm, (grad_upd2 sgn a p d (fst (snd st)), grad_upd2 sgn b p d (snd (snd st)))).
Definition grad_pair_sum4 (ntrunc : nat) (speca specb : list C) (prow drow : list R) (m : nat)
    : option (((C * C) * (C * C)) * ((C * C) * (C * C))) :=
  let zero := (((0, 0), (0, 0)), ((0, 0), (0, 0))) in
  let* st := foldM (fun st (_ : nat) =>
      let* st1 := grad_term4 speca specb prow drow 1 st in grad_term4 speca specb prow drow (-1) st1)
    (seq 0 ((ntrunc - m + 1) / 2)) (spectral_offset m ntrunc, (zero, zero)) in
  let* st := if ((ntrunc - m) mod 2 =? 0)%nat then grad_term4 speca specb prow drow 1 st else Some st in
  Some (snd st).

Variables junk3 junk4 : nat -> list R.           (* the work rows of the second spectrum *)
Definition grid4 : Type := ((list R * list R) * (list R * list R))%type.
Definition put4 (g : grid4) (offset : nat) (v : grid4) : option grid4 :=
  let* a := put2 (fst g) offset (fst v) in
  let* b := put2 (snd g) offset (snd v) in
  Some (a, b).
Definition getgrad_pair_single (pl : list nat) (ntrunc : nat) (speca specb : list C) (basis dbasis : list (list R)) (sin_theta : list R) (rsphere : R)
    (j : nat) : option grid4 :=
  let* nlon := rd pl j in
  let* prow := rd basis j in
  let* drow := rd dbasis j in
  let* s := rd sin_theta j in
  let* co := mapM (grad_sum4 ntrunc speca specb prow drow) (seq 0 (S (mlimit ntrunc nlon))) in
  let* a := grad_rows nlon (1 / rsphere) s (map fst co) (junk j) (junk2 j) in
  let* b := grad_rows nlon (1 / rsphere) s (map snd co) (junk3 j) (junk4 j) in
  Some (a, b).
Definition getgrad_pair_paired (pl : list nat) (ntrunc : nat) (speca specb : list C) (basis dbasis : list (list R)) (sin_theta : list R) (rsphere : R)
    (j : nat) : option (grid4 * grid4) :=
  let* nlon := rd pl j in
  let* prow := rd basis j in
  let* drow := rd dbasis j in
  let* s := rd sin_theta j in
  let* co := mapM (grad_pair_sum4 ntrunc speca specb prow drow) (seq 0 (S (mlimit ntrunc nlon))) in
  let js := (length pl - j + 1)%nat in
  let* a := grad_rows nlon (1 / rsphere) s (map (fun c => fst (fst c)) co) (junk j) (junk2 j) in
  let* b := grad_rows nlon (1 / rsphere) s (map (fun c => fst (snd c)) co) (junk3 j) (junk4 j) in
  let* a_s := grad_rows nlon (1 / rsphere) s (map (fun c => snd (fst c)) co) (junk js) (junk2 js) in
  let* b_s := grad_rows nlon (1 / rsphere) s (map (fun c => snd (snd c)) co) (junk3 js) (junk4 js) in
  Some ((a, b), (a_s, b_s)).
Definition getgrad_pair (pl : list nat) (ntrunc : nat) (speca specb : list C) (basis dbasis : list (list R)) (sin_theta : list R) (rsphere : R)
    (out : grid4) : option grid4 :=
  drive put4 (getgrad_pair_single pl ntrunc speca specb basis dbasis sin_theta rsphere)
             (getgrad_pair_paired pl ntrunc speca specb basis dbasis sin_theta rsphere) pl out.
End Synthesis.

(** ** Analysis *)
Section Analysis.
Variable fwd : nat -> list R -> list R.          (* hrfftf on one row *)

(** :393-396: fft_rows(1, i) = datagrid(offset + i), then hrfftf *)
Definition row_fft (grid : list R) (offset nlon : nat) : option (list R) :=
  let* xs := mapM (fun i => rd grid (offset + i)) (seq 1 nlon) in
  Some (fwd nlon xs).

(** :401-411 (sg = 1) and :2055-2068 (sg = -1): the cosine and sine
    coefficients of m = 1..mlimit *)
Definition row_cos (fft : list R) (nlon m : nat) : option R :=
  let* c := rd fft (2 * m) in Some (c * (1 / INR nlon)).
Definition row_sin (sg : R) (fft : list R) (nlon m : nat) : option R :=
  if (2 * m <? nlon)%nat then let* s := rd fft (2 * m + 1) in Some (sg * s * (1 / INR nlon)) else Some 0.

(** New entries over the beginning of an array row that held [old] (:401-411,
    :2053-2068): what is not overwritten keeps its old contents. *)
Definition overlay (new old : list R) : list R := new ++ skipn (length new) old.

(** *** Scalar analysis: reduced_gaussian_grdtospec :332-454 *)
Definition scalar_coeffs (pl : list nat) (ntrunc : nat) (grid : list R) (old_cos old_sin : list (list R)) (j : nat) : option (list R * list R) :=
  let* nlon := rd pl j in
  let* o := rd (offsets pl) j in
  let* fft := row_fft grid o nlon in
  let* f1 := rd fft 1 in
  let* cs := mapM (row_cos fft nlon) (seq 1 (mlimit ntrunc nlon)) in
  let* ss := mapM (row_sin 1 fft nlon) (seq 1 (mlimit ntrunc nlon)) in
  let* oc := rd old_cos j in
  let* os := rd old_sin j in
  Some (overlay (f1 * (1 / INR nlon) :: cs) oc, overlay (0 :: ss) os).

(** :424-433: one row's contribution to the coefficients of wavenumber m *)
Definition accumulate (ntrunc : nat) (prow : list R) (w cr ci : R) (m : nat) (spec : list C) : option (list C) :=
  let* st := foldM (fun (st : nat * list C) (_ : nat) =>
      let nm := S (fst st) in
      let* p := rd prow nm in
      let* c := rd (snd st) nm in
      let wb := w * p in
      let* s := wrx (snd st) nm (fst c + cr * wb, snd c + ci * wb) in
      Some (nm, s)) (seq m (ntrunc + 1 - m)) (spectral_offset m ntrunc, spec) in
  Some (snd st).

Definition grdtospec (pl : list nat) (ntrunc : nat) (grid weights : list R) (basis : list (list R)) (old_cos old_sin : list (list R)) : option (list C) :=
  let nlat := length pl in
  let* co := mapM (scalar_coeffs pl ntrunc grid old_cos old_sin) (seq 1 nlat) in
  let zero := repeat (0, 0) ((ntrunc + 1) * (ntrunc + 2) / 2) in
  foldM (fun spec m =>
      foldM (fun spec j =>
          let* nlon := rd pl j in
          if (2 * m <=? nlon)%nat then
            let* c := rd co j in
            let* cr := rd (fst c) (S m) in
            let* ci := rd (snd c) (S m) in
            let* w := rd weights j in
            let* prow := rd basis j in
            accumulate ntrunc prow w cr ci m spec
          else Some spec) (seq 1 nlat) spec)
    (seq 0 (S ntrunc)) zero.

(** *** Vector analysis: reduced_gaussian_getvrtdivspec :1940-2344 *)

(** The four coefficient arrays u_cos, u_sin, v_cos, v_sin as rows over m *)
Record waves := { w_uc : list (list R); w_us : list (list R); w_vc : list (list R); w_vs : list (list R) }.
Record wave := { uc : R; us : R; vc : R; vs : R }.

(** the sine arrays are not written for m = 0 (:2053-2054) *)
Definition overlay_sin (new old : list R) : list R :=
  match old with [] => [] | o0 :: rest => o0 :: overlay new rest end.
Definition vector_row (pl : list nat) (ntrunc : nat) (grid : list R) (oc os : list R) (j : nat) : option (list R * list R) :=
  let* nlon := rd pl j in
  let* o := rd (offsets pl) j in
  let* fft := row_fft grid o nlon in
  let* f1 := rd fft 1 in
  let* cs := mapM (row_cos fft nlon) (seq 1 (mlimit ntrunc nlon)) in
  let* ss := mapM (row_sin (-1) fft nlon) (seq 1 (mlimit ntrunc nlon)) in
  Some (overlay (f1 * (1 / INR nlon) :: cs) oc, overlay_sin ss os).
(** :2037-2073; [old] is what the arrays held before: the module cache of
    getvrtdivspec (:101-163), freshly allocated memory in getvecspec_component *)
Definition vector_coeffs (pl : list nat) (ntrunc : nat) (ugrid vgrid : list R) (old : waves) : option waves :=
  let* rows := mapM (fun j =>
      let* ouc := rd (w_uc old) j in let* ous := rd (w_us old) j in
      let* ovc := rd (w_vc old) j in let* ovs := rd (w_vs old) j in
      let* u := vector_row pl ntrunc ugrid ouc ous j in
      let* v := vector_row pl ntrunc vgrid ovc ovs j in
      Some (u, v)) (seq 1 (length pl)) in
  Some {| w_uc := map (fun r => fst (fst r)) rows; w_us := map (fun r => snd (fst r)) rows;
          w_vc := map (fun r => fst (snd r)) rows; w_vs := map (fun r => snd (snd r)) rows |}.
Definition at_row (tb : list (list R)) (j m : nat) : option R := let* r := rd tb j in rd r (S m).
Definition wave_at (ws : waves) (j m : nat) : option wave :=
  let* a := at_row (w_uc ws) j m in let* b := at_row (w_us ws) j m in
  let* c := at_row (w_vc ws) j m in let* d := at_row (w_vs ws) j m in
  Some {| uc := a; us := b; vc := c; vs := d |}.
Definition mean_at (ws : waves) (j : nat) : option wave :=
  let* a := at_row (w_uc ws) j 0 in let* c := at_row (w_vc ws) j 0 in
  Some {| uc := a; us := 0; vc := c; vs := 0 |}.

(** :2029-2035: the first pair of rows that resolves wavenumber m, and whether
    the middle row exists and resolves it *)
Fixpoint leading_short (m : nat) (pl : list nat) : nat :=
  match pl with [] => 0%nat | p :: r => if (p <? 2 * m)%nat then S (leading_short m r) else 0%nat end.
Definition first_pair_for_m (pl : list nat) (m : nat) : nat := S (leading_short m (firstn (pair_count pl) pl)).
Definition center_active (pl : list nat) (m : nat) : option bool :=
  if (pair_count pl <? half_nlat pl)%nat then
    let* p := rd pl (half_nlat pl) in Some (2 * m <=? p)%nat
  else Some false.

(** The accumulators div_real, div_imag, vrt_real, vrt_imag (0:ntrunc) *)
Record quad := { d_re : R; d_im : R; z_re : R; z_im : R }.
Definition qadd (a b : quad) : quad :=
  {| d_re := d_re a + d_re b; d_im := d_im a + d_im b; z_re := z_re a + z_re b; z_im := z_im a + z_im b |}.
Definition qzero : quad := {| d_re := 0; d_im := 0; z_re := 0; z_im := 0 |}.
Definition acc := nat -> quad.
Definition add_at (a : acc) (n : nat) (v : quad) : acc := fun k => if (k =? n)%nat then qadd (a k) v else a k.

(** contribution of one row to degree n, m >= 1 (:2218-2229, :2297-2308) *)
Definition wave_terms (p_scale dp_scale p dp : R) (w : wave) : quad :=
  let p_weighted := p_scale * p in
  let dp_weighted := dp_scale * dp in
  {| d_re := p_weighted * us w + dp_weighted * vc w;
     d_im := p_weighted * uc w - dp_weighted * vs w;
     z_re := - dp_weighted * uc w + p_weighted * vs w;
     z_im := dp_weighted * us w + p_weighted * vc w |}.
(** contribution of rows j and nlat-j+1 to degree n, m >= 1: [even] for the
    first, third, ... degree (:2163-2177, :2195-2208), otherwise :2179-2193 *)
Definition pair_terms (even : bool) (p_scale dp_scale p dp : R) (w s : wave) : quad :=
  let p_weighted := p_scale * p in
  let dp_weighted := dp_scale * dp in
  if even then
    {| d_re := p_weighted * (us w + us s) + dp_weighted * (vc w - vc s);
       d_im := p_weighted * (uc w + uc s) - dp_weighted * (vs w - vs s);
       z_re := - dp_weighted * (uc w - uc s) + p_weighted * (vs w + vs s);
       z_im := dp_weighted * (us w - us s) + p_weighted * (vc w + vc s) |}
  else
    {| d_re := p_weighted * (us w - us s) + dp_weighted * (vc w + vc s);
       d_im := p_weighted * (uc w - uc s) - dp_weighted * (vs w + vs s);
       z_re := - dp_weighted * (uc w + uc s) + p_weighted * (vs w - vs s);
       z_im := dp_weighted * (us w + us s) + p_weighted * (vc w - vc s) |}.
(** m = 0: :2128-2133 (middle row), :2274-2279 and the pairs :2093-2118 *)
Definition mean_terms (dp_scale dp : R) (w : wave) : quad :=
  let dp_weighted := dp_scale * dp in
  {| d_re := dp_weighted * vc w; d_im := 0; z_re := - dp_weighted * uc w; z_im := 0 |}.
Definition mean_pair_terms (even : bool) (dp_scale dp : R) (w s : wave) : quad :=
  let dp_weighted := dp_scale * dp in
  if even then {| d_re := dp_weighted * (vc w - vc s); d_im := 0; z_re := - dp_weighted * (uc w - uc s); z_im := 0 |}
  else {| d_re := dp_weighted * (vc w + vc s); d_im := 0; z_re := - dp_weighted * (uc w + uc s); z_im := 0 |}.

(** The degrees visited by the pair loop [do n = m, ntrunc-1, 2] (n, then n+1)
    and the final [if (mod(ntrunc-m, 2) == 0)], with the branch taken *)
Definition pair_visits (ntrunc m : nat) : list (nat * bool) :=
  flat_map (fun i => [(m + 2 * i, true); (m + 2 * i + 1, false)]%nat) (seq 0 ((ntrunc - m + 1) / 2))
  ++ (if ((ntrunc - m) mod 2 =? 0)%nat then [(ntrunc, true)] else []).
(** getvecspec_component: [do n = m, ntrunc, 2] and then [do n = m+1, ntrunc, 2]
    (:2555-2571, :2627-2661) *)
Definition split_visits (ntrunc m : nat) : list (nat * bool) :=
  map (fun i => (m + 2 * i, true)%nat) (seq 0 ((ntrunc - m) / 2 + 1)) ++
  map (fun i => (m + 1 + 2 * i, false)%nat) (seq 0 ((ntrunc - m + 1) / 2)).
(** single rows: [do n = m, ntrunc] *)
Definition row_visits (ntrunc m : nat) : list (nat * bool) := map (fun n => (n, true)) (seq m (ntrunc + 1 - m)).

(** one row (or pair) over its degrees: [term p dp even] is the contribution *)
Definition over_degrees (ntrunc m : nat) (prow drow : list R) (term : bool -> R -> R -> quad)
    (visits : list (nat * bool)) (a : acc) : option acc :=
  foldM (fun a (v : nat * bool) =>
      let n := fst v in
      let nm := (spectral_offset m ntrunc + n - m + 1)%nat in
      let* p := rd prow nm in
      let* d := rd drow nm in
      if (n <=? ntrunc)%nat then Some (add_at a n (term (snd v) p d)) else None) visits a.

(** :2027-2028 *)
Definition weight_inv_r (weights : list R) (rsphere : R) (j : nat) : option R :=
  let* w := rd weights j in Some (w * (1 / rsphere)).
Definition weight_inv_r_sin (weights sin_theta : list R) (rsphere : R) (j : nat) : option R :=
  let* w := weight_inv_r weights rsphere j in let* s := rd sin_theta j in Some (w / s).

(** a single row's contribution (:2120-2135, :2210-2231, :2267-2312) *)
Definition single_contribution (ntrunc : nat) (weights : list R) (basis dbasis : list (list R)) (sin_theta : list R) (rsphere : R)
    (ws : waves) (m j : nat) (a : acc) : option acc :=
  let* prow := rd basis j in
  let* drow := rd dbasis j in
  let* dp_scale := weight_inv_r weights rsphere j in
  if (m =? 0)%nat then
    let* w := mean_at ws j in
    over_degrees ntrunc m prow drow (fun _ _ dp => mean_terms dp_scale dp w) (row_visits ntrunc m) a
  else
    let* w := wave_at ws j m in
    let* ps := weight_inv_r_sin weights sin_theta rsphere j in
    over_degrees ntrunc m prow drow (fun _ p dp => wave_terms (INR m * ps) dp_scale p dp w) (row_visits ntrunc m) a.
(** a pair's contribution (:2085-2118, :2138-2209); [visits] is the loop shape *)
Definition pair_contribution (visits : nat -> nat -> list (nat * bool)) (nlat ntrunc : nat) (weights : list R) (basis dbasis : list (list R))
    (sin_theta : list R) (rsphere : R) (ws : waves) (m j : nat) (a : acc) : option acc :=
  let js := (nlat - j + 1)%nat in
  let* prow := rd basis j in
  let* drow := rd dbasis j in
  let* dp_scale := weight_inv_r weights rsphere j in
  if (m =? 0)%nat then
    let* w := mean_at ws j in
    let* s := mean_at ws js in
    over_degrees ntrunc m prow drow (fun even _ dp => mean_pair_terms even dp_scale dp w s) (visits ntrunc m) a
  else
    let* w := wave_at ws j m in
    let* s := wave_at ws js m in
    let* ps := weight_inv_r_sin weights sin_theta rsphere j in
    over_degrees ntrunc m prow drow (fun even p dp => pair_terms even (INR m * ps) dp_scale p dp w s) (visits ntrunc m) a.

(** The accumulators of wavenumber m (:2078-2231 when pl is symmetric,
    :2260-2312 otherwise).  For m = 0 the pair loop starts at row 1 and the
    middle row is always used. *)
Definition accumulators (visits : nat -> nat -> list (nat * bool)) (pl : list nat) (ntrunc : nat) (weights : list R)
    (basis dbasis : list (list R)) (sin_theta : list R) (rsphere : R) (ws : waves) (m : nat) : option acc :=
  let nlat := length pl in
  let one := single_contribution ntrunc weights basis dbasis sin_theta rsphere ws m in
  let zero : acc := fun _ => qzero in
  if symmetric_pl pl then
    let first_j := if (m =? 0)%nat then 1%nat else first_pair_for_m pl m in
    let* a := foldM (fun a j => pair_contribution visits nlat ntrunc weights basis dbasis sin_theta rsphere ws m j a)
      (seq first_j (pair_count pl + 1 - first_j)) zero in
    if (m =? 0)%nat then
      if (pair_count pl <? half_nlat pl)%nat then one (half_nlat pl) a else Some a
    else
      let* act := center_active pl m in
      if act then one (half_nlat pl) a else Some a
  else
    foldM (fun a j =>
        if (m =? 0)%nat then one j a
        else
          let* nlon := rd pl j in
          if (2 * m <=? nlon)%nat then one j a else Some a) (seq 1 nlat) zero.

(** :2233-2240, :2314-2321: storing the accumulators of one wavenumber *)
Definition store_acc (ntrunc m : nat) (pick : quad -> C) (a : acc) (spec : list C) : option (list C) :=
  let* st := foldM (fun (st : nat * list C) n =>
      let nm := S (fst st) in
      let* s := wrx (snd st) nm (pick (a n)) in
      Some (nm, s)) (seq m (ntrunc + 1 - m)) (spectral_offset m ntrunc, spec) in
  Some (snd st).

Definition pick_div (q : quad) : C := (d_re q, d_im q).
Definition pick_vrt (q : quad) : C := (z_re q, z_im q).

Definition getvrtdivspec (pl : list nat) (ntrunc : nat) (ugrid vgrid weights : list R) (basis dbasis : list (list R))
    (sin_theta : list R) (rsphere : R) (old : waves) (out : list C * list C) : option (list C * list C) :=
  let* ws := vector_coeffs pl ntrunc ugrid vgrid old in
  foldM (fun out m =>
      let* a := accumulators pair_visits pl ntrunc weights basis dbasis sin_theta rsphere ws m in
      let* z := store_acc ntrunc m pick_vrt a (fst out) in
      let* d := store_acc ntrunc m pick_div a (snd out) in
      Some (z, d)) (seq 0 (S ntrunc)) out.

(** reduced_gaussian_getvecspec_component :2397-2830: the same sums with only
    the vorticity (component 1) or the divergence accumulated; its loops over
    the degrees have the shape [split_visits].  The two parts of the
    accumulators are independent, so the model carries both and stores one. *)
Definition getvecspec_component (component : nat) (pl : list nat) (ntrunc : nat) (ugrid vgrid weights : list R) (basis dbasis : list (list R))
    (sin_theta : list R) (rsphere : R) (old : waves) (out : list C) : option (list C) :=
  let* ws := vector_coeffs pl ntrunc ugrid vgrid old in
  foldM (fun out m =>
      let* a := accumulators split_visits pl ntrunc weights basis dbasis sin_theta rsphere ws m in
      store_acc ntrunc m (if (component =? 1)%nat then pick_vrt else pick_div) a out) (seq 0 (S ntrunc)) out.
(** :2347-2370, :2372-2395 *)
Definition getvrtspec := getvecspec_component 1.
Definition getdivspec := getvecspec_component 2.
End Analysis.

(** ** The derivative table: reduced_gaussian_legendre_derivative_from_basis
    :236-293, entry (j, nm) for order m and degree n >= max(1, m); the table is
    zero elsewhere, i.e. at (0, 0).  [prev] is basis(j, prev_nm), read only when
    n > m. *)
Definition derivative_entry (m n : nat) (theta p prev : R) : R :=
  if (n =? 0)%nat then 0
  else
    let coeff := sqrt (INR ((2 * n + 1) * (n * n - m * m)) / INR (2 * n - 1)) in
    let deriv := INR n * cos theta * p in
    (if (m <? n)%nat then deriv - coeff * prev else deriv) / sin theta.
