(** Model of src/skyborn/interp/fortran/vinth2p_kernels.f90 (hybrid levels to
    pressure levels, sigma levels to hybrid levels, layer thickness, hybrid
    pressure and geopotential height) and of the eager drivers around it in
    src/skyborn/interp/interpolation.py.

    Numbers are exact rationals; a field value is [option Qc], [None] being NaN
    (every formula propagates it).  Coefficients, target levels, p0, t_bot and
    phi_sfc are finite.  [log] is an argument [lg].  The outer [option]: [None]
    is a read or write out of bounds, or a search that does not end.

    Simplifications: xarray bookkeeping (dimension names, coordinates, dtype
    restoration) is left out; an array with dimensions before and after the level
    axis is given by the sizes (nouter, nlev, ninner) and its C-order list of
    values; machine integers do not wrap, except where [wrap32] is written. *)
From Verif Require Import Base Buffer Loops I2P_Model.
Local Open Scope nat_scope.

Definition bind {A B : Type} (x : option A) (f : A -> option B) : option B :=
  match x with Some a => f a | None => None end.
Notation "'let*' x ':=' e 'in' k" := (bind e (fun x => k))
  (at level 200, x name, e at level 200, k at level 200).
(** a write that fails outside the buffer *)
Definition wrx {A : Type} (a : list A) (i : nat) (v : A) : option (list A) :=
  if (1 <=? i) && (i <=? length a) then Some (wr a i v) else None.
Fixpoint foldM {A S : Type} (f : S -> A -> option S) (l : list A) (s : S) : option S :=
  match l with [] => Some s | x :: r => let* s' := f s x in foldM f r s' end.
Fixpoint mapM {A B : Type} (f : A -> option B) (l : list A) : option (list B) :=
  match l with [] => Some [] | x :: r => let* y := f x in let* ys := mapM f r in Some (y :: ys) end.

Definition dec (n d : Z) : Qc := (qz n / qz d)%Qc.
Definition qcmin (x y : Qc) : Qc := if Qcleb x y then x else y.
Definition qcabs (x : Qc) : Qc := if Qcleb 0%Qc x then x else (- x)%Qc.

(** vinth2p_kernels.f90:20-22 (module constants) *)
Definition rd_gas : Qc := dec 28704 100.
Definition ginv : Qc := (1 / dec 980616 100000)%Qc.
Definition alpha : Qc := (dec 65 10000 * rd_gas * ginv)%Qc.

(** vinth2p_kernels.f90:52-58 *)
Definition to_mb (x : Qc) : Qc := (x * dec 1 100)%Qc.
Definition convert_levels_to_mb (plevo : list Qc) : list Qc := map to_mb plevo.

(** vinth2p_kernels.f90:63-69 *)
Definition build_input_pressures (hbcofa hbcofb : list Qc) (p0_mb psfc_mb : Qc) : list Qc :=
  map (fun '(a, b) => (a * p0_mb + b * psfc_mb)%Qc) (combine hbcofa hbcofb).

(** vinth2p_kernels.f90:81-84: delta(k) = cof(k) - cof(k+1) *)
Fixpoint deltas (cof : list Qc) : list Qc :=
  match cof with
  | x :: ((y :: _) as r) => (x - y)%Qc :: deltas r
  | _ => []
  end.
(** vinth2p_kernels.f90:74-91, one column of [dph] *)
Definition delta_pressure_column (hbcofa hbcofb : list Qc) (p0 ps : Qc) : list Qc :=
  map (fun '(da, db) => qcabs (p0 * da + db * ps)%Qc) (combine (deltas hbcofa) (deltas hbcofb)).
(** vinth2p_kernels.f90:74-91, all columns *)
Definition compute_delta_pressure_columns (psfc hbcofa hbcofb : list Qc) (p0 : Qc) : list (list Qc) :=
  map (delta_pressure_column hbcofa hbcofb p0) psfc.

(** vinth2p_kernels.f90:95-106, all columns *)
Definition compute_pressure_at_hybrid_levels_columns (psfc hbcofa hbcofb : list Qc) (p0 : Qc) : list (list Qc) :=
  map (fun ps => map (fun '(a, b) => (p0 * a + b * ps)%Qc) (combine hbcofa hbcofb)) psfc.

(** vinth2p_kernels.f90:217-228 *)
Fixpoint offsets_from (idx ninner n : nat) : list nat :=
  match n with O => [] | S m => idx :: offsets_from (idx + ninner) ninner m end.
Definition build_flat_level_offsets (base_in inner ninner n : nat) : list nat :=
  offsets_from (base_in + inner) ninner n.

(** vinth2p_kernels.f90:258-263 *)
Definition levels_ascending (plevi : list Qc) : option bool :=
  let* f := rd plevi 1 in let* l := rd plevi (length plevi) in Some (Qcleb f l).
(** vinth2p_kernels.f90:268-276 *)
Definition lowest_model_level_index (plevi : list Qc) : option nat :=
  let* a := levels_ascending plevi in Some (if a then length plevi else 1).
(** vinth2p_kernels.f90:280-288 *)
Definition lowest_bracketing_level_index (plevi : list Qc) : option nat :=
  let* a := levels_ascending plevi in Some (if a then length plevi - 1 else 1).

(** vinth2p_kernels.f90:351-368 *)
Fixpoint locate_loop (fuel : nat) (t : Qc) (plevi : list Qc) (is_ascending : bool) (low high : nat) : option nat :=
  match fuel with
  | O => None
  | S f =>
      if low <? high then
        let mid := low + (high - low) / 2 in
        let* pm := rd plevi (mid + 1) in
        if (if is_ascending then Qcleb t pm else Qcleb pm t)
        then locate_loop f t plevi is_ascending low mid
        else locate_loop f t plevi is_ascending (mid + 1) high
      else Some low
  end.
(** vinth2p_kernels.f90:312-371 *)
Definition locate_bracketing_level_ordered (t : Qc) (plevi : list Qc) (is_ascending : bool) : option nat :=
  let nlev := length plevi in
  if nlev <? 2 then Some 0
  else
    let* first := rd plevi 1 in
    let* before_last := rd plevi (nlev - 1) in
    if is_ascending then
      if Qcleb t first then Some 1
      else if Qcleb before_last t then Some (nlev - 1)
      else locate_loop nlev t plevi is_ascending 1 (nlev - 1)
    else
      if Qcleb first t then Some 1
      else if Qcleb t before_last then Some (nlev - 1)
      else locate_loop nlev t plevi is_ascending 1 (nlev - 1).

(** [lower + (upper - lower) * num / den], NaN in either value giving NaN *)
Definition lerp (lower upper : option Qc) (num den : Qc) : option Qc :=
  match lower, upper with
  | Some a, Some b => Some (a + (b - a) * num / den)%Qc
  | _, _ => None
  end.

(** vinth2p_kernels.f90:525-533: the targets never go up *)
Fixpoint never_up (plevo : list Qc) : bool :=
  match plevo with
  | x :: ((y :: _) as r) => negb (Qcltb x y) && never_up r
  | _ => true
  end.

(** vinth2p_kernels.f90:557-560 (same at 596-599, 635-638): the downward walk.  Fortran
    may evaluate [plevi(kp_hint)] even when [kp_hint > 1] is false; the value is
    not used then. *)
Fixpoint walk_down (plevi : list Qc) (t : Qc) (hint : nat) : option nat :=
  match hint with
  | S (S _ as below) =>
      let* p := rd plevi hint in
      if Qcltb t p then walk_down plevi t below else Some hint
  | _ => Some hint
  end.

Section Kernel.
Variable lg : Qc -> Qc.

(** vinth2p_kernels.f90:399-403 *)
Definition double_log_pressure (p_mb : Qc) : Qc := lg (lg (p_mb + dec 272 100)%Qc).
(** vinth2p_kernels.f90:232-241 *)
Definition build_double_log_levels (levels : list Qc) : list Qc := map double_log_pressure levels.
(** vinth2p_kernels.f90:246-254 *)
Fixpoint build_double_log_interval_denominators (l : list Qc) : list Qc :=
  match l with
  | x :: ((y :: _) as r) => (y - x)%Qc :: build_double_log_interval_denominators r
  | _ => []
  end.

(** vinth2p_kernels.f90:407-417 *)
Definition interpolate_value_linear (lower upper : option Qc) (t pl pu : Qc) : option Qc :=
  lerp lower upper (t - pl)%Qc (pu - pl)%Qc.
(** vinth2p_kernels.f90:421-431 *)
Definition interpolate_value_log (lower upper : option Qc) (t pl pu : Qc) : option Qc :=
  lerp lower upper (lg (t / pl)%Qc) (lg (pu / pl)%Qc).
(** vinth2p_kernels.f90:435-445 *)
Definition interpolate_value_loglog (lower upper : option Qc) (t pl pu : Qc) : option Qc :=
  lerp lower upper (double_log_pressure t - double_log_pressure pl)%Qc
                   (double_log_pressure pu - double_log_pressure pl)%Qc.
(** vinth2p_kernels.f90:450-462 *)
Definition interpolate_value_loglog_precomputed (lower upper : option Qc) (tl ll den : Qc) : option Qc :=
  lerp lower upper (tl - ll)%Qc den.
(** vinth2p_kernels.f90:466-489 (intyp other than 1, 2, 3: the sentinel) *)
Definition interpolate_value (lower upper : option Qc) (t pl pu : Qc) (intyp : Z) (spv : Qc) : option Qc :=
  if (intyp =? 1)%Z then interpolate_value_linear lower upper t pl pu
  else if (intyp =? 2)%Z then interpolate_value_log lower upper t pl pu
  else if (intyp =? 3)%Z then interpolate_value_loglog lower upper t pl pu
  else Some spv.

(** the assignment inside each branch of interpolate_column_nodes and
    interpolate_column_ecmwf: vinth2p_kernels.f90:545-552, 566-573 (intyp 1),
    585-592, 605-612 (intyp 2), 624-631, 644-651 (intyp 3, the target's transform
    coming from [plevo_loglog]); the same texts recur in 700-969 *)
Definition node_value (intyp : Z) (dati : list (option Qc)) (plevi : list Qc) (kp : nat) (t tl : Qc) : option (option Qc) :=
  let* lower := rd dati kp in
  let* upper := rd dati (kp + 1) in
  let* pl := rd plevi kp in
  let* pu := rd plevi (kp + 1) in
  Some (if (intyp =? 1)%Z then lerp lower upper (t - pl)%Qc (pu - pl)%Qc
        else if (intyp =? 2)%Z then lerp lower upper (lg (t / pl)%Qc) (lg (pu / pl)%Qc)
        else lerp lower upper (tl - double_log_pressure pl)%Qc
                              (double_log_pressure pu - double_log_pressure pl)%Qc).

(** [select case (intyp)] with cases 1, 2, 3 *)
Definition intyp_known (intyp : Z) : bool := ((intyp =? 1) || (intyp =? 2) || (intyp =? 3))%Z.

(** vinth2p_kernels.f90:538-575 (intyp 1; 577-614 and 616-653 for 2 and 3): the
    loop over the targets, [hint] being [kp_hint] *)
Fixpoint nodes_loop (intyp : Z) (dati : list (option Qc)) (plevi : list Qc) (is_ascending use_walk : bool)
    (bottom_pressure : Qc) (bottom_pair_idx : nat) (spv : Qc) (kxtrp : Z)
    (targets : list (Qc * Qc)) (hint : nat) : option (list (option Qc)) :=
  match targets with
  | [] => Some []
  | (t, tl) :: r =>
      if Qcltb bottom_pressure t then
        let* v := (if (kxtrp =? 0)%Z then Some (Some spv)
                   else node_value intyp dati plevi bottom_pair_idx t tl) in
        let* vs := nodes_loop intyp dati plevi is_ascending use_walk bottom_pressure bottom_pair_idx spv kxtrp r hint in
        Some (v :: vs)
      else
        let* kp := (if use_walk then walk_down plevi t hint
                    else locate_bracketing_level_ordered t plevi is_ascending) in
        let* v := (if kp <? 1 then Some (Some spv) else node_value intyp dati plevi kp t tl) in
        let* vs := nodes_loop intyp dati plevi is_ascending use_walk bottom_pressure bottom_pair_idx spv kxtrp r
                     (if use_walk then kp else hint) in
        Some (v :: vs)
  end.

(** vinth2p_kernels.f90:494-659 *)
Definition interpolate_column_nodes (dati : list (option Qc)) (hbcofa hbcofb : list Qc) (p0_mb : Qc)
    (plevo_mb plevo_loglog : list Qc) (intyp : Z) (psfc spv : Qc) (kxtrp : Z) : option (list (option Qc)) :=
  if Qceqb psfc spv then Some (map (fun _ => Some spv) plevo_mb)
  else
    let plevi := build_input_pressures hbcofa hbcofb p0_mb (to_mb psfc) in
    let* is_ascending := levels_ascending plevi in
    let* bottom_idx := lowest_model_level_index plevi in
    let* bottom_pair_idx := lowest_bracketing_level_index plevi in
    let* bottom_pressure := rd plevi bottom_idx in
    let use_walk := is_ascending && never_up plevo_mb in
    if intyp_known intyp then
      nodes_loop intyp dati plevi is_ascending use_walk bottom_pressure bottom_pair_idx spv kxtrp
        (combine plevo_mb plevo_loglog) bottom_pair_idx
    else Some (map (fun _ => Some spv) plevo_mb).

(** vinth2p_kernels.f90:1518-1550 *)
Definition extrapolate_temperature (tbot : option Qc) (plev_bottom t psfc_mb phi_sfc : Qc) : option Qc :=
  option_map (fun tbot =>
    let tstar := (tbot * (1 + alpha * ((psfc_mb / plev_bottom) - 1)))%Qc in
    let hgt := (phi_sfc * ginv)%Qc in
    let alnp :=
      (if Qcltb hgt (qz 2000) then alpha * lg (t / psfc_mb)
       else
         let t0 := tstar + dec 65 10000 * hgt in
         let tplat := qcmin t0 (qz 298) in
         let tprime0 :=
           if Qcleb hgt (qz 2500)
           then dec 2 1000 * ((qz 2500 - hgt) * t0 + (hgt - qz 2000) * tplat)
           else tplat in
         if Qcltb tprime0 tstar then 0
         else rd_gas * (tprime0 - tstar) / phi_sfc * lg (t / psfc_mb))%Qc in
    (tstar * (1 + alnp + dec 1 2 * (alnp * alnp) + dec 1 6 * (alnp * alnp * alnp)))%Qc) tbot.

(** vinth2p_kernels.f90:1554-1581 *)
Definition extrapolate_geopotential (tbot plev_bottom t psfc_mb phi_sfc : Qc) : Qc :=
  let hgt := (phi_sfc * ginv)%Qc in
  let tstar := (tbot * (1 + alpha * ((psfc_mb / plev_bottom) - 1)))%Qc in
  let t0 := (tstar + dec 65 10000 * hgt)%Qc in
  let lim := dec 2905 10 in
  let '(alph, tstar) :=
    if Qcleb tstar lim && Qcltb lim t0 then ((rd_gas / phi_sfc * (lim - tstar))%Qc, tstar)
    else if Qcltb lim tstar && Qcltb lim t0 then (0%Qc, (dec 1 2 * (lim + tstar))%Qc)
    else (alpha, tstar) in
  let tstar := if Qcltb tstar (qz 255) then (dec 1 2 * (tstar + qz 255))%Qc else tstar in
  let alnp := (alph * lg (t / psfc_mb))%Qc in
  (hgt - rd_gas * tstar * ginv * lg (t / psfc_mb) * (1 + dec 1 2 * alnp + dec 1 6 * (alnp * alnp)))%Qc.

(** the below-ground value of interpolate_column_ecmwf, chosen by [kxtrp] and
    [varflg]: vinth2p_kernels.f90:701-706 (kxtrp = 0), 723-730 (varflg 1), 747-752
    (varflg -1), 769-772 (other); repeated for intyp 2 and 3 *)
Definition below_ground (bottom_value : option Qc) (bottom_pressure t psfc_mb spv : Qc)
    (kxtrp varflg : Z) (tbot phis : Qc) : option Qc :=
  if (kxtrp =? 0)%Z then Some spv
  else if (varflg =? 1)%Z then extrapolate_temperature bottom_value bottom_pressure t psfc_mb phis
  else if (varflg =? -1)%Z then Some (extrapolate_geopotential tbot bottom_pressure t psfc_mb phis)
  else bottom_value.

(** one pass of any of the loops of interpolate_column_ecmwf
    (vinth2p_kernels.f90:698-966) *)
Definition ecmwf_target (intyp : Z) (dati : list (option Qc)) (plevi : list Qc) (is_ascending : bool)
    (bottom_idx : nat) (psfc_mb spv : Qc) (kxtrp varflg : Z) (tbot phis : Qc) (tt : Qc * Qc) : option (option Qc) :=
  let (t, tl) := tt in
  let* bottom_pressure := rd plevi bottom_idx in
  if Qcltb bottom_pressure t then
    let* bottom_value := rd dati bottom_idx in
    Some (below_ground bottom_value bottom_pressure t psfc_mb spv kxtrp varflg tbot phis)
  else
    let* kp := locate_bracketing_level_ordered t plevi is_ascending in
    if kp <? 1 then Some (Some spv) else node_value intyp dati plevi kp t tl.

(** vinth2p_kernels.f90:664-972 *)
Definition interpolate_column_ecmwf (dati : list (option Qc)) (hbcofa hbcofb : list Qc) (p0_mb : Qc)
    (plevo_mb plevo_loglog : list Qc) (intyp : Z) (psfc spv : Qc) (kxtrp varflg : Z) (tbot phis : Qc)
    : option (list (option Qc)) :=
  if Qceqb psfc spv then Some (map (fun _ => Some spv) plevo_mb)
  else
    let psfc_mb := to_mb psfc in
    let plevi := build_input_pressures hbcofa hbcofb p0_mb psfc_mb in
    let* is_ascending := levels_ascending plevi in
    let* bottom_idx := lowest_model_level_index plevi in
    if intyp_known intyp then
      mapM (ecmwf_target intyp dati plevi is_ascending bottom_idx psfc_mb spv kxtrp varflg tbot phis)
           (combine plevo_mb plevo_loglog)
    else Some (map (fun _ => Some spv) plevo_mb).

(** vinth2p_kernels.f90:978-1022 (one target of the loop 993-1021) *)
Definition sigma_target (dati : list (option Qc)) (sigmai : list Qc) (is_ascending : bool) (intyp : Z) (spv s : Qc)
    : option (option Qc) :=
  let* first := rd sigmai 1 in
  let* last := rd sigmai (length sigmai) in
  if (if is_ascending then Qcltb s first || Qcltb last s else Qcltb first s || Qcltb s last)
  then Some (Some spv)
  else
    let* kp := locate_bracketing_level_ordered s sigmai is_ascending in
    if kp <? 1 then Some (Some spv)
    else
      let* pl := rd sigmai kp in
      let* pu := rd sigmai (kp + 1) in
      if (intyp =? 2)%Z && (Qcleb s 0%Qc || Qcleb pl 0%Qc || Qcleb pu 0%Qc) then Some (Some spv)
      else
        let* lower := rd dati kp in
        let* upper := rd dati (kp + 1) in
        Some (interpolate_value lower upper s pl pu intyp spv).
(** vinth2p_kernels.f90:978-1022 *)
Definition interpolate_column_sigma (dati : list (option Qc)) (sigmai sigmao : list Qc) (intyp : Z) (spv : Qc)
    : option (list (option Qc)) :=
  if length sigmai <? 2 then Some (map (fun _ => Some spv) sigmao)
  else
    let* is_ascending := levels_ascending sigmai in
    mapM (sigma_target dati sigmai is_ascending intyp spv) sigmao.

(** the output side of every flat kernel (vinth2p_kernels.f90:1117-1137 and its
    copies): [output_idx] starts at [base_out + inner] and moves by [ninner] *)
Fixpoint flat_store {T : Type} (f : T -> option (option Qc)) (targets : list T) (output_idx ninner : nat)
    (buf : list (option Qc)) : option (list (option Qc)) :=
  match targets with
  | [] => Some buf
  | t :: r =>
      let* v := f t in
      let* buf := wrx buf output_idx v in
      flat_store f r (output_idx + ninner) ninner buf
  end.

(** vinth2p_kernels.f90:1119-1135 (intyp 1), 1139-1160 (2), 1162-1195 (3): one
    target of interpolate_flat_column_nodes *)
Definition flat_nodes_target (intyp : Z) (dati : list (option Qc)) (plevi : list Qc) (offsets : list nat)
    (is_ascending : bool) (bottom_pressure : Qc) (bottom_pair_idx : nat) (ninner : nat) (spv : Qc) (kxtrp : Z)
    (tt : Qc * Qc) : option (option Qc) :=
  let (t, tl) := tt in
  let ll := build_double_log_levels plevi in
  let den := build_double_log_interval_denominators ll in
  let pair kp :=
    let* input_idx := rd offsets kp in
    let* lower := rd dati input_idx in
    let* upper := rd dati (input_idx + ninner) in
    if (intyp =? 3)%Z then
      let* l := rd ll kp in
      let* d := rd den kp in
      Some (interpolate_value_loglog_precomputed lower upper tl l d)
    else
      let* pl := rd plevi kp in
      let* pu := rd plevi (kp + 1) in
      Some (if (intyp =? 1)%Z then interpolate_value_linear lower upper t pl pu
            else interpolate_value_log lower upper t pl pu) in
  if Qcltb bottom_pressure t then
    if (kxtrp =? 0)%Z then Some (Some spv) else pair bottom_pair_idx
  else
    let* kp := locate_bracketing_level_ordered t plevi is_ascending in
    if kp <? 1 then Some (Some spv) else pair kp.

(** vinth2p_kernels.f90:1077-1203 *)
Definition interpolate_flat_column_nodes (dati buf : list (option Qc)) (hbcofa hbcofb : list Qc) (p0_mb : Qc)
    (plevo_mb plevo_loglog : list Qc) (intyp : Z) (psfc spv : Qc) (kxtrp : Z)
    (base_in base_out inner ninner nlevi : nat) : option (list (option Qc)) :=
  if Qceqb psfc spv then flat_store (fun _ => Some (Some spv)) plevo_mb (base_out + inner) ninner buf
  else
    let plevi := build_input_pressures hbcofa hbcofb p0_mb (to_mb psfc) in
    let offsets := build_flat_level_offsets base_in inner ninner nlevi in
    let* is_ascending := levels_ascending plevi in
    let* bottom_idx := lowest_model_level_index plevi in
    let* bottom_pair_idx := lowest_bracketing_level_index plevi in
    let* bottom_pressure := rd plevi bottom_idx in
    if intyp_known intyp then
      flat_store (flat_nodes_target intyp dati plevi offsets is_ascending bottom_pressure bottom_pair_idx ninner spv kxtrp)
        (combine plevo_mb plevo_loglog) (base_out + inner) ninner buf
    else flat_store (fun _ => Some (Some spv)) plevo_mb (base_out + inner) ninner buf.

(** vinth2p_kernels.f90:1252-1509: one target of interpolate_flat_column_ecmwf *)
Definition flat_ecmwf_target (intyp : Z) (dati : list (option Qc)) (plevi : list Qc) (offsets : list nat)
    (is_ascending : bool) (bottom_idx ninner : nat) (psfc_mb spv : Qc) (kxtrp varflg : Z) (tbot phis : Qc)
    (tt : Qc * Qc) : option (option Qc) :=
  let (t, tl) := tt in
  let ll := build_double_log_levels plevi in
  let den := build_double_log_interval_denominators ll in
  let* bottom_pressure := rd plevi bottom_idx in
  let* bottom_input_idx := rd offsets bottom_idx in
  if Qcltb bottom_pressure t then
    let* bottom_value := rd dati bottom_input_idx in
    Some (below_ground bottom_value bottom_pressure t psfc_mb spv kxtrp varflg tbot phis)
  else
    let* kp := locate_bracketing_level_ordered t plevi is_ascending in
    if kp <? 1 then Some (Some spv)
    else
      let* input_idx := rd offsets kp in
      let* lower := rd dati input_idx in
      let* upper := rd dati (input_idx + ninner) in
      if (intyp =? 3)%Z then
        let* l := rd ll kp in
        let* d := rd den kp in
        Some (interpolate_value_loglog_precomputed lower upper tl l d)
      else
        let* pl := rd plevi kp in
        let* pu := rd plevi (kp + 1) in
        Some (if (intyp =? 1)%Z then interpolate_value_linear lower upper t pl pu
              else interpolate_value_log lower upper t pl pu).

(** vinth2p_kernels.f90:1207-1514 *)
Definition interpolate_flat_column_ecmwf (dati buf : list (option Qc)) (hbcofa hbcofb : list Qc) (p0_mb : Qc)
    (plevo_mb plevo_loglog : list Qc) (intyp : Z) (psfc spv : Qc) (kxtrp varflg : Z) (tbot phis : Qc)
    (base_in base_out inner ninner nlevi : nat) : option (list (option Qc)) :=
  if Qceqb psfc spv then flat_store (fun _ => Some (Some spv)) plevo_mb (base_out + inner) ninner buf
  else
    let psfc_mb := to_mb psfc in
    let plevi := build_input_pressures hbcofa hbcofb p0_mb psfc_mb in
    let offsets := build_flat_level_offsets base_in inner ninner nlevi in
    let* is_ascending := levels_ascending plevi in
    let* bottom_idx := lowest_model_level_index plevi in
    if intyp_known intyp then
      flat_store (flat_ecmwf_target intyp dati plevi offsets is_ascending bottom_idx ninner psfc_mb spv kxtrp varflg tbot phis)
        (combine plevo_mb plevo_loglog) (base_out + inner) ninner buf
    else flat_store (fun _ => Some (Some spv)) plevo_mb (base_out + inner) ninner buf.

(** vinth2p_kernels.f90:1028-1073: one target of interpolate_flat_column_sigma *)
Definition flat_sigma_target (dati : list (option Qc)) (sigmai : list Qc) (is_ascending : bool) (p0 psfc : Qc)
    (intyp : Z) (spv : Qc) (base_in inner ninner : nat) (ab : Qc * Qc) : option (option Qc) :=
  let (a, b) := ab in
  let s := (a * p0 / psfc + b)%Qc in
  let* first := rd sigmai 1 in
  let* last := rd sigmai (length sigmai) in
  if (if is_ascending then Qcltb s first || Qcltb last s else Qcltb first s || Qcltb s last)
  then Some (Some spv)
  else
    let* kp := locate_bracketing_level_ordered s sigmai is_ascending in
    if kp <? 1 then Some (Some spv)
    else
      let* pl := rd sigmai kp in
      let* pu := rd sigmai (kp + 1) in
      if (intyp =? 2)%Z && (Qcleb s 0%Qc || Qcleb pl 0%Qc || Qcleb pu 0%Qc) then Some (Some spv)
      else
        let input_idx := base_in + (kp - 1) * ninner + inner in
        let* lower := rd dati input_idx in
        let* upper := rd dati (input_idx + ninner) in
        Some (interpolate_value lower upper s pl pu intyp spv).
(** vinth2p_kernels.f90:1028-1073; the output index of line 1045 written as the
    running index it equals *)
Definition interpolate_flat_column_sigma (dati buf : list (option Qc)) (sigmai hyam hybm : list Qc) (p0 psfc : Qc)
    (intyp : Z) (spv : Qc) (base_in base_out inner ninner : nat) : option (list (option Qc)) :=
  let* is_ascending := levels_ascending sigmai in
  flat_store (flat_sigma_target dati sigmai is_ascending p0 psfc intyp spv base_in inner ninner)
    (combine hyam hybm) (base_out + inner) ninner buf.

(** the two loops [outer = 0 .. nouter-1], [inner = 1 .. ninner] with
    [col_idx = outer*ninner + inner] of every [_corder] entry point
    (vinth2p_kernels.f90:1880-1892, 1972-1984, 2024-2037, 2084-2097) *)
Definition columns_in_order (nouter ninner : nat) : list (nat * nat) :=
  flat_map (fun outer => map (fun inner => (outer, inner)) (seq 1 ninner)) (seq 0 nouter).

(** vinth2p_kernels.f90:2001-2038 *)
Definition dvinth2p_nodes_corder (dati buf : list (option Qc)) (hbcofa hbcofb : list Qc) (p0 : Qc) (plevo : list Qc)
    (intyp : Z) (psfc : list Qc) (spv : Qc) (kxtrp : Z) (nouter nlevi ninner : nat) : option (list (option Qc)) :=
  let plevo_mb := convert_levels_to_mb plevo in
  let ll := build_double_log_levels plevo_mb in
  foldM (fun buf '(outer, inner) =>
    let* ps := rd psfc (outer * ninner + inner) in
    interpolate_flat_column_nodes dati buf hbcofa hbcofb (to_mb p0) plevo_mb ll intyp ps spv kxtrp
      (outer * nlevi * ninner) (outer * length plevo * ninner) inner ninner nlevi)
    (columns_in_order nouter ninner) buf.

(** vinth2p_kernels.f90:2058-2093 *)
Definition dvinth2p_ecmwf_nodes_corder (dati buf : list (option Qc)) (hbcofa hbcofb : list Qc) (p0 : Qc) (plevo : list Qc)
    (intyp : Z) (psfc : list Qc) (spv : Qc) (kxtrp : Z) (nouter nlevi ninner : nat) (varflg : Z) (tbot phis : list Qc)
    : option (list (option Qc)) :=
  let plevo_mb := convert_levels_to_mb plevo in
  let ll := build_double_log_levels plevo_mb in
  foldM (fun buf '(outer, inner) =>
    let* ps := rd psfc (outer * ninner + inner) in
    let* tb := rd tbot (outer * ninner + inner) in
    let* ph := rd phis (outer * ninner + inner) in
    interpolate_flat_column_ecmwf dati buf hbcofa hbcofb (to_mb p0) plevo_mb ll intyp ps spv kxtrp varflg tb ph
      (outer * nlevi * ninner) (outer * length plevo * ninner) inner ninner nlevi)
    (columns_in_order nouter ninner) buf.

(** vinth2p_kernels.f90:1955-1985 *)
Definition dsigma2hybrid_nodes_corder (dati buf : list (option Qc)) (sigmai hyam hybm : list Qc) (p0 : Qc)
    (psfc : list Qc) (intyp : Z) (spv : Qc) (nouter nlevi ninner : nat) : option (list (option Qc)) :=
  foldM (fun buf '(outer, inner) =>
    let* ps := rd psfc (outer * ninner + inner) in
    interpolate_flat_column_sigma dati buf sigmai hyam hybm p0 ps intyp spv
      (outer * nlevi * ninner) (outer * length hyam * ninner) inner ninner)
    (columns_in_order nouter ninner) buf.

(** vinth2p_kernels.f90:1613-1642: column [j] of the result; [dati] as a list of columns *)
Definition dvinth2p_nodes (dati : list (list (option Qc))) (hbcofa hbcofb : list Qc) (p0 : Qc) (plevo : list Qc)
    (intyp : Z) (psfc : list Qc) (spv : Qc) (kxtrp : Z) : option (list (list (option Qc))) :=
  let plevo_mb := convert_levels_to_mb plevo in
  let ll := build_double_log_levels plevo_mb in
  mapM (fun '(col, ps) => interpolate_column_nodes col hbcofa hbcofb (to_mb p0) plevo_mb ll intyp ps spv kxtrp)
       (combine dati psfc).
(** vinth2p_kernels.f90:1677-1708 *)
Definition dvinth2p_ecmwf_nodes (dati : list (list (option Qc))) (hbcofa hbcofb : list Qc) (p0 : Qc) (plevo : list Qc)
    (intyp : Z) (psfc : list Qc) (spv : Qc) (kxtrp varflg : Z) (tbot phis : list Qc) : option (list (list (option Qc))) :=
  let plevo_mb := convert_levels_to_mb plevo in
  let ll := build_double_log_levels plevo_mb in
  mapM (fun '(col, (ps, (tb, ph))) =>
          interpolate_column_ecmwf col hbcofa hbcofb (to_mb p0) plevo_mb ll intyp ps spv kxtrp varflg tb ph)
       (combine dati (combine psfc (combine tbot phis))).
(** vinth2p_kernels.f90:1909-1928 *)
Definition dsigma2hybrid_nodes (dati : list (list (option Qc))) (sigmai : list Qc) (sigmao : list (list Qc))
    (intyp : Z) (spv : Qc) : option (list (list (option Qc))) :=
  mapM (fun '(col, so) => interpolate_column_sigma col sigmai so intyp spv) (combine dati sigmao).

(** ** The eager Python drivers *)

(** interpolation.py:1621 and 1748: [output_values[output_values == _SPVL] = np.nan] *)
Definition restore_nan (v : option Qc) : option Qc :=
  match v with Some x => if Qceqb x spvl then None else Some x | None => None end.

(** interpolation.py:1552-1554, 1550: finite surface pressures, or [None] *)
Fixpoint all_finite (ps : list (option Qc)) : option (list Qc) :=
  match ps with
  | [] => Some []
  | Some p :: r => let* l := all_finite r in Some (p :: l)
  | None :: _ => None
  end.

(** how the field is extrapolated below ground: interpolation.py:1573-1589; [None]
    is [extrapolate=False], otherwise varflg (line 1278-1285) with t_bot, phi_sfc
    (zeros when varflg = 0) *)
Definition extrap_t := option (Z * (list Qc * list Qc)).

(** interpolation.py:1516-1629: [None] (outer) is the Python [None], i.e. use the
    fallback; the inner option is the kernel's *)
Definition hybrid_corder (dati : list (option Qc)) (ps : list (option Qc)) (hyam hybm : list Qc) (p0 : Qc)
    (new_levels : list Qc) (intyp : Z) (ex : extrap_t) (nouter ninner : nat) (empty : list (option Qc))
    : option (option (list (option Qc))) :=
  let nlevi := length hyam in
  let* psf := all_finite ps in
  Some (option_map (map restore_nan)
    (match ex with
     | None => dvinth2p_nodes_corder dati empty hyam hybm p0 new_levels intyp psf spvl 0 nouter nlevi ninner
     | Some (varflg, (tb, ph)) =>
         dvinth2p_ecmwf_nodes_corder dati empty hyam hybm p0 new_levels intyp psf spvl 1 nouter nlevi ninner varflg tb ph
     end)).

(** C-order element (outer, k, inner) of an array of shape (nouter, nlev, ninner);
    [k] and [inner] count from 0 *)
Definition celt (a : list (option Qc)) (nlev ninner outer k inner : nat) : option (option Qc) :=
  nth_error a ((outer * nlev + k) * ninner + inner).

(** interpolation.py:1669-1680: the transposed data cut into columns, column
    [outer*ninner + inner] being [data[outer, :, inner]] *)
Definition data_columns (a : list (option Qc)) (nouter nlev ninner : nat) : option (list (list (option Qc))) :=
  mapM (fun j => mapM (fun k => celt a nlev ninner (j / ninner) k (j mod ninner)) (seq 0 nlev))
       (seq 0 (nouter * ninner)).
(** interpolation.py:1747-1764: columns put back, in C order of (outer, plev, inner) *)
Definition columns_to_corder (cols : list (list (option Qc))) (nouter nlevo ninner : nat) : option (list (option Qc)) :=
  mapM (fun q => let* col := nth_error cols (q / (nlevo * ninner) * ninner + q mod ninner) in
                 nth_error col (q / ninner mod nlevo))
       (seq 0 (nouter * nlevo * ninner)).

(** interpolation.py:1661-1775: the fallback *)
Definition hybrid_fallback (dati : list (option Qc)) (ps : list (option Qc)) (hyam hybm : list Qc) (p0 : Qc)
    (new_levels : list Qc) (intyp : Z) (ex : extrap_t) (nouter ninner : nat) : option (list (option Qc)) :=
  let nlevi := length hyam in
  let psc := map (fun p => match p with Some p => p | None => spvl end) ps in
  let* cols := data_columns dati nouter nlevi ninner in
  let* out := (match ex with
     | None => dvinth2p_nodes cols hyam hybm p0 new_levels intyp psc spvl 0
     | Some (varflg, (tb, ph)) => dvinth2p_ecmwf_nodes cols hyam hybm p0 new_levels intyp psc spvl 1 varflg tb ph
     end) in
  let* flat := columns_to_corder out nouter (length new_levels) ninner in
  Some (map restore_nan flat).

(** interpolation.py:1632-1775; [contiguous] says whether the arrays pass the layout
    tests of lines 1534-1554 (a C-contiguous float array, surface pressure aligned) *)
Definition interp_hybrid_to_pressure (contiguous : bool) (dati : list (option Qc)) (ps : list (option Qc))
    (hyam hybm : list Qc) (p0 : Qc) (new_levels : list Qc) (intyp : Z) (ex : extrap_t) (nouter ninner : nat)
    (empty : list (option Qc)) : option (list (option Qc)) :=
  match (if contiguous then hybrid_corder dati ps hyam hybm p0 new_levels intyp ex nouter ninner empty else None) with
  | Some r => r
  | None => hybrid_fallback dati ps hyam hybm p0 new_levels intyp ex nouter ninner
  end.

(** interpolation.py:1789-1797: the monotonicity check on the sigma coordinate *)
Fixpoint never_down (l : list Qc) : bool :=
  match l with x :: ((y :: _) as r) => Qcleb x y && never_down r | _ => true end.
Definition sigma_monotone (s : list Qc) : bool := never_down s || never_up s || (length s <=? 1).

(** interpolation.py:1778-1867 and 1870-1963: [None] is the ValueError of line 1797
    (or an out-of-bounds access); surface pressures are finite and non-zero here *)
Definition interp_sigma_to_hybrid (contiguous : bool) (dati : list (option Qc)) (sigma : list Qc) (ps hyam hybm : list Qc)
    (p0 : Qc) (intyp : Z) (nouter ninner : nat) (empty : list (option Qc)) : option (list (option Qc)) :=
  let nlevi := length sigma in
  if negb (sigma_monotone sigma) then None
  else if contiguous then
    option_map (map restore_nan) (dsigma2hybrid_nodes_corder dati empty sigma hyam hybm p0 ps intyp spvl nouter nlevi ninner)
  else
    let* cols := data_columns dati nouter nlevi ninner in
    let targets := map (fun p => map (fun '(a, b) => (a * p0 / p + b)%Qc) (combine hyam hybm)) ps in
    let* out := dsigma2hybrid_nodes cols sigma targets intyp spvl in
    let* flat := columns_to_corder out nouter (length hyam) ninner in
    Some (map restore_nan flat).

(** ** Geopotential height (vinth2p_kernels.f90:128-168, 171-212) *)
(** the loop body: from the half-level geopotential below, the full-level height
    [z3(k)] and the half-level geopotential above.  [rd] is 287.06 and [g] 9.80665
    here (lines 138-139) *)
Definition geo_step (k : nat) (p_upper p_lower temp q phi_half : Qc) : Qc * Qc :=
  let '(dlog_p, alpha_full) :=
    if (k =? 1) && Qcleb p_upper 0%Qc then (lg (p_lower / dec 1 10)%Qc, lg (qz 2))
    else let d := lg (p_lower / p_upper)%Qc in (d, (1 - (p_upper / (p_lower - p_upper)) * d)%Qc) in
  let tv := (dec 28706 100 * temp * (1 + dec 609133 1000000 * q))%Qc in
  (((phi_half + tv * alpha_full) / dec 980665 100000)%Qc, (phi_half + tv * dlog_p)%Qc).

(** vinth2p_kernels.f90:148-150 *)
Definition half_pressures (hyai hybi : list Qc) (p0 ps : Qc) : list Qc :=
  map (fun '(a, b) => (a * p0 + b * ps)%Qc) (combine hyai hybi).

(** vinth2p_kernels.f90:152-167, one column: [k] runs from [nlev] down to 1; the
    result lists levels 1..k *)
Fixpoint geo_column (k : nat) (p_half temp q : list Qc) (phi_half : Qc) (acc : list Qc) : option (list Qc) :=
  match k with
  | O => Some acc
  | S k' =>
      let* pu := rd p_half k in
      let* pl := rd p_half (k + 1) in
      let* t := rd temp k in
      let* qq := rd q k in
      let (z, phi) := geo_step k pu pl t qq phi_half in
      geo_column k' p_half temp q phi (z :: acc)
  end.
(** vinth2p_kernels.f90:128-168, one column *)
Definition geopotential_height_column (temp q : list Qc) (ps phis : Qc) (hyai hybi : list Qc) (p0 : Qc) (nlev : nat) :=
  geo_column nlev (half_pressures hyai hybi p0 ps) temp q phis [].

(** vinth2p_kernels.f90:171-212 *)
Fixpoint geo_flat (k : nat) (p_half temp q : list Qc) (phi_half : Qc) (idx_in idx_out ninner : nat) (z3 : list Qc)
    : option (list Qc) :=
  match k with
  | O => Some z3
  | S k' =>
      let* pu := rd p_half k in
      let* pl := rd p_half (k + 1) in
      let* t := rd temp idx_in in
      let* qq := rd q idx_in in
      let (z, phi) := geo_step k pu pl t qq phi_half in
      let* z3 := wrx z3 idx_out z in
      geo_flat k' p_half temp q phi (idx_in - ninner) (idx_out - ninner) ninner z3
  end.
(** vinth2p_kernels.f90:1865-1893 *)
Definition dgeopotential_height_corder (temp q z3 psfc phis : list Qc) (hyai hybi : list Qc) (p0 : Qc)
    (nouter nlev ninner : nat) : option (list Qc) :=
  foldM (fun z3 '(outer, inner) =>
    let* ps := rd psfc (outer * ninner + inner) in
    let* ph := rd phis (outer * ninner + inner) in
    let base := outer * nlev * ninner in
    geo_flat nlev (half_pressures hyai hybi p0 ps) temp q ph
      (base + inner + (nlev - 1) * ninner) (base + inner + (nlev - 1) * ninner) ninner z3)
    (columns_in_order nouter ninner) z3.
End Kernel.
