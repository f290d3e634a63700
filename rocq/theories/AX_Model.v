(** Model of the axis bookkeeping around the compiled kernels:
    - src/skyborn/gridfill/gridfill.py   _order_dims, _prep_data, _recover_data, fill
    - src/skyborn/windspharm/tools.py    _order_dims, prep_data, recover_data,
                                         reverse_latdim, order_latdim
    - src/skyborn/calc/troposphere/core.py _order_dims_for_fortran,
                                         _restore_dims_from_fortran and the sorting
                                         and restoring steps of trop_wmo.
    [None] is a Python exception. *)
From Verif Require Import Base Loops NdArray GF_Model.
Local Close Scope Qc_scope.
Local Open Scope nat_scope.

(** ** Shared: the loop that rolls axes back to the front
    gridfill.py:184-188 and windspharm/tools.py:237-241
    (np.where(rolldims < rolldims[i], rolldims + 1, rolldims)). *)
Fixpoint roll_back {T} (m i : nat) (grid : nda T) (rolldims : list nat) : nda T :=
  match m with
  | 0 => grid
  | S m' => let r := nthn rolldims i in
            roll_back m' (S i) (rollaxis grid r) (map (fun d => if d <? r then d + 1 else d) rolldims)
  end.

(** ** gridfill *)
(** gridfill.py:60-110 [_order_dims]; a negative position is not an element of
    range(ndim) and raises like any other bad value, so positions are naturals. *)
Definition order_dims {T} (grid : nda T) (xpos ypos : nat) : option (nda T * list nat) :=
  if (xpos <? ndim grid) && (ypos <? ndim grid) && negb (xpos =? ypos) then
    let outorder := [ypos; xpos] ++ rem ypos (rem xpos (seq 0 (ndim grid))) in
    let grid1 := rollaxis grid xpos in
    let ypos' := if ypos <? xpos then ypos + 1 else ypos in
    Some (rollaxis grid1 ypos', outorder)
  else None.

(** gridfill.py:113-153 [_prep_data]; the metadata dictionary as a record. *)
Record info := { intshape : list nat; intorder : list nat; origndim : nat }.
Definition prep_data {T} (grid : nda T) (xdim ydim : nat) : option (nda T * info) :=
  match order_dims grid xdim ydim with
  | None => None
  | Some (g, order) =>
      let sh := nd_shape g in
      Some (reshape (firstn 2 sh ++ [prodn (skipn 2 sh)]) g,
            {| intshape := sh; intorder := order; origndim := ndim grid |})
  end.

(** gridfill.py:156-189 [_recover_data] *)
Definition recover_data {T} (grid : nda T) (inf : info) : nda T :=
  let grid := reshape (intshape inf) grid in
  let rolldims := map (fun d => pos d (intorder inf)) (rev (seq 0 (origndim inf))) in
  roll_back (length rolldims) 0 grid rolldims.

(** gridfill.py:311-336 [fill] on a masked array of any rank: an element is a
    value together with its mask flag.  np.empty work arrays as in GF_Model. *)
Definition fill {A : arith} (P : params A) (grids : nda (num A * bool)) (xdim ydim : nat)
    (ni0 : nat -> nat) (rm0 : nat -> num A) : option (nda (num A) * (nat -> bool)) :=
  match prep_data grids xdim ydim with
  | None => None
  | Some (g3, inf) =>
      let '(nlat, nlon, ngrid) := (nthn (nd_shape g3) 0, nthn (nd_shape g3) 1, nthn (nd_shape g3) 2) in
      match fill_prepared A P (fun i j k => fst (nd_elt g3 [i; j; k])) (fun i j k => snd (nd_elt g3 [i; j; k]))
              nlat nlon ngrid ni0 rm0 with
      | None => None
      | Some (out, conv) =>
          Some (recover_data (mk_nda (nd_shape g3) (fun ix => out (nthn ix 0) (nthn ix 1) (nthn ix 2))) inf, conv)
      end
  end.

(** ** windspharm: dimension labels are characters (code points). *)
Definition ch_x := 120. Definition ch_y := 121.
Definition lower (c : nat) : nat := if (65 <=? c) && (c <=? 90) then c + 32 else c.
Definition mem (d : nat) (l : list nat) : bool := existsb (Nat.eqb d) l.

(** windspharm/tools.py:36-84 [_order_dims]; rollaxis raises on a position
    outside the array. *)
Definition ws_order_dims {T} (data : nda T) (dim_order : list nat) : option (nda T * list nat) :=
  if negb (mem ch_x dim_order) || negb (mem ch_y dim_order) then None
  else
    let lon_pos := pos ch_x (map lower dim_order) in
    let lat_pos := pos ch_y (map lower dim_order) in
    if (lon_pos <? ndim data) && (lat_pos <? ndim data) then
      let data1 := rollaxis data lon_pos in
      let lat_pos' := if lat_pos <? lon_pos then lat_pos + 1 else lat_pos in
      Some (rollaxis data1 lat_pos', [ch_y; ch_x] ++ rem ch_y (rem ch_x dim_order))
    else None.

(** windspharm/tools.py:87-172 [_reshape_for_spharm], [prep_data] *)
Record ws_info := { ws_shape : list nat; ws_inter : list nat; ws_orig : list nat }.
Definition ws_prep_data {T} (data : nda T) (dim_order : list nat) : option (nda T * ws_info) :=
  if ndim data <? 2 then None
  else match ws_order_dims data dim_order with
  | None => None
  | Some (g, order) =>
      let sh := nd_shape g in
      Some (reshape (firstn 2 sh ++ [prodn (skipn 2 sh)]) g,
            {| ws_shape := sh; ws_inter := order; ws_orig := dim_order |})
  end.

(** windspharm/tools.py:175-242 [recover_data] *)
Definition ws_recover_data {T} (data : nda T) (inf : ws_info) : nda T :=
  let data := reshape (ws_shape inf) data in
  let rolldims := map (fun c => pos c (ws_inter inf)) (rev (ws_orig inf)) in
  roll_back (length rolldims) 0 data rolldims.

(** windspharm/tools.py:318-378 [reverse_latdim]: the slice [::-1] on one axis.
    Negative axes count from the end, as in numpy. *)
Definition norm_axis (axis : Z) (n : nat) : option nat :=
  if ((axis >=? Z.of_nat n) || (axis <? - Z.of_nat n))%Z then None
  else Some (Z.to_nat (if (axis <? 0)%Z then axis + Z.of_nat n else axis)).
Definition list_eqb (l m : list nat) : bool := if list_eq_dec Nat.eq_dec l m then true else false.
Definition reverse_latdim {T} (u v : nda T) (axis : Z) : option (nda T * nda T) :=
  if negb (list_eqb (nd_shape u) (nd_shape v)) then None
  else match norm_axis axis (ndim u) with
  | None => None
  | Some k => Some (flip k u, flip k v)
  end.

(** windspharm/tools.py:381-454 [order_latdim]; lat_coords[0] of an empty list
    raises. *)
Definition order_latdim {T} (lat : list Qc) (u v : nda T) (axis : Z) : option (list Qc * nda T * nda T) :=
  if negb (list_eqb (nd_shape u) (nd_shape v)) then None
  else match norm_axis axis (ndim u) with
  | None => None
  | Some k =>
      if negb (length lat =? nthn (nd_shape u) k) then None
      else match lat with
      | [] => None
      | first :: _ =>
          if (first <? last lat 0)%Qc then
            match reverse_latdim u v axis with None => None | Some (u', v') => Some (rev lat, u', v') end
          else Some (lat, u, v)
      end
  end.

(** ** Tropopause wrapper *)
(** np.argsort as a stable insertion sort of the index list (numpy leaves the
    order of equal keys unspecified; equal keys do not occur for axis orders). *)
Fixpoint insert_by {K} (le : K -> K -> bool) (key : nat -> K) (i : nat) (l : list nat) : list nat :=
  match l with
  | [] => [i]
  | j :: l' => if le (key i) (key j) then i :: l else j :: insert_by le key i l'
  end.
Definition argsort {K} (le : K -> K -> bool) (dflt : K) (l : list K) : list nat :=
  fold_right (insert_by le (fun i => nth i l dflt)) [] (seq 0 (length l)).

(** troposphere/core.py:57-138 [_order_dims_for_fortran]: the new axis order
    (absent dimensions, -1 or None, are [None]; levdim is non-negative). *)
Definition opt_list (o : option nat) : list nat := match o with Some d => [d] | None => [] end.
Definition trop_order (nd : nat) (xdim ydim : option nat) (levdim : nat) (timedim : option nat) : option (list nat) :=
  let base :=
    if nd =? 2 then
      match ydim, xdim with
      | Some y, _ => Some [y; levdim]
      | None, Some x => Some [x; levdim]
      | None, None => None
      end
    else match nd =? 3, timedim, xdim, ydim with
      | true, Some t, Some x, None => Some [x; t; levdim]
      | true, Some t, None, Some y => Some [y; t; levdim]
      | _, _, _, _ => Some (opt_list ydim ++ opt_list xdim ++ [levdim] ++ opt_list timedim)
      end in
  match base with
  | None => None
  | Some b => Some (b ++ filter (fun i => negb (mem i b)) (seq 0 nd))
  end.

(** troposphere/core.py:141-181 [_restore_dims_from_fortran] with
    remove_level_dim=True; inverse_order = np.argsort(new_order). *)
Definition trop_restore_order (new_order : list nat) : list nat :=
  flat_map (fun p => if p =? 2 then [] else if 2 <? p then [p - 1] else [p])
           (argsort Nat.leb 0 new_order).

(** np.take(a, idx, axis) *)
Definition take {T} (idx : list nat) (axis : nat) (a : nda T) : nda T :=
  mk_nda (firstn axis (nd_shape a) ++ length idx :: skipn (S axis) (nd_shape a))
         (fun ix => nd_elt a (set_nth axis (nthn idx (nthn ix axis)) ix)).

(** np.all(p[:-1] <= p[1:]) *)
Fixpoint ascb (l : list Qc) : bool :=
  match l with
  | x :: ((y :: _) as l') => (x <=? y)%Qc && ascb l'
  | _ => true
  end.

(** troposphere/core.py:285-423 [trop_wmo]: validation of the dimension
    arguments, reordering, sorting by pressure, the gridded kernel (which runs
    the column kernel [F] on every column: tropopause_height.f90:100-410) and
    the restoration of the axes.  [F] receives the pressures and the column. *)
(** len(set(dims)) == len(dims) *)
Fixpoint distinct (l : list nat) : bool := match l with [] => true | x :: l' => negb (mem x l') && distinct l' end.
Definition is_some {X} (o : option X) : bool := match o with Some _ => true | None => false end.
Definition trop_wmo {T R} (F : list Qc -> (nat -> T) -> R) (check_order : bool) (p : list Qc) (temp : nda T)
    (xdim ydim : option nat) (levdim : nat) (timedim : option nat) : option (nda R) :=
  let n := ndim temp in
  let dims := opt_list xdim ++ opt_list ydim ++ [levdim] ++ opt_list timedim in
  if negb (forallb (fun d => d <? n) dims) || negb (distinct dims)
     || (length p =? 0) || negb (length p =? nthn (nd_shape temp) levdim)
     || ((n =? 3) && xorb (is_some xdim) (is_some ydim) && negb (is_some timedim))
  then None
  else match trop_order n xdim ydim levdim timedim with
  | None => None
  | Some order =>
      let t0 := transpose order temp in
      let level_axis := if n =? 2 then 1 else 2 in
      let '(p', t) := if check_order && negb (ascb p)
                      then let idx := argsort Qcleb 0%Qc p in
                           (map (fun i => nth i p 0%Qc) idx, take idx level_axis t0)
                      else (p, t0) in
      if n =? 2 then
        Some (mk_nda [nthn (nd_shape t) 0] (fun ix => F p' (fun k => nd_elt t [nthn ix 0; k])))
      else if n =? 3 then
        Some (transpose (trop_restore_order order)
          (mk_nda [nthn (nd_shape t) 0; nthn (nd_shape t) 1]
                  (fun ix => F p' (fun k => nd_elt t [nthn ix 0; nthn ix 1; k]))))
      else if n =? 4 then
        Some (transpose (trop_restore_order order)
          (mk_nda [nthn (nd_shape t) 0; nthn (nd_shape t) 1; nthn (nd_shape t) 3]
                  (fun ix => F p' (fun k => nd_elt t [nthn ix 0; nthn ix 1; k; nthn ix 2]))))
      else None
  end.
