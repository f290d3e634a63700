(** Model of src/skyborn/gradients.py.

    Numbers are exact rationals; np.pi and the tolerances of np.allclose are the
    rationals their double values denote; the cosine is an argument.  An array is
    its shape with its values in row-major order; [None] is an exception. *)
From Verif Require Import Base.
Local Open Scope nat_scope.

Record array := { shape : list nat; data : list Qc }.

Definition q0 : Qc := 0%Qc.
(** np.pi, and the default rtol = 1e-05 and atol = 1e-08 of np.allclose *)
Definition np_pi : Qc := Q2Qc (884279719003555 # 281474976710656).
Definition rtol : Qc := Q2Qc (5902958103587057 # 590295810358705651712).
Definition atol : Qc := Q2Qc (3022314549036573 # 302231454903657293676544).

Definition prod (l : list nat) : nat := fold_left Nat.mul l 1.
(** An axis number, negative ones counting from the end. *)
Definition axis_of (ndim : nat) (axis : Z) : option nat :=
  if ((- Z.of_nat ndim <=? axis) && (axis <? Z.of_nat ndim))%Z
  then Some (Z.to_nat (if axis <? 0 then axis + Z.of_nat ndim else axis)%Z) else None.

(** Seen from axis [ax] an array is outer x n x inner. *)
Definition outer (s : list nat) (ax : nat) : nat := prod (firstn ax s).
Definition len (s : list nat) (ax : nat) : nat := nth ax s 0.
Definition inner (s : list nat) (ax : nat) : nat := prod (skipn (S ax) s).
Definition entry (s : list nat) (ax : nat) (d : list Qc) (o i k : nat) : Qc :=
  nth ((o * len s ax + i) * inner s ax + k) d q0.

(** a[tuple(idx)] with idx[axis] = i and full slices elsewhere, row-major. *)
Definition slab (s : list nat) (ax : nat) (d : list Qc) (i : nat) : list Qc :=
  map (fun q => entry s ax d (q / inner s ax) i (q mod inner s ax)) (seq 0 (outer s ax * inner s ax)).
(** a[tuple(idx)] = v *)
Definition set_slab (s : list nat) (ax : nat) (d : list Qc) (i : nat) (v : list Qc) : list Qc :=
  map (fun p => if (p / inner s ax) mod len s ax =? i
                then nth (p / inner s ax / len s ax * inner s ax + p mod inner s ax) v q0
                else nth p d q0)
      (seq 0 (outer s ax * len s ax * inner s ax)).

(** elementwise operations between two slabs, and of a slab with a number *)
Definition zsub (u v : list Qc) : list Qc := map (fun e => (fst e - snd e)%Qc) (combine u v).
Definition zadd (u v : list Qc) : list Qc := map (fun e => (fst e + snd e)%Qc) (combine u v).
Definition sdiv (u : list Qc) (h : Qc) : list Qc := map (fun x => (x / h)%Qc) u.
Definition smul (h : Qc) (u : list Qc) : list Qc := map (fun x => (h * x)%Qc) u.

(** np.diff *)
Definition diff (l : list Qc) : list Qc := map (fun e => (snd e - fst e)%Qc) (combine l (tl l)).
Definition qabs (x : Qc) : Qc := if Qcltb x q0 then (- x)%Qc else x.
(** np.allclose(dx, b) *)
Definition allclose (dx : list Qc) (b : Qc) : bool :=
  forallb (fun a => Qcleb (qabs (a - b)) (atol + rtol * qabs b)) dx.

(** ** calculate_gradient (16-133)
    [nd] is what happens with coordinates that are not one-dimensional but pass
    the size test of line 35 (not modelled further). *)
Section Grad.
Variable nd : array -> array -> Z -> option array.

(** 43: coordinates * np.pi / 180.0 * radius *)
Definition to_distance (radius : Qc) (c : Qc) : Qc := (c * np_pi / qz 180 * radius)%Qc.

(** 59-94: uniform spacing *)
Definition uniform (s : list nat) (ax : nat) (f : list Qc) (h : Qc) (g : list Qc) : list Qc :=
  let n := len s ax in
  let fld := slab s ax f in
  let g := fold_left (fun g i =>
      set_slab s ax g i (sdiv (zsub (fld (i + 1)) (fld (i - 1))) (qz 2 * h)))
    (seq 1 (n - 2)) g in                                                       (* 66-76 *)
  let g := set_slab s ax g 0 (sdiv (zsub (fld 1) (fld 0)) h) in                (* 79-85 *)
  set_slab s ax g (n - 1) (sdiv (zsub (fld (n - 1)) (fld (n - 2))) h).         (* 88-94 *)

(** 96-131: non-uniform spacing *)
Definition nonuniform (s : list nat) (ax : nat) (f : list Qc) (ds : list Qc) (g : list Qc) : list Qc :=
  let n := len s ax in
  let fld := slab s ax f in
  let d i := nth i ds q0 in
  fold_left (fun g i =>
    set_slab s ax g i
      (if i =? 0 then sdiv (zsub (fld 1) (fld i)) (d 1%nat - d 0%nat)                  (* 102-108 *)
       else if i =? n - 1 then sdiv (zsub (fld i) (fld (i - 1))) (d i - d (i - 1)%nat)  (* 109-115 *)
       else let h1 := (d i - d (i - 1)%nat)%Qc in                                  (* 123-131 *)
            let h2 := (d (i + 1)%nat - d i)%Qc in
            zadd (zadd (smul (- h2 / (h1 * (h1 + h2))) (fld (i - 1)))
                       (smul ((h2 - h1) / (h1 * h2)) (fld i)))
                 (smul (h1 / (h2 * (h1 + h2))) (fld (i + 1)))))
    (seq 0 n) g.

Definition calculate_gradient (field coordinates : array) (axis : Z) (radius : option Qc) : option array :=
  match axis_of (length (shape field)) axis with
  | None => None
  | Some ax =>
    let s := shape field in
    if negb (length (data coordinates) =? len s ax) then None else              (* 35-38 *)
    match shape coordinates with
    | _ :: nil =>
      let ds := match radius with Some r => map (to_distance r) (data coordinates)
                                | None => data coordinates end in              (* 41-46 *)
      let g := repeat q0 (length (data field)) in                              (* 49 *)
      if len s ax <? 2 then Some {| shape := s; data := g |} else              (* 52-53 *)
      let dx := diff ds in                                                     (* 60 *)
      let h := nth 0 dx q0 in
      Some {| shape := s;
              data := if allclose dx h then uniform s ax (data field) h g
                      else nonuniform s ax (data field) ds g |}
    | _ => nd field coordinates axis
    end
  end.

(** 136-153 *)
Definition calculate_meridional_gradient (field latitudes : array) (lat_axis : Z) (radius : Qc) : option array :=
  calculate_gradient field latitudes lat_axis (Some radius).
(** 156-169 *)
Definition calculate_vertical_gradient (field pressure : array) (pressure_axis : Z) : option array :=
  calculate_gradient field pressure pressure_axis None.

(** ** calculate_zonal_gradient (172-238); longitudes and latitudes are
    one-dimensional, [cos] is the cosine of an angle in radians, [cast] the
    conversion to the data type of the field (identity for floating point). *)
Variable cos : Qc -> Qc.
Variable cast : Qc -> Qc.
(** np.radians *)
Definition radians (x : Qc) : Qc := (x * np_pi / qz 180)%Qc.
(** idx[lat_axis] = i: the remaining array, IndexError when i is too large *)
Definition take (a : array) (ax i : nat) : option array :=
  if i <? len (shape a) ax
  then Some {| shape := firstn ax (shape a) ++ skipn (S ax) (shape a); data := slab (shape a) ax (data a) i |} else None.

Definition calculate_zonal_gradient (field : array) (longitudes latitudes : list Qc)
    (lon_axis lat_axis : Z) (radius : Qc) : option array :=
  let cos_lat := map (fun p => cos (radians p)) latitudes in                   (* 194 *)
  let ndim := length (shape field) in
  if ((ndim =? 4) || (ndim =? 3)) && (lon_axis =? -1)%Z && (lat_axis =? -2)%Z then   (* 197, 208 *)
    let effective_distances :=                                                 (* 199-202, 209-210 *)
      {| shape := repeat 1 (ndim - 2) ++ [length latitudes; length longitudes];
         data := flat_map (fun c => map (fun l => (radians l * radius * c)%Qc) longitudes) cos_lat |} in
    calculate_gradient field effective_distances lon_axis (Some 1%Qc)          (* 205, 211 *)
  else
    match axis_of ndim lat_axis with                                           (* 215-217 *)
    | None => None
    | Some la =>
      let effective_longitudes := map (fun l => (radians l * radius)%Qc) longitudes in  (* 220 *)
      let result := repeat q0 (length (data field)) in                         (* 223 *)
      option_map (fun d => {| shape := shape field; data := d |})
        (fold_left (fun acc i => match acc with                                (* 226-236 *)
           | None => None
           | Some d =>
             match take field la i with
             | None => None
             | Some sub =>
               let dist := {| shape := [length longitudes];
                              data := map (fun l => (l * nth i cos_lat q0)%Qc) effective_longitudes |} in  (* 231 *)
               match calculate_gradient sub dist lon_axis (Some 1%Qc) with
               | None => None
               | Some g => Some (set_slab (shape field) la d i (map cast (data g)))
               end
             end
           end) (seq 0 (length latitudes)) (Some result))
    end.
End Grad.
