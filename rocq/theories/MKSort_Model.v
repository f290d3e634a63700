(** Model of the in-place sorting and selection kernels of
    src/skyborn/calc/mann_kendall/fortran/mann_kendall_core.f90.

    The real-valued and the index-valued versions are the same program up to
    the value that is compared ([values(i)] versus [values(indices(i))]) and
    the threshold, so the model is written once over a comparison key
    [key : A -> Qc] and instantiated twice.  Every buffer read goes through
    [rd], which is [None] out of bounds; the reads made while partitioning go
    through [rdw], which is [None] outside the active window; and every loop
    carries fuel.  So a result [Some _] also says: no out-of-bounds read, no
    read outside the window being partitioned, and termination. *)
From Verif Require Import Base Buffer.
Set Implicit Arguments.
Local Open Scope nat_scope.

(** mann_kendall_core.f90:48-68 [median_of_three]. *)
Definition median_of_three (a b c : Qc) : Qc :=
  if (a <? b)%Qc then
    if (b <? c)%Qc then b else if (a <? c)%Qc then c else a
  else
    if (a <? c)%Qc then a else if (b <? c)%Qc then c else b.

Section Keyed.
Variable A : Type.
Variable key : A -> Qc.

(** Inner loop of [insertion_sort_real] (81-97, lines 91-95) and of
    [insertion_sort_index] (178-196, lines 190-194):
    [do while (j >= left .and. values(j) > current)].
    Simplification: the [.and.] is taken as short-circuiting (Fortran leaves
    the evaluation order open). *)
Fixpoint ins_shift (a : list A) (left j : nat) (cur : A) : option (list A) :=
  match j with
  | O => Some (wr a 1 cur)
  | S j' =>
      if left <=? j then
        match rd a j with
        | None => None
        | Some v =>
            if (key cur <? key v)%Qc
            then ins_shift (wr a (j + 1) v) left j' cur
            else Some (wr a (j + 1) cur)
        end
      else Some (wr a (j + 1) cur)
  end.

(** Outer loop of the insertion sorts, lines 88-96 / 186-195:
    [do i = left + 1, right]; [cnt] counts the remaining iterations. *)
Fixpoint ins_outer (cnt : nat) (a : list A) (left i : nat) : option (list A) :=
  match cnt with
  | O => Some a
  | S c =>
      match rd a i with
      | None => None
      | Some cur =>
          match ins_shift a left (i - 1) cur with
          | None => None
          | Some a' => ins_outer c a' left (i + 1)
          end
      end
  end.

(** mann_kendall_core.f90:81-97 [insertion_sort_real], 178-196
    [insertion_sort_index]. *)
Definition insertion_sort (a : list A) (left right : nat) : option (list A) :=
  ins_outer (right - left) a left (left + 1).

(** Lines 128-130 / 226-228 / 309-311: [do while (values(i) < pivot) i = i + 1]. *)
Fixpoint scan_up (fuel lo hi : nat) (a : list A) (p : Qc) (i : nat) : option nat :=
  match fuel with
  | O => None
  | S f =>
      match rdw a lo hi i with
      | None => None
      | Some v => if (key v <? p)%Qc then scan_up f lo hi a p (i + 1) else Some i
      end
  end.

(** Lines 132-134 / 230-232 / 313-315: [do while (values(j) > pivot) j = j - 1]. *)
Fixpoint scan_down (fuel lo hi : nat) (a : list A) (p : Qc) (j : nat) : option nat :=
  match fuel with
  | O => None
  | S f =>
      match rdw a lo hi j with
      | None => None
      | Some v => if (p <? key v)%Qc then scan_down f lo hi a p (j - 1) else Some j
      end
  end.

(** Lines 127-145 / 225-243 / 308-326: the partition loop. *)
Fixpoint part_loop (fuel lo hi : nat) (a : list A) (p : Qc) (i j : nat)
  : option (list A * nat * nat) :=
  match fuel with
  | O => None
  | S f =>
      match scan_up (S (length a)) lo hi a p i with
      | None => None
      | Some i1 =>
          match scan_down (S (length a)) lo hi a p j with
          | None => None
          | Some j1 =>
              if i1 <=? j1 then
                let a' := swap a i1 j1 in
                let i2 := i1 + 1 in
                let j2 := j1 - 1 in
                if j2 <? i2 then Some (a', i2, j2) else part_loop f lo hi a' p i2 j2
              else Some (a, i1, j1)
          end
      end
  end.

(** mann_kendall_core.f90:113-149 [quicksort_real] ([thr] = 32) and 210-247
    [quicksort_index] ([thr] = 16). *)
Fixpoint quicksort (fuel thr : nat) (a : list A) (left right : nat) : option (list A) :=
  match fuel with
  | O => None
  | S f =>
      if right - left <=? thr then Some a else
      match rd a (left + (right - left) / 2) with
      | None => None
      | Some pv =>
          match part_loop (S (length a)) left right a (key pv) left right with
          | None => None
          | Some (a1, i, j) =>
              match (if left <? j then quicksort f thr a1 left j else Some a1) with
              | None => None
              | Some a2 =>
                  if i <? right then quicksort f thr a2 i right else Some a2
              end
          end
      end
  end.

(** mann_kendall_core.f90:158-164 [sort_real_inplace] and the sorting part of
    261-275 [sort_indices_by_values]. *)
Definition sort_inplace (thr : nat) (a : list A) : option (list A) :=
  if length a <=? 1 then Some a else
  match quicksort (S (length a)) thr a 1 (length a) with
  | None => None
  | Some a' => insertion_sort a' 1 (length a)
  end.

(** mann_kendall_core.f90:303-335, the narrowing loop of [select_kth_real]
    (threshold [thr] = 16 in the code).  [inl a] is the early [return],
    [inr (a, left, right)] the normal loop exit. *)
Fixpoint select_loop (fuel thr : nat) (a : list A) (left right k : nat)
  : option (list A + list A * nat * nat) :=
  match fuel with
  | O => None
  | S f =>
      if thr <? right - left then
        match rd a left, rd a (left + (right - left) / 2), rd a right with
        | Some x, Some y, Some z =>
            match part_loop (S (length a)) left right a (median_of_three (key x) (key y) (key z)) left right with
            | None => None
            | Some (a1, i, j) =>
                if k <=? j then select_loop f thr a1 left j k
                else if i <=? k then select_loop f thr a1 i right k
                else Some (inl a1)
            end
        | _, _, _ => None
        end
      else Some (inr (a, left, right))
  end.

(** mann_kendall_core.f90:292-338 [select_kth_real]. *)
Definition select_kth_keyed (thr : nat) (a : list A) (k : nat) : option (list A) :=
  match select_loop (S (length a)) thr a 1 (length a) k with
  | None => None
  | Some (inl a') => Some a'
  | Some (inr (a', lo, hi)) => insertion_sort a' lo hi
  end.
End Keyed.

(** mann_kendall_core.f90:158-164 with [insertion_threshold] = 32 (line 117). *)
Definition sort_real_inplace (a : list Qc) : option (list Qc) :=
  sort_inplace (fun x => x) 32 a.

(** mann_kendall_core.f90:261-275 with threshold 16 (line 215): the indices
    1..n sorted by [values].  An index outside [values] would compare as 0;
    the theorems show the indices stay in 1..n. *)
Definition sort_indices_by_values (values : list Qc) (n : nat) : option (list nat) :=
  sort_inplace (fun i => match rd values i with Some v => v | None => 0%Qc end) 16 (seq 1 n).

(** mann_kendall_core.f90:292-338 with threshold 16 (line 296). *)
Definition select_kth_real (a : list Qc) (k : nat) : option (list Qc) :=
  select_kth_keyed (fun x => x) 16 a k.
