(** Model of one-dimensional pressure interpolation:
    - src/skyborn/interp/fortran/int2p_kernels.f90 (whole file)
    - src/skyborn/interp/interpolation.py [interp_pressure_1d] (lines 327-587,
      numerical part 435-587; keyword aliases and xarray wrapping are not modelled).

    Numbers are exact rationals.  [log] is an argument [lg]; what the theorems
    need of it (strictly increasing on positive numbers) is a hypothesis there.
    A Python-level value is [option Qc], [None] standing for NaN/inf.
    The outer [option]: [None] is an exception of the wrapper, or, in the kernel,
    a read out of bounds or a search that does not end. *)
From Verif Require Import Base Buffer Loops.
Local Open Scope nat_scope.

(** interpolation.py:73 [np.finfo(np.float64).max] = (2^53 - 1) * 2^971 *)
Definition spvl : Qc := qz ((2 ^ 53 - 1) * 2 ^ 971).

(** int2p_kernels.f90:28-36 *)
Definition is_increasing (v : list Qc) : option bool :=
  if length v <? 2 then Some false
  else match rd v 1, rd v 2 with
       | Some a, Some b => Some (Qcltb a b)
       | _, _ => None
       end.

(** int2p_kernels.f90:39-54: [target(idx) = source(n - idx + 1)] for all idx *)
Definition copy_descending {A : Type} (source : list A) (reverse_input : bool) : list A :=
  if reverse_input then rev source else source.

(** int2p_kernels.f90:57-72; the two output prefixes of length [nvalid] *)
Fixpoint compact_valid_levels (p_in x_in : list Qc) (xmsg : Qc) : list Qc * list Qc :=
  match p_in, x_in with
  | p :: ps, x :: xs =>
      let (pv, xv) := compact_valid_levels ps xs xmsg in
      if negb (Qceqb p xmsg) && negb (Qceqb x xmsg) then (p :: pv, x :: xv) else (pv, xv)
  | _, _ => ([], [])
  end.

(** int2p_kernels.f90:84-96 *)
Fixpoint exact_loop (fuel : nat) (target : Qc) (levels : list Qc) (low high : nat) : option nat :=
  match fuel with
  | O => None
  | S f =>
      if low <=? high then
        let mid := low + (high - low) / 2 in
        match rd levels mid with
        | None => None
        | Some lm =>
            if Qceqb target lm then Some mid
            else if Qcltb lm target then exact_loop f target levels low (mid - 1)
            else exact_loop f target levels (mid + 1) high
        end
      else Some 0
  end.

(** int2p_kernels.f90:75-97 *)
Definition locate_exact_match_desc (target : Qc) (levels : list Qc) : option nat :=
  exact_loop (length levels + 1) target levels 1 (length levels).

(** int2p_kernels.f90:115-130 *)
Fixpoint interval_loop (fuel : nat) (target : Qc) (levels : list Qc) (low high : nat) : option nat :=
  match fuel with
  | O => None
  | S f =>
      if low <=? high then
        let mid := low + (high - low) / 2 in
        match rd levels mid, rd levels (mid + 1) with
        | Some p_hi, Some p_lo =>
            if Qcltb target p_hi && Qcltb p_lo target then Some mid
            else if Qcltb p_hi target then interval_loop f target levels low (mid - 1)
            else interval_loop f target levels (mid + 1) high
        | _, _ => None
        end
      else Some 0
  end.

(** int2p_kernels.f90:100-131 *)
Definition locate_interval_desc (target : Qc) (levels : list Qc) : option nat :=
  if length levels <? 2 then Some 0
  else match rd levels 1, rd levels (length levels) with
       | Some first, Some last =>
           if Qcleb first target || Qcleb target last then Some 0
           else interval_loop (length levels + 1) target levels 1 (length levels - 1)
       | _, _ => None
       end.

Section Kernel.
Variable lg : Qc -> Qc.

(** int2p_kernels.f90:134-140 *)
Definition interpolate_linear (x_hi x_lo p_target p_hi p_lo : Qc) : Qc :=
  (x_lo + ((x_hi - x_lo) / (p_hi - p_lo)) * (p_target - p_lo))%Qc.

(** int2p_kernels.f90:143-150 *)
Definition interpolate_log (x_hi x_lo p_target p_hi p_lo : Qc) : Qc :=
  (x_lo + ((x_hi - x_lo) / (lg p_hi - lg p_lo)) * (lg p_target - lg p_lo))%Qc.

(** int2p_kernels.f90:153-163 *)
Definition extrapolate_log_low_compat (x_hi x_lo p_target p_hi p_lo : Qc) : Qc :=
  (x_lo + ((x_lo - x_hi) / (lg p_lo - lg p_hi)) * (lg p_target - lg p_hi))%Qc.

(** int2p_kernels.f90:166-177 *)
Definition interpolate_value (x_hi x_lo p_target p_hi p_lo : Qc) (loglin : Z) : Qc :=
  if (loglin =? 1)%Z then interpolate_linear x_hi x_lo p_target p_hi p_lo
  else interpolate_log x_hi x_lo p_target p_hi p_lo.

(** reading the four values of two neighbouring levels [i], [i+1] *)
Definition at_pair (p_valid x_valid : list Qc) (i : nat) (k : Qc -> Qc -> Qc -> Qc -> Qc) : option Qc :=
  match rd x_valid i, rd x_valid (i + 1), rd p_valid i, rd p_valid (i + 1) with
  | Some xh, Some xl, Some ph, Some pl => Some (k xh xl ph pl)
  | _, _, _, _ => None
  end.

(** int2p_kernels.f90:223-264, one pass of the target loop: the value left in
    [xout_desc(idx)], which starts as [xmsg] (line 221) *)
Definition one_target (p_valid x_valid : list Qc) (linlog : Z) (xmsg t : Qc) : option Qc :=
  let loglin := Z.abs linlog in
  let nvalid := length p_valid in
  if Qceqb t xmsg then Some xmsg
  else match locate_exact_match_desc t p_valid with
  | None => None
  | Some (S e) => rd x_valid (S e)
  | Some O =>
      match rd p_valid 1, rd p_valid nvalid with
      | Some first, Some last =>
          if Qcltb first t then
            if (linlog <? 0)%Z then
              at_pair p_valid x_valid 1 (fun xh xl ph pl => interpolate_value xh xl t ph pl loglin)
            else Some xmsg
          else if Qcltb t last then
            if (linlog <? 0)%Z then
              at_pair p_valid x_valid (nvalid - 1) (fun xh xl ph pl =>
                if (loglin =? 1)%Z then interpolate_value xh xl t ph pl loglin
                else extrapolate_log_low_compat xh xl t ph pl)
            else Some xmsg
          else match locate_interval_desc t p_valid with
               | None => None
               | Some O => Some xmsg
               | Some (S i) =>
                   at_pair p_valid x_valid (S i) (fun xh xl ph pl => interpolate_value xh xl t ph pl loglin)
               end
      | _, _ => None
      end
  end.

(** the loop 222-265 over all targets; the passes are independent, each writing
    only its own [xout_desc(idx)] *)
Fixpoint all_targets (p_valid x_valid : list Qc) (linlog : Z) (xmsg : Qc) (ts : list Qc) : option (list Qc) :=
  match ts with
  | [] => Some []
  | t :: r =>
      match one_target p_valid x_valid linlog xmsg t, all_targets p_valid x_valid linlog xmsg r with
      | Some v, Some vs => Some (v :: vs)
      | _, _ => None
      end
  end.

(** int2p_kernels.f90:182-274; the result is [(xxout, ier)] *)
Definition dinterp_pressure_1d_impl (ppin xxin ppout : list Qc) (linlog : Z) (xmsg : Qc)
  : option (list Qc * Z) :=
  let npin := length ppin in
  let npout := length ppout in
  if (npin <? 2) || (npout <? 1) then Some (map (fun _ => xmsg) ppout, 1%Z)
  else
    match is_increasing ppin, (if 1 <? npout then is_increasing ppout else Some false) with
    | Some reverse_input, Some reverse_output =>
        let pin_desc := copy_descending ppin reverse_input in
        let xin_desc := copy_descending xxin reverse_input in
        let pout_desc := copy_descending ppout reverse_output in
        let (p_valid, x_valid) := compact_valid_levels pin_desc xin_desc xmsg in
        if length p_valid <? 2 then Some (map (fun _ => xmsg) ppout, 1000%Z)
        else
          match all_targets p_valid x_valid linlog xmsg pout_desc with
          | None => None
          | Some xout_desc => Some (copy_descending xout_desc reverse_output, 0%Z)
          end
    | _, _ => None
    end.

(** ** The Python wrapper *)

(** interpolation.py:447-451, one element of the mask *)
Definition masked (missing_value v : option Qc) : bool :=
  match v with
  | None => true
  | Some q => match missing_value with Some m => Qceqb q m | None => false end
  end.

(** [arr[~mask]] *)
Fixpoint keep {A : Type} (mask : list bool) (l : list A) : list A :=
  match mask, l with
  | b :: bs, x :: xs => if b then keep bs xs else x :: keep bs xs
  | _, _ => []
  end.

(** the finite values in an array; after masking nothing else is left *)
Fixpoint finite (l : list (option Qc)) : list Qc :=
  match l with
  | [] => []
  | Some q :: r => q :: finite r
  | None :: r => finite r
  end.

(** interpolation.py:453-461 [np.all(np.diff(values) > 0)], [np.all(... < 0)] *)
Fixpoint diffs_all (ok : Qc -> Qc -> bool) (l : list Qc) : bool :=
  match l with
  | a :: ((b :: _) as r) => ok a b && diffs_all ok r
  | _ => true
  end.
Definition strict_monotonic (l : list Qc) : bool :=
  diffs_all Qcltb l || diffs_all (fun a b => Qcltb b a) l.

(** interpolation.py:562-568: the working copy with missing replaced by [spvl] *)
Definition with_spvl (missing_value : option Qc) (l : list (option Qc)) : list Qc :=
  map (fun v => if masked missing_value v then spvl
                else match v with Some q => q | None => spvl end) l.

(** interpolation.py:586 [result[~output_missing_mask] = output_valid] *)
Fixpoint scatter (mask : list bool) (missing_out : option Qc) (vals : list (option Qc)) : list (option Qc) :=
  match mask with
  | [] => []
  | true :: bs => missing_out :: scatter bs missing_out vals
  | false :: bs =>
      match vals with
      | v :: vs => v :: scatter bs missing_out vs
      | [] => missing_out :: scatter bs missing_out []
      end
  end.

(** interpolation.py:485-587.  [log_method] is [method == "log"].
    [missing_value = None] stands for Python [None] or NaN. *)
Definition interp_pressure_1d (data source_pressure target_pressure : list (option Qc))
  (log_method extrapolate : bool) (missing_value : option Qc) : option (list (option Qc)) :=
  let linlog := (if log_method then if extrapolate then -2 else 2
                 else if extrapolate then -1 else 1)%Z in
  if negb (length data =? length source_pressure) then None
  else if length target_pressure =? 0 then Some []
  else
    let imask := map (fun '(d, p) => masked missing_value d || masked missing_value p)
                     (combine data source_pressure) in
    let vs := finite (keep imask source_pressure) in
    if length vs <? 2 then None
    else if negb (strict_monotonic vs) then None
    else
      let omask := map (masked missing_value) target_pressure in
      let vt := finite (keep omask target_pressure) in
      if negb (strict_monotonic vt) then None
      else if log_method && negb (forallb (Qcltb 0%Qc) vs && forallb (Qcltb 0%Qc) vt) then None
      else if length vt =? 0 then Some (map (fun _ => missing_value) target_pressure)
      else
        match dinterp_pressure_1d_impl (with_spvl missing_value source_pressure)
                (with_spvl missing_value data) vt linlog spvl with
        | Some (out, ier) =>
            if negb (ier =? 0)%Z then None
            else Some (scatter omask missing_value
                         (map (fun v => if Qceqb v spvl then missing_value else Some v) out))
        | None => None
        end.

End Kernel.
