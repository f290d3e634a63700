(** Model of src/skyborn/interp/fortran/linmsg_dp.f90.  Numbers are exact
    rationals, [xmsg] the missing-value sentinel; the outer [option] is [None]
    on an access outside the series (or when the fuel of a while loop runs out). *)
From Verif Require Import Base Buffer Loops VH_Model.
Local Open Scope nat_scope.

(** an array section assignment x(a:b) = v, e.g. linmsg_dp.f90:61 *)
Definition set_range (x : list Qc) (a b : nat) (v : Qc) : option (list Qc) :=
  foldM (fun x k => wrx x k v) (seq a (b + 1 - a)) x.

(** linmsg_dp.f90:68-70 *)
Definition fill_line (x : list Qc) (nbase nstrt nend : nat) (slope : Qc) : option (list Qc) :=
  foldM (fun x nn => let* xb := rd x nbase in wrx x nn (xb + slope * qz (Z.of_nat (nn - nbase)))%Qc) (seq nstrt (nend + 1 - nstrt)) x.

(** linmsg_dp.f90:49-79: one iteration; the state is (x, nstrt, nend, seen_valid) *)
Definition linmsg_step (xmsg : Qc) (mflag : Z) (nptcrt : Z) (st : list Qc * (nat * (nat * bool))) (n : nat)
    : option (list Qc * (nat * (nat * bool))) :=
  let '(x, (nstrt, (nend, seen_valid))) := st in
  let* xn := rd x n in
  if Qceqb xn xmsg then Some (x, (if nstrt =? 0 then n else nstrt, (n, seen_valid)))
  else if nstrt =? 0 then Some (x, (nstrt, (nend, true)))
  else
    let* x :=
      if (Z.of_nat nend - Z.of_nat nstrt + 1 <=? nptcrt)%Z then
        if nstrt =? 1 then
          if (mflag <? 0)%Z then set_range x nstrt nend xn else set_range x nstrt nend xmsg
        else
          let nbase := nstrt - 1 in
          let* xb := rd x nbase in
          fill_line x nbase nstrt nend ((xn - xb) / qz (Z.of_nat (n - nbase)))%Qc
      else Some x in
    Some (x, (0, (0, true))).

(** linmsg_dp.f90:35-90 *)
Definition dlinmsg (x : list Qc) (xmsg : Qc) (mflag mptcrt : Z) : option (list Qc) :=
  let npts := length x in
  let* st := foldM (linmsg_step xmsg mflag (Z.abs mptcrt)) (seq 1 npts) (x, (0, (0, false))) in
  let '(x, (nstrt, (nend, seen_valid))) := st in
  if negb (nstrt =? 0) && (nend =? npts) then
    if negb seen_valid then Some x
    else if (mflag <? 0)%Z then let* v := rd x (nstrt - 1) in set_range x nstrt npts v
    else set_range x nstrt npts xmsg
  else Some x.

(** linmsg_dp.f90:118-120: the inner while loop; returns the final [n].  Fortran
    may read x(npts+1) when [n <= npts] is false; the value is not used. *)
Fixpoint skip_missing (fuel : nat) (x : list Qc) (xmsg : Qc) (n : nat) : option nat :=
  match fuel with
  | O => None
  | S fuel =>
      if length x <? n then Some n
      else let* xn := rd x n in
           if Qceqb xn xmsg then skip_missing fuel x xmsg (n + 1) else Some n
  end.
(** linmsg_dp.f90:110-137: the outer while loop *)
Fixpoint short_gaps_loop (fuel : nat) (x : list Qc) (xmsg : Qc) (n : nat) : option (list Qc) :=
  match fuel with
  | O => None
  | S fuel =>
      let npts := length x in
      if n <=? npts - 1 then
        let* xn := rd x n in
        if negb (Qceqb xn xmsg) then short_gaps_loop fuel x xmsg (n + 1)
        else
          let gap_start := n in
          let* n := skip_missing (npts + 1) x xmsg n in
          let gap_len := n - gap_start in
          if (npts <? n) || (2 <? gap_len) then short_gaps_loop fuel x xmsg n
          else
            let* left := rd x (gap_start - 1) in
            let* right := rd x n in
            if Qceqb left xmsg || Qceqb right xmsg then short_gaps_loop fuel x xmsg n
            else if gap_len =? 1 then
              let* x := wrx x gap_start (dec 5 10 * (left + right))%Qc in
              short_gaps_loop fuel x xmsg n
            else
              let step := ((right - left) / qz 3)%Qc in
              let* x := wrx x gap_start (left + step)%Qc in
              let* x := wrx x (gap_start + 1) (left + qz 2 * step)%Qc in
              short_gaps_loop fuel x xmsg n
      else Some x
  end.
(** linmsg_dp.f90:102-139; the while loop ends within [npts + 1] tests *)
Definition dlinmsg_interior_short_gaps (x : list Qc) (xmsg : Qc) : option (list Qc) :=
  if length x <=? 2 then Some x else short_gaps_loop (length x + 1) x xmsg 2.
