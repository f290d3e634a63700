(** The growth-rate model over the reals, with cos and acos(-1)/180 = PI/180
    (growth_rate_kernels.f90:396-402). *)
From Coq Require Import Reals.
From Verif Require Import Base GB_Model.
Definition Rops : fops R :=
  {| fz := IZR; fadd := Rplus; fsub := Rminus; fmul := Rmult; fdiv := Rdiv; fopp := Ropp;
     fleb := fun a b => if Rle_dec a b then true else false |}.
(** growth_rate_kernels.f90:371-457 *)
Definition barot_kernel tiny qz lat u := dbarot_growth_rate_1d Rops cos (PI / 180)%R tiny qz lat u.
(** growth_rate_kernels.f90:488-610 *)
Definition baroc_kernel tiny qz u theta p t f beta window mode count len :=
  dbaroc_growth_rate_1d Rops PI tiny qz u theta p t f beta window mode count len.
(** core.py:508-523 *)
Definition barot_call tiny qz u lat := barot_growth_rate Rops cos (PI / 180)%R tiny qz u lat.
