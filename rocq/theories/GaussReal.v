(** The operations on doubles used by discrete_gaussian.{h,cc}, without the
    rounding: real numbers. Together with Gauss.v this is the sampler as the
    formulas in the code read; rounding errors of double arithmetic are not
    modelled here (the theorems about C42 hold with any rounding). *)
From Coq Require Import Reals.
From Verif Require Import Base Gauss.
Local Open Scope R_scope.

(** discrete_gaussian.cc:57, 92 and 139: < on doubles; line 151: <= *)
Definition Rltb (a b : R) : bool := if Rlt_dec a b then true else false.
Definition Rleb (a b : R) : bool := if Rle_dec a b then true else false.
(** discrete_gaussian.cc:152 and 194: std::floor; lines 68 and 116: std::ceil *)
Definition Rfloor (x : R) : Z := Int_part x.
Definition Rceil (x : R) : Z := (- Int_part (- x))%Z.
(** discrete_gaussian.cc:68, 83, 117, 118, 197 and 198: conversion to an integer type
    drops the fraction *)
Definition Rtrunc (x : R) : Z := if Rle_dec 0 x then Rfloor x else Rceil x.

(** discrete_gaussian.h:58: kSmoothingParameter; discrete_gaussian.cc:57-84,
    115-118, 148-156 and 194-198: the operations *)
Definition reals : fops := {| F := R; f_lt := Rltb; f_le := Rleb;
  f_add := Rplus; f_sub := Rminus; f_mul := Rmult; f_div := Rdiv; f_sqrt := sqrt;
  f_floor := fun x => IZR (Rfloor x); f_ceil := fun x => IZR (Rceil x); f_max := Rmax; f_exp := exp;
  f_of_Z := IZR; f_smoothing := 53349782 / 10000000; f_pi := PI;
  f_to_unsigned := fun k x => if ((0 <=? Rtrunc x) && (Rtrunc x <? 2 ^ k))%Z then Ok (Rtrunc x) else UB;
  f_to_int := fun x => if ((- 2 ^ 31 <=? Rtrunc x) && (Rtrunc x <? 2 ^ 31))%Z then Ok (Rtrunc x) else UB |}.

(** discrete_gaussian.cc:56-87: Create, with exp2(63) *)
Definition create_real (s_base : R) : result (sampler reals) := g_create reals (IZR (2 ^ 63)) s_base.
