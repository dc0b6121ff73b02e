(** Model of the conversions of uint256 to floating point, int256.h lines 313-326,
    with hi_ and lo_ of type unsigned __int128 (ABSL_HAVE_INTRINSIC_INT128).
    All values are non-negative integers, so a floating-point number is an integer
    or infinity. Simplification: arithmetic is IEEE 754, rounding to nearest with
    ties to even and overflowing to infinity (C++ alone leaves the conversion of
    an integer beyond the largest finite value undefined). *)
From Verif Require Import Base Int256.

(** a floating-point type: bits of precision, and the power of two from which
    values are infinite. float, double, and long double of x86. *)
Record ftype := { ft_prec : Z; ft_emax : Z }.
Definition float_type : ftype := {| ft_prec := 24; ft_emax := 128 |}.
Definition double_type : ftype := {| ft_prec := 53; ft_emax := 1024 |}.
Definition long_double_type : ftype := {| ft_prec := 64; ft_emax := 16384 |}.

Inductive fval := Finite (z : Z) | Infinite.

(** IEEE 754 round-to-nearest, ties to even, of an integer to b bits *)
Definition rne (b z : Z) : Z :=
  let e := Z.max 0 (Z.log2 z + 1 - b) in
  let q := z / 2 ^ e in
  let r := z mod 2 ^ e in
  (if 2 * r <? 2 ^ e then q else if 2 ^ e <? 2 * r then q + 1 else if Z.even q then q else q + 1) * 2 ^ e.

(** int256.h lines 316, 320, 324-325: static_cast of a 128-bit word; also the
    rounding of a sum *)
Definition to_float (F : ftype) (z : Z) : fval :=
  let x := rne (ft_prec F) z in if x <? 2 ^ ft_emax F then Finite x else Infinite.

(** int256.h lines 316, 320, 325: std::ldexp of a non-negative value *)
Definition ldexp (F : ftype) (x : fval) (e : Z) : fval :=
  match x with
  | Finite x => if x * 2 ^ e <? 2 ^ ft_emax F then Finite (x * 2 ^ e) else Infinite
  | Infinite => Infinite
  end.

(** int256.h lines 316, 320, 324: the addition *)
Definition fplus (F : ftype) (x y : fval) : fval :=
  match x, y with
  | Finite x, Finite y => to_float F (x + y)
  | _, _ => Infinite
  end.

(** int256.h lines 315-326: operator float, operator double, operator long double *)
Definition u_to_float (F : ftype) (x : u256) : fval :=
  fplus F (to_float F (u_lo x)) (ldexp F (to_float F (u_hi x)) 128).
