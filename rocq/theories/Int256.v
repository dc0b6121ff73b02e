(** Model of shell_encryption/int256.h and int256.cc.

    A uint256 is a pair of 128-bit words. Every 128-bit operation is reduced
    explicitly modulo 2^128 ([w128]). Conversions to floating point are in
    Int256Float.v. The compound assignments read [b] only before the words they
    write are changed, so [a op= a] needs no separate model. *)
From Verif Require Import Base.

Definition w128 (x : Z) : Z := wrap 128 x.

(** int256.h:134-143: hi_ and lo_ *)
Record u256 := mk256 { u_hi : Z; u_lo : Z }.

(** int256.h:204-226: the constructors uint256(top, bottom), uint256(bottom) for
    unsigned types, and uint256(int), which sign-extends *)
Definition u_make (top bottom : Z) : u256 := mk256 top bottom.
Definition u_of_unsigned (bottom : Z) : u256 := mk256 0 bottom.
Definition u_of_int (bottom : Z) : u256 := mk256 (if bottom <? 0 then w128 (-1) else 0) (w128 bottom).

(** int256.h:147-150: Uint256Max *)
Definition u_max : u256 := mk256 (2 ^ 128 - 1) (2 ^ 128 - 1).

(** int256.h:250-310: conversion to a w-bit unsigned type, and to bool *)
Definition u_to_unsigned (w : Z) (x : u256) : Z := wrap w (u_lo x).
Definition u_to_bool (x : u256) : bool := negb (u_lo x =? 0) || negb (u_hi x =? 0).

(** int256.h:189-202: == and != *)
Definition u_eqb (x y : u256) : bool := (u_lo x =? u_lo y) && (u_hi x =? u_hi y).

(** int256.h:330-352: <, >, >=, <= *)
Definition u_cmp (op : Z -> Z -> bool) (x y : u256) : bool :=
  if u_hi x =? u_hi y then op (u_lo x) (u_lo y) else op (u_hi x) (u_hi y).
Definition u_ltb := u_cmp Z.ltb.
Definition u_gtb := u_cmp Z.gtb.
Definition u_geb := u_cmp Z.geb.
Definition u_leb := u_cmp Z.leb.

(** int256.h:356-370: unary minus *)
Definition u_neg (x : u256) : u256 :=
  let hi_flip := w128 (Z.lnot (u_hi x)) in
  let lo_flip := w128 (Z.lnot (u_lo x)) in
  let lo_add := w128 (lo_flip + 1) in
  if lo_add <? lo_flip then mk256 (w128 (hi_flip + 1)) lo_add else mk256 hi_flip lo_add.

(** int256.h:372-380: operator! *)
Definition u_not (x : u256) : bool := (u_hi x =? 0) && (u_lo x =? 0).

(** int256.h:384-425: ~, |, &, ^ and the assigning versions *)
Definition u_compl (x : u256) : u256 := mk256 (w128 (Z.lnot (u_hi x))) (w128 (Z.lnot (u_lo x))).
Definition u_or (x y : u256) : u256 := mk256 (Z.lor (u_hi x) (u_hi y)) (Z.lor (u_lo x) (u_lo y)).
Definition u_and (x y : u256) : u256 := mk256 (Z.land (u_hi x) (u_hi y)) (Z.land (u_lo x) (u_lo y)).
Definition u_xor (x y : u256) : u256 := mk256 (Z.lxor (u_hi x) (u_hi y)) (Z.lxor (u_lo x) (u_lo y)).

(** 128-bit shifts: undefined outside 0..127 *)
Definition shl128 (x s : Z) : result Z := if (s <? 0) || (128 <=? s) then UB else Ok (w128 (x * 2 ^ s)).
Definition shr128 (x s : Z) : result Z := if (s <? 0) || (128 <=? s) then UB else Ok (shr x s).

(** int256.h:441-456: <<= *)
Definition u_shl (x : u256) (amount : Z) : result u256 :=
  if amount <? 128 then
    if negb (amount =? 0) then
      do! h <- shl128 (u_hi x) amount;
      do! c <- shr128 (u_lo x) (128 - amount);
      do! l <- shl128 (u_lo x) amount;
      Ok (mk256 (Z.lor h c) l)
    else Ok x
  else if amount <? 256 then
    do! h <- shl128 (u_lo x) (amount - 128); Ok (mk256 h 0)
  else Ok (mk256 0 0).

(** int256.h:458-473: >>= *)
Definition u_shr (x : u256) (amount : Z) : result u256 :=
  if amount <? 128 then
    if negb (amount =? 0) then
      do! l <- shr128 (u_lo x) amount;
      do! c <- shl128 (u_hi x) (128 - amount);
      do! h <- shr128 (u_hi x) amount;
      Ok (mk256 h (Z.lor l c))
    else Ok x
  else if amount <? 256 then
    do! l <- shr128 (u_hi x) (amount - 128); Ok (mk256 0 l)
  else Ok (mk256 0 0).

Definition b2z (b : bool) : Z := if b then 1 else 0.

(** int256.h:495-500: += *)
Definition u_add (x y : u256) : u256 :=
  let h := w128 (u_hi x + u_hi y) in
  let h := w128 (h + b2z (w128 (u_lo x + u_lo y) <? u_lo x)) in
  mk256 h (w128 (u_lo x + u_lo y)).

(** int256.h:502-507: -= *)
Definition u_sub (x y : u256) : u256 :=
  let h := w128 (u_hi x - u_hi y) in
  let h := w128 (h - b2z (u_lo x <? u_lo y)) in
  mk256 h (w128 (u_lo x - u_lo y)).

(** int256.h:509-544: *= *)
Definition u_mul (x y : u256) : result u256 :=
  let a64 := shr (u_lo x) 64 in
  let a00 := wrap 64 (u_lo x) in
  let b64 := shr (u_lo y) 64 in
  let b00 := wrap 64 (u_lo y) in
  let hi := w128 (w128 (w128 (u_hi x * u_lo y) + w128 (a64 * b64)) + w128 (u_lo x * u_hi y)) in
  let lo := w128 (a00 * b00) in
  let middle_term := u_add (u_of_unsigned (w128 (a64 * b00))) (u_of_unsigned (w128 (a00 * b64))) in
  do! m <- u_shl middle_term 64;
  Ok (u_add (mk256 hi lo) m).

(** int256.h:546-570: ++ and -- (the value left in the object) *)
Definition u_inc (x : u256) : u256 :=
  let lo := w128 (u_lo x + 1) in
  mk256 (if lo =? 0 then w128 (u_hi x + 1) else u_hi x) lo.
Definition u_dec (x : u256) : u256 :=
  mk256 (if u_lo x =? 0 then w128 (u_hi x - 1) else u_hi x) (w128 (u_lo x - 1)).

(** int256.cc:33-39: the STEP macro on a w-bit word *)
Definition fls_step (sh : Z) (st : Z * Z) : Z * Z :=
  let '(n, pos) := st in if 2 ^ sh <=? n then (shr n sh, Z.lor pos sh) else (n, pos).

(** int256.cc:40-49: Fls64 (a non-zero argument is only checked in debug builds) *)
Definition fls64 (n : Z) : Z :=
  let '(n, pos) := fls_step 32 (n, 0) in
  let n32 := wrap 32 n in
  let '(n32, pos) := fls_step 16 (n32, pos) in
  let '(n32, pos) := fls_step 8 (n32, pos) in
  let '(n32, pos) := fls_step 4 (n32, pos) in
  pos + Z.land (shr 0x3333333322221100 (wrap 32 (n32 * 4))) 3.

(** int256.cc:55-61, 65-71: Fls128, Fls256 *)
Definition fls128 (n : Z) : Z :=
  let hi := shr n 64 in if negb (hi =? 0) then fls64 hi + 64 else fls64 (wrap 64 n).
Definition fls256 (n : u256) : Z :=
  if negb (u_hi n =? 0) then fls128 (u_hi n) + 128 else fls128 (u_lo n).

(** int256.cc:118-131: the shift-subtract loop, [cnt] iterations left *)
Fixpoint divmod_loop (cnt : nat) (dividend denominator quotient : u256) : result (u256 * u256) :=
  match cnt with
  | O => Ok (quotient, dividend)
  | S cnt =>
      do! q1 <- u_shl quotient 1;
      let '(dividend, q2) :=
        if u_geb dividend denominator then (u_sub dividend denominator, u_or q1 (u_of_int 1)) else (dividend, q1) in
      do! d1 <- u_shr denominator 1;
      divmod_loop cnt dividend d1 q2
  end.

(** int256.cc:94-134: DivModImpl. [Ok None]: LOG(FATAL), the process ends. *)
Definition u_divmod (dividend divisor : u256) : result (option (u256 * u256)) :=
  if u_eqb divisor (u_of_int 0) then Ok None
  else if u_gtb divisor dividend then Ok (Some (u_of_int 0, dividend))
  else if u_eqb divisor dividend then Ok (Some (u_of_int 1, u_of_int 0))
  else
    let shift := fls256 dividend - fls256 divisor in
    do! denominator <- u_shl divisor shift;
    do! r <- divmod_loop (Z.to_nat (shift + 1)) dividend denominator (u_of_int 0);
    Ok (Some r).

(** int256.cc:136-149: /= and %= *)
Definition u_div (x y : u256) : result (option u256) := rmap (option_map fst) (u_divmod x y).
Definition u_mod (x y : u256) : result (option u256) := rmap (option_map snd) (u_divmod x y).

(** ** Printing. Characters are their ASCII codes. *)

(** int256.cc lines 157-170: the base of the stream *)
Inductive iobase := Dec | Hex | Oct.
Definition base_of (b : iobase) : Z := match b with Dec => 10 | Hex => 16 | Oct => 8 end.

(** The state of the output stream that the function looks at *)
Record ioflags := { io_base : iobase; io_showbase : bool; io_upper : bool; io_left : bool; io_width : Z; io_fill : Z }.

(** int256.cc lines 188-208: a digit as printed by operator<< of absl::uint128 (absl, not in the repository) *)
Definition digit_char (upper : bool) (d : Z) : Z := if d <? 10 then 48 + d else if upper then 55 + d else 87 + d.

(** Digits of an unsigned number, most significant first: what operator<< of
    absl::uint128 prints (absl, not in the repository). 43 digits are enough
    for 128 bits in base 8. *)
Fixpoint udigits (fuel : nat) (b v : Z) : list Z :=
  match fuel with
  | O => []
  | S fuel => if v <? b then [v] else udigits fuel b (v / b) ++ [v mod b]
  end.

Definition prefix (showbase upper : bool) (b : iobase) (v : Z) : list Z :=
  if negb showbase || (v =? 0) then []
  else match b with Hex => [48; if upper then 88 else 120] | Oct => [48] | Dec => [] end.

Definition pad_left (width fill : Z) (s : list Z) : list Z := repeat fill (Z.to_nat (width - Z.of_nat (length s))) ++ s.

(** operator<< of absl::uint128 on the local ostringstream (right-adjusted) *)
Definition print128 (showbase upper : bool) (b : iobase) (width : Z) (v : Z) : list Z :=
  pad_left width 48 (prefix showbase upper b v ++ map (digit_char upper) (udigits 43 (base_of b) v)).

(** int256.cc:155-169: the chunk divisor and its number of digits *)
Definition chunk_div (b : iobase) : Z := match b with Hex => 2 ^ 60 | Oct => 2 ^ 63 | Dec => 10 ^ 19 end.
Definition chunk_log (b : iobase) : Z := match b with Hex => 15 | Oct => 21 | Dec => 19 end.

(** int256.cc:188-207: one "print |= chunk != 0; if (print) ..." step on
    (printed so far, print, showbase still set, pending width) *)
Definition chunk_step (upper : bool) (b : iobase) (st : list Z * bool * bool * Z) (chunk : Z) : list Z * bool * bool * Z :=
  let '(os, print, show, width) := st in
  let print := print || negb (chunk =? 0) in
  if print then (os ++ print128 show upper b width chunk, print, false, chunk_log b) else (os, print, show, width).

(** int256.cc:151-223: operator<<(ostream, uint256): the characters written *)
Definition u_print (f : ioflags) (x : u256) : result (option (list Z)) :=
  let b := io_base f in
  let div := u_of_unsigned (chunk_div b) in
  do! r1 <- u_divmod x div;
  match r1 with None => Ok None | Some (high, low) =>
  do! r2 <- u_divmod high div;
  match r2 with None => Ok None | Some (high, mid_low) =>
  do! r3 <- u_divmod high div;
  match r3 with None => Ok None | Some (high, mid_mid) =>
  do! r4 <- u_divmod high div;
  match r4 with None => Ok None | Some (high, mid_high) =>
  let st := fold_left (chunk_step (io_upper f) b) [u_lo high; u_lo mid_high; u_lo mid_mid; u_lo mid_low]
              ([], false, io_showbase f, 0) in
  let '(os, _, show, width) := st in
  let rep := os ++ print128 show (io_upper f) b width (u_lo low) in
  let w := io_width f - Z.of_nat (length rep) in
  Ok (Some (if Z.of_nat (length rep) <? io_width f then
    if io_left f then rep ++ repeat (io_fill f) (Z.to_nat w) else repeat (io_fill f) (Z.to_nat w) ++ rep
  else rep))
  end end end end.
