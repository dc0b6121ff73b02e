(** Model of /repo/shell_encryption/bits_util.h. *)
From Verif Require Import Base.

(** bits_util.h lines 28-40. [Uint8] arithmetic; no step can overflow 8 bits
    before the truncation of the assignment, written as [wrap 8]. *)
Definition count_ones_in_byte (x : Z) : Z :=
  let x0 := Z.land x 0x55 in
  let x1 := Z.land (Z.shiftr x 1) 0x55 in
  let x := wrap 8 (x0 + x1) in
  let x0 := Z.land x 0x33 in
  let x1 := Z.land (Z.shiftr x 2) 0x33 in
  let x := wrap 8 (x0 + x1) in
  let x0 := Z.land x 0x0F in
  let x1 := Z.land (Z.shiftr x 4) 0x0F in
  x0 + x1.

(** bits_util.h lines 42-66. *)
Definition count_ones_64 (x : Z) : Z :=
  let x0 := Z.land x 0x5555555555555555 in
  let x1 := Z.land (Z.shiftr x 1) 0x5555555555555555 in
  let x := wrap 64 (x0 + x1) in
  let x0 := Z.land x 0x3333333333333333 in
  let x1 := Z.land (Z.shiftr x 2) 0x3333333333333333 in
  let x := wrap 64 (x0 + x1) in
  let x0 := Z.land x 0x0F0F0F0F0F0F0F0F in
  let x1 := Z.land (Z.shiftr x 4) 0x0F0F0F0F0F0F0F0F in
  let x := wrap 64 (x0 + x1) in
  let x0 := Z.land x 0x00FF00FF00FF00FF in
  let x1 := Z.land (Z.shiftr x 8) 0x00FF00FF00FF00FF in
  let x := wrap 64 (x0 + x1) in
  let x0 := Z.land x 0x0000FFFF0000FFFF in
  let x1 := Z.land (Z.shiftr x 16) 0x0000FFFF0000FFFF in
  let x := wrap 64 (x0 + x1) in
  let x0 := Z.land x 0x00000000FFFFFFFF in
  let x1 := Z.land (Z.shiftr x 32) 0x00000000FFFFFFFF in
  wrap 32 (wrap 64 (x0 + x1)).

(** One "if (x >> s) { zeros -= s; x >>= s; }" of bits_util.h lines 70-93. *)
Definition clz_step (s : Z) (st : Z * Z) : Z * Z :=
  let '(zeros, x) := st in
  if shr x s =? 0 then (zeros, x) else (zeros - s, shr x s).

(** bits_util.h lines 68-95. *)
Definition count_leading_zeros_64 (x : Z) : Z :=
  let st := (64, x) in
  let st := clz_step 32 st in
  let st := clz_step 16 st in
  let st := clz_step 8 st in
  let st := clz_step 4 st in
  let st := clz_step 2 st in
  let st := clz_step 1 st in
  wrap 32 (fst st - snd st).

(** bits_util.h lines 97-100. *)
Definition count_leading_zeros_128 (x : Z) : Z :=
  let hi := shr x 64 in
  if hi =? 0 then count_leading_zeros_64 (wrap 64 x) + 64
  else count_leading_zeros_64 hi.

(** bits_util.h lines 102-104. *)
Definition bit_length (x : Z) : Z := 128 - count_leading_zeros_128 x.
