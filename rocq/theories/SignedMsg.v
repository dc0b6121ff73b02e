(** Model of the signed messages of rns/finite_field_encoder.h: WrapSigned and
    UnwrapToSigned, for a SignedInteger of [s] bits (8 to 64) and an Integer of
    [k] bits (16 to 128). *)
From Verif Require Import Base.

(** finite_field_encoder.h lines 229-240: the value of static_cast to a signed
    type of [w] bits (two's complement, as all supported compilers and C++20 do) *)
Definition to_signed (w x : Z) : Z := (x + 2 ^ (w - 1)) mod 2 ^ w - 2 ^ (w - 1).

(** finite_field_encoder.h lines 219-220 and 236-238: the type in which a
    SignedInteger and an Integer meet. Types narrower than int are promoted to
    int; a promoted unsigned type at least as wide as the signed one wins,
    otherwise the signed one does. *)
Inductive meet := Unsigned (w : Z) | Signed (w : Z).
Definition common (s k : Z) : meet :=
  let s := Z.max s 32 in
  if k <? 32 then Signed s else if s <=? k then Unsigned k else Signed s.

(** finite_field_encoder.h lines 219-220 and 236-238: an operand, or the exact
    result of + and -, in the common type: signed overflow is undefined *)
Definition into (c : meet) (x : Z) : result Z :=
  match c with
  | Unsigned w => Ok (wrap w x)
  | Signed w => if (x <? - 2 ^ (w - 1)) || (2 ^ (w - 1) <=? x) then UB else Ok x
  end.

(** finite_field_encoder.h lines 217-220: the loop body of WrapSigned *)
Definition wrap_one (s k t x : Z) : result Z :=
  let c := common s k in
  if x <? 0 then
    do! a <- into c x; do! b <- into c t; do! y <- into c (a + b); Ok (wrap k y)
  else do! a <- into c x; Ok (wrap k a).

(** finite_field_encoder.h lines 208-224: WrapSigned. The index of the loop is
    an int: vectors of 2^31 elements and more are not modelled. *)
Definition wrap_signed (s k t : Z) (messages : list Z) : result (list Z) := seqr (map (wrap_one s k t) messages).

(** finite_field_encoder.h lines 234-238: the loop body of UnwrapToSigned *)
Definition unwrap_one (s k t m : Z) : result Z :=
  let c := common s k in
  let x := to_signed s m in
  do! a <- into c x; do! h <- into c (t / 2); do! b <- into c t;
  if h <? a then do! y <- into c (a - b); Ok (to_signed s y) else Ok (to_signed s a).

(** finite_field_encoder.h lines 226-241: UnwrapToSigned *)
Definition unwrap_signed (s k t : Z) (messages : list Z) : result (list Z) := seqr (map (unwrap_one s k t) messages).
