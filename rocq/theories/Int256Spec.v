(** What C12 and C13 refer to. *)
From Verif Require Import Base Int256.

(** the number an object stands for *)
Definition value (x : u256) : Z := u_hi x * 2 ^ 128 + u_lo x.
Definition is_u256 (x : u256) : Prop := 0 <= u_hi x < 2 ^ 128 /\ 0 <= u_lo x < 2 ^ 128.

(** [x] is a valid object standing for the residue of [n] modulo 2^256 *)
Definition is (x : u256) (n : Z) : Prop := is_u256 x /\ value x = n mod 2 ^ 256.

(** [ds] is the positional representation of [v] in base [b], most significant
    digit first, without a leading zero unless v = 0 *)
Fixpoint horner (b acc : Z) (ds : list Z) : Z :=
  match ds with [] => acc | d :: ds => horner b (acc * b + d) ds end.
Definition represents (b v : Z) (ds : list Z) : Prop :=
  Forall (fun d => 0 <= d < b) ds /\ horner b 0 ds = v /\
  match ds with [] => False | d :: rest => d = 0 -> rest = [] end.

(** the text of a digit: "0123456789abcdef" or "0123456789ABCDEF" *)
Definition digit_text (upper : bool) (d : Z) : Z :=
  nth (Z.to_nat d) (if upper then [48;49;50;51;52;53;54;55;56;57;65;66;67;68;69;70] else [48;49;50;51;52;53;54;55;56;57;97;98;99;100;101;102]) 0.

(** "0x", "0X" or "0" in front of a non-zero number when the stream asks for it *)
Definition base_text (f : ioflags) (v : Z) : list Z :=
  if io_showbase f then
    if v =? 0 then [] else
    match io_base f with Hex => [48; if io_upper f then 88 else 120] | Oct => [48] | Dec => [] end
  else [].

(** [s] filled up to the stream's width *)
Definition padded (f : ioflags) (s : list Z) : list Z :=
  let fill := repeat (io_fill f) (Z.to_nat (io_width f - Z.of_nat (length s))) in
  if io_left f then s ++ fill else fill ++ s.
