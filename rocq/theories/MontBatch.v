(** Model of the Batch* operations and the serialization of
    /repo/shell_encryption/montgomery.cc.

    Simplification: vectors have value semantics, so a scalar argument that
    aliases an element of the in-place vector is outside this file; Alias.v models
    those calls over a memory. *)
From Verif Require Import Base Montgomery Transcription.

(** the loops over two vectors of one size, as in montgomery.cc lines 216-224 *)
Fixpoint map2 {A B C} (f : A -> B -> C) (l1 : list A) (l2 : list B) : list C :=
  match l1, l2 with
  | a :: t1, b :: t2 => f a b :: map2 f t1 t2
  | _, _ => []
  end.

(** the comparison of sizes, as in montgomery.cc line 216 *)
Definition same_len {A B} (a : list A) (b : list B) : bool :=
  Nat.eqb (length a) (length b).

(** montgomery.cc lines 202-225 (vector + vector). *)
Definition batch_add (p : mparams) (a b : list Z) : result (list Z) :=
  if same_len a b then Ok (map2 (madd p) a b) else Err InvalidArgument.

(** montgomery.cc lines 227-246 (vector + scalar). *)
Definition batch_add_scalar (p : mparams) (a : list Z) (b : Z) : result (list Z) :=
  Ok (map (fun x => madd p x b) a).

(** montgomery.cc lines 248-270. *)
Definition batch_sub (p : mparams) (a b : list Z) : result (list Z) :=
  if same_len a b then Ok (map2 (msub p) a b) else Err InvalidArgument.

(** montgomery.cc lines 272-291. *)
Definition batch_sub_scalar (p : mparams) (a : list Z) (b : Z) : result (list Z) :=
  Ok (map (fun x => msub p x b) a).

(** montgomery.cc lines 293-320: the two constant vectors are separate. *)
Definition batch_mul_constant (p : mparams) (a c cb : list Z) : result (list Z) :=
  if negb (same_len a c) || negb (same_len c cb) then Err InvalidArgument
  else Ok (map2 (mul_constant p) a (combine c cb)).

(** montgomery.cc lines 322-343. *)
Definition batch_mul_constant_scalar (p : mparams) (a : list Z) (c cb : Z) : result (list Z) :=
  Ok (map (fun x => mul_constant p x (c, cb)) a).

(** montgomery.cc lines 345-367. *)
Definition batch_mul (p : mparams) (a b : list Z) : result (list Z) :=
  if same_len a b then Ok (map2 (mmul p) a b) else Err InvalidArgument.

(** montgomery.cc lines 369-388. *)
Definition batch_mul_scalar (p : mparams) (a : list Z) (b : Z) : result (list Z) :=
  Ok (map (fun x => mmul p x b) a).

(** montgomery.cc lines 390-414. *)
Definition batch_fused_mul_add (p : mparams) (a b c : list Z) : result (list Z) :=
  if negb (same_len a b) || negb (same_len a c) then Err InvalidArgument
  else seqr (map2 (fun x bc => fused_mul_add p x (fst bc) (snd bc)) a (combine b c)).

(** montgomery.cc lines 416-443. *)
Definition batch_fused_mul_constant_add (p : mparams) (a b c cb : list Z) : result (list Z) :=
  if negb (same_len a b) || negb (same_len a c) || negb (same_len a cb)
  then Err InvalidArgument
  else Ok (map2 (fun x bc => fused_mul_constant_add p x (fst bc) (snd bc)) a
                (combine b (combine c cb))).

(** ** Serialization. A [std::string] is a list of bytes. *)

(** constants.h: kMaxNumCoeffs = 1 << 15. *)
Definition max_num_coeffs : Z := 2 ^ 15.

(** montgomery.cc lines 101-112. *)
Definition mserialize (p : mparams) (n : Z) : result (list Z) :=
  transcribe_bits (p_k p) 8 [n] (p_logm p) (p_logm p) 8.

(** montgomery.cc lines 114-141. *)
Definition mserialize_vector (p : mparams) (coeffs : list Z) : result (list Z) :=
  if Z.of_nat (length coeffs) >? max_num_coeffs then Err InvalidArgument
  else match coeffs with
       | [] => Err InvalidArgument
       | _ => transcribe_bits (p_k p) 8 coeffs
                (Z.of_nat (length coeffs) * p_logm p) (p_logm p) 8
       end.

(** montgomery.cc lines 143-157. *)
Definition mdeserialize (p : mparams) (payload : list Z) : result Z :=
  do! v <- transcribe_bits 8 (p_k p) payload (p_logm p) 8 (p_logm p);
  get v 0.

(** montgomery.cc lines 159-192. *)
Definition mdeserialize_vector (p : mparams) (num_coeffs : Z) (serialized : list Z)
  : result (list Z) :=
  if num_coeffs <? 0 then Err InvalidArgument
  else if num_coeffs >? max_num_coeffs then Err InvalidArgument
  else
    do! v <- transcribe_bits 8 (p_k p) serialized (p_logm p * num_coeffs) 8 (p_logm p);
    if Z.of_nat (length v) <? num_coeffs then Err InvalidArgument
    else Ok (firstn (Z.to_nat num_coeffs) v).
