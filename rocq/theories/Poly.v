(** Model of /repo/shell_encryption/polynomial.h and opt/constant_polynomial.h.
    A Polynomial is the vector coeffs_ of stored words. log_len_ is only read
    by the accessor LogLen and is omitted. Every method is given both as an
    in-place and as a copying version in C++; the vectors have value semantics
    here so the two coincide. *)
From Verif Require Import Base Montgomery MontBatch Ntt.

(** polynomial.h line 348: the member coeffs_ *)
Definition poly := list Z.

(** polynomial.h lines 50-52: the constructor from a vector computes
    log2(size) as a double and converts it to size_t, undefined for size 0. *)
Definition poly_of (v : list Z) : result poly :=
  match v with [] => UB | _ => Ok v end.

(** polynomial.h lines 55-58: the zero polynomial of a given length (len <= 0 is undefined
    or a bad allocation). *)
Definition poly_zero (p : mparams) (len : nat) : result poly :=
  poly_of (repeat (import_zero p) len).

(** polynomial.h lines 69-79: ConvertToNtt. A transform error yields the empty polynomial. *)
Definition convert_to_ntt (p : mparams) (np : nttp) (v : list Z) : result poly :=
  match forward_ntt p np v with
  | Ok w => poly_of w
  | Err _ => Ok []
  | UB => UB
  end.

(** polynomial.h lines 96-112: InverseNtt. On errors the coefficients are returned
    unchanged. (n_inv_ptr is always set by InitializeNttParameters.) *)
Definition inverse_ntt_poly (p : mparams) (np : nttp) (a : poly) : result (list Z) :=
  match inverse_ntt p np a with
  | Ok w => Ok w
  | Err _ => Ok a
  | UB => UB
  end.

(** polynomial.h line 123 *)
Definition is_valid (a : poly) : bool := match a with [] => false | _ => true end.

(** polynomial.h lines 126-137: scalar multiplication. *)
Definition poly_mul_scalar (p : mparams) (a : poly) (s : Z) : result poly := batch_mul_scalar p a s.

(** polynomial.h lines 140-151 *)
Definition poly_mul (p : mparams) (a b : poly) : result poly := batch_mul p a b.

(** polynomial.h lines 154-158: this += a * b *)
Definition poly_fused_mul_add (p : mparams) (this a b : poly) : result poly :=
  batch_fused_mul_add p this a b.

(** opt/constant_polynomial.h lines 40-47, 66-71: the two constant vectors. *)
Record const_poly := { cp_c : list Z; cp_cb : list Z }.

Definition const_poly_create (c cb : list Z) : result const_poly :=
  if same_len c cb then Ok {| cp_c := c; cp_cb := cb |} else Err InvalidArgument.

(** polynomial.h lines 162-168 *)
Definition poly_fused_mul_constant_add (p : mparams) (this a : poly) (b : const_poly) : result poly :=
  batch_fused_mul_constant_add p this a (cp_c b) (cp_cb b).

(** polynomial.h lines 171-183 *)
Definition poly_neg (p : mparams) (a : poly) : poly := map (mneg p) a.

(** polynomial.h lines 186-211 *)
Definition poly_add (p : mparams) (a b : poly) : result poly := batch_add p a b.
Definition poly_sub (p : mparams) (a b : poly) : result poly := batch_sub p a b.

(** polynomial.h lines 216-250: Substitute. The loop over i; [idx] is psi_power_index.
    bitrevs is indexed without a check, as is the written position. *)
Fixpoint substitute_loop (np : nttp) (coeffs : poly) (power : nat) (is : list nat) (idx : nat)
  (out : poly) : result poly :=
  match is with
  | [] => Ok out
  | i :: is' =>
      do! src <- get (np_bitrevs np) idx;
      if (length coeffs <=? src)%nat then Err Internal
      else
        do! dst <- get (np_bitrevs np) i;
        if (length coeffs <=? dst)%nat then UB
        else
          do! x <- get coeffs src;
          substitute_loop np coeffs power is' ((idx + power) mod length coeffs) (upd out dst x)
  end.

Definition poly_substitute (np : nttp) (a : poly) (power : Z) : result poly :=
  if (0 >? power) || (Z.rem power 2 =? 0) || (power >=? 2 * Z.of_nat (length a))
  then Err InvalidArgument
  else
    let pw := Z.to_nat power in
    substitute_loop np a pw (seq 0 (length a)) ((pw - 1) / 2) a.

(** polynomial.h lines 261-274: operator== compares stored words. *)
Definition poly_eqb (a b : poly) : bool :=
  same_len a b && forallb (fun xy => meqb (fst xy) (snd xy)) (combine a b).

(** polynomial.h lines 282-289: Serialize; SerializedNttPolynomial holds the bytes and
    num_coeffs. *)
Record ser_poly := { sp_coeffs : list Z; sp_num : Z }.

Definition poly_serialize (p : mparams) (a : poly) : result ser_poly :=
  do! s <- mserialize_vector p a;
  Ok {| sp_coeffs := s; sp_num := Z.of_nat (length a) |}.

(** polynomial.h lines 291-308 *)
Definition poly_deserialize (p : mparams) (s : ser_poly) : result poly :=
  if sp_num s <=? 0 then Err InvalidArgument
  else if sp_num s >? max_num_coeffs then Err InvalidArgument
  else mdeserialize_vector p (sp_num s) (sp_coeffs s).

(** polynomial.h lines 312-326: ComputeConstantRepresentation. *)
Definition poly_constants (p : mparams) (a : poly) : result const_poly :=
  const_poly_create (map (fun x => fst (get_constant p x)) a)
                    (map (fun x => snd (get_constant p x)) a).

(** polynomial.h lines 329-343 *)
Definition poly_mul_constant (p : mparams) (a : poly) (b : const_poly) : result poly :=
  batch_mul_constant p a (cp_c b) (cp_cb b).
