(** Small specification vocabulary used in the statements of the theorems. It
    mentions no internal helper of the model beyond ExportInt. *)
From Verif Require Import Base Montgomery.

(** [p] is what MontgomeryIntParams<UintK>::Create(m) returns, for a supported
    word size and a modulus larger than 1 (modulus 1, the zero ring, is also
    accepted by Create but is excluded everywhere). *)
Definition params_for (k m : Z) (p : mparams) : Prop :=
  word_size k /\ 1 < m /\ params_create k m = Ok p.

(** A stored value: what the API can leave in a MontgomeryInt. *)
Definition stored (p : mparams) (n : Z) : Prop := 0 <= n <= p_m p.

(** A fully reduced stored value. *)
Definition reduced (p : mparams) (n : Z) : Prop := 0 <= n < p_m p.

(** Everything the MontgomeryInt API can produce, apart from Deserialize
    (treated separately). [api_random]: ImportRandom returns a value below the
    modulus. *)
Inductive api_value (p : mparams) : Z -> Prop :=
| api_import n : 0 <= n < 2 ^ p_k p -> api_value p (import_int p n)
| api_zero : api_value p (import_zero p)
| api_one : api_value p (import_one p)
| api_random n : 0 <= n < p_m p -> api_value p n
| api_add a b : api_value p a -> api_value p b -> api_value p (madd p a b)
| api_sub a b : api_value p a -> api_value p b -> api_value p (msub p a b)
| api_neg a : api_value p a -> api_value p (mneg p a)
| api_mul a b : api_value p a -> api_value p b -> api_value p (mmul p a b)
| api_mul_constant a b : api_value p a -> api_value p b ->
    api_value p (mul_constant p a (get_constant p b))
| api_fused a b c r : api_value p a -> api_value p b -> api_value p c ->
    fused_mul_add p a b c = Ok r -> api_value p r
| api_fused_constant a b c : api_value p a -> api_value p b -> api_value p c ->
    api_value p (fused_mul_constant_add p a b (get_constant p c))
| api_mod_exp a e : api_value p a -> 0 <= e < 2 ^ p_k p -> api_value p (mod_exp p a e)
| api_inverse a : api_value p a -> api_value p (mult_inverse p a)
| api_inverse_fast a r : api_value p a -> mult_inverse_fast p a = Ok r -> api_value p r.

(** Reversal of the low L bits of i. *)
Fixpoint bit_reversal (L i : nat) : nat :=
  match L with
  | O => 0
  | S l => if Nat.testbit i l then 1 + 2 * bit_reversal l i else 2 * bit_reversal l i
  end.
