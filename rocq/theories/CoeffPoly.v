(** Model of testing/coefficient_polynomial.h and
    testing/coefficient_polynomial_ciphertext.h: polynomials kept as their
    coefficients and computed with by the schoolbook formulas, which the tests
    use as the reference for the polynomials in NTT form.

    Simplifications: modulus_params_ is an argument; lengths are assumed to fit
    [int] twice over; the error estimate (a double, which the constructor of
    the ciphertext leaves uninitialised) is omitted. *)
From Verif Require Import Base Montgomery MontBatch Ntt Poly SymEnc.

(** testing/coefficient_polynomial.h lines 69-77: Degree, the loop downwards. *)
Fixpoint cpoly_degree_loop (p : mparams) (a : list Z) (i : nat) : nat :=
  match i with
  | O => O
  | S j => if export_int p (nth j a 0) =? 0 then cpoly_degree_loop p a j else j
  end.
Definition cpoly_degree (p : mparams) (a : list Z) : nat := cpoly_degree_loop p a (length a).

(** testing/coefficient_polynomial.h lines 80-92: operator==. The coefficients up
    to the degree are read, so one is read even if there is none. *)
Fixpoint cpoly_eqb_loop (a b : list Z) (is : list nat) : result bool :=
  match is with
  | [] => Ok true
  | i :: is' =>
      do! x <- get a i;
      do! y <- get b i;
      if meqb x y then cpoly_eqb_loop a b is' else Ok false
  end.
Definition cpoly_eqb (p : mparams) (a b : list Z) : result bool :=
  if Nat.eqb (cpoly_degree p a) (cpoly_degree p b)
  then cpoly_eqb_loop a b (seq 0 (S (cpoly_degree p a)))
  else Ok false.

(** testing/coefficient_polynomial.h lines 99-132: operator+ and operator-. *)
Definition cpoly_add (p : mparams) (a b : list Z) : result (list Z) :=
  if same_len a b then Ok (map2 (madd p) a b) else Err InvalidArgument.
Definition cpoly_sub (p : mparams) (a b : list Z) : result (list Z) :=
  if same_len a b then Ok (map2 (msub p) a b) else Err InvalidArgument.

(** testing/coefficient_polynomial.h lines 135-141: operator* of a scalar. *)
Definition cpoly_scale (p : mparams) (a : list Z) (c : Z) : list Z := map (fun x => mmul p x c) a.

(** testing/coefficient_polynomial.h lines 156-170: the inner loop over j. *)
Fixpoint cpoly_mul_row (p : mparams) (n i : nat) (x : Z) (b : list Z) (j : nat) (out : list Z) : result (list Z) :=
  match b with
  | [] => Ok out
  | y :: b' =>
      if (n <=? i + j)%nat then
        do! o <- get out (i + j - n);
        cpoly_mul_row p n i x b' (S j) (upd out (i + j - n) (msub p o (mmul p x y)))
      else
        do! o <- get out (i + j);
        cpoly_mul_row p n i x b' (S j) (upd out (i + j) (madd p o (mmul p x y)))
  end.
(** testing/coefficient_polynomial.h lines 155-171: the outer loop over i *)
Fixpoint cpoly_mul_rows (p : mparams) (n i : nat) (a b out : list Z) : result (list Z) :=
  match a with
  | [] => Ok out
  | x :: a' => do! out <- cpoly_mul_row p n i x b 0 out; cpoly_mul_rows p n (S i) a' b out
  end.
(** testing/coefficient_polynomial.h lines 144-173: operator* of two polynomials. *)
Definition cpoly_mul (p : mparams) (a b : list Z) : result (list Z) :=
  if same_len a b then cpoly_mul_rows p (length a) 0 a b (repeat (import_zero p) (length a))
  else Err InvalidArgument.

(** testing/coefficient_polynomial.h lines 177-205: MonomialMultiplication. *)
Definition cpoly_monomial (p : mparams) (a : list Z) (power : Z) : result (list Z) :=
  if (0 >? power) || (power >=? 2 * Z.of_nat (length a)) then Err InvalidArgument
  else
    let len := length a in
    let flip := Z.of_nat len <=? power in
    let multiplier := if flip then mneg p (import_one p) else import_one p in
    let power := Z.to_nat (if flip then power - Z.of_nat len else power) in
    let negative := mneg p multiplier in
    Ok (map (fun i => mmul p negative (nth (i + len - power) a 0)) (seq 0 power) ++
        map (fun i => mmul p multiplier (nth (i - power) a 0)) (seq power (len - power))).

(** testing/coefficient_polynomial.h lines 232-235: while (current_index > Len());
    the loop ends because Len() is positive. *)
Fixpoint cpoly_wrap (fuel : nat) (p : mparams) (len idx : nat) (multiplier : Z) : result (nat * Z) :=
  match fuel with
  | O => UB
  | S f => if (len <? idx)%nat then cpoly_wrap f p len (idx - len) (mneg p multiplier) else Ok (idx, multiplier)
  end.
(** testing/coefficient_polynomial.h lines 228-236: the loop over i; an index equal to Len() is written out of bounds. *)
Fixpoint cpoly_sub_loop (p : mparams) (len power : nat) (a : list Z) (idx : nat) (multiplier : Z) (out : list Z)
  : result (list Z) :=
  match a with
  | [] => Ok out
  | x :: a' =>
      if (len <=? idx)%nat then UB
      else
        do! ' (idx', m') <- cpoly_wrap (S (idx + power)) p len (idx + power) multiplier;
        cpoly_sub_loop p len power a' idx' m' (upd out idx (mmul p x multiplier))
  end.
(** testing/coefficient_polynomial.h lines 209-239: Substitute. *)
Definition cpoly_substitute (p : mparams) (a : list Z) (power : Z) : result (list Z) :=
  if (0 >? power) || (Z.rem power 2 =? 0) || (power >=? 2 * Z.of_nat (length a)) then Err InvalidArgument
  else cpoly_sub_loop p (length a) (Z.to_nat power) a 0 (import_one p) a.

(** testing/coefficient_polynomial.h lines 241-249: Serialize. *)
Definition cpoly_serialize (p : mparams) (a : list Z) : result ser_poly :=
  do! s <- mserialize_vector p a;
  Ok {| sp_coeffs := s; sp_num := Z.of_nat (length a) |}.
(** testing/coefficient_polynomial.h lines 251-261: Deserialize. A vector of a
    negative length is allocated before the number is checked: std::length_error. *)
Definition cpoly_deserialize (p : mparams) (s : ser_poly) : result (list Z) :=
  if sp_num s <? 0 then UB else mdeserialize_vector p (sp_num s) (sp_coeffs s).

(** ** Ciphertexts *)

(** testing/coefficient_polynomial_ciphertext.h lines 159-171: members. *)
Record cct := { cc_p : mparams; cc_c : list (list Z); cc_pow : Z }.
(** testing/coefficient_polynomial_ciphertext.h lines 51-57: the constructor reads p_[0]. *)
Definition cct_make (p : mparams) (c : list (list Z)) (pow : Z) : result cct :=
  match c with [] => UB | _ => Ok {| cc_p := p; cc_c := c; cc_pow := pow |} end.

(** testing/coefficient_polynomial_ciphertext.h lines 62-77: ConvertToCoefficients. *)
Definition cct_of (np : nttp) (x : ct) : result cct :=
  do! c <- seqr (map (inverse_ntt_poly (ct_p x) np) (ct_c x));
  cct_make (ct_p x) c (ct_pow x).
(** testing/coefficient_polynomial_ciphertext.h lines 80-91: ConvertToNtt. *)
Definition cct_to_ntt (np : nttp) (x : cct) : result ct :=
  do! c <- seqr (map (convert_to_ntt (cc_p x) np) (cc_c x));
  Ok (ct_make (cc_p x) c (cc_pow x)).

(** testing/coefficient_polynomial_ciphertext.h lines 108-112: the loop over the
    components of the shorter ciphertext. *)
Fixpoint cct_add_into (p : mparams) (longer shorter : list (list Z)) : result (list (list Z)) :=
  match shorter, longer with
  | [], _ => Ok longer
  | b :: s, a :: l => do! c <- cpoly_add p a b; do! r <- cct_add_into p l s; Ok (c :: r)
  | _ :: _, [] => UB
  end.
(** testing/coefficient_polynomial_ciphertext.h lines 94-116: operator+. *)
Definition cct_add (x y : cct) : result cct :=
  if negb (cc_pow x =? cc_pow y) then Err InvalidArgument
  else
    do! c <- (if (length (cc_c x) <? length (cc_c y))%nat
              then cct_add_into (cc_p y) (cc_c y) (cc_c x)
              else cct_add_into (cc_p x) (cc_c x) (cc_c y));
    cct_make (cc_p x) c (cc_pow x).

(** testing/coefficient_polynomial_ciphertext.h lines 120-131: MonomialAbsorb. *)
Definition cct_monomial (x : cct) (power : Z) : result cct :=
  do! c <- seqr (map (fun a => cpoly_monomial (cc_p x) a power) (cc_c x));
  cct_make (cc_p x) c (cc_pow x).
(** testing/coefficient_polynomial_ciphertext.h lines 137-149: Substitute. The product is an int. *)
Definition cct_substitute (x : cct) (power : Z) : result cct :=
  do! c <- seqr (map (fun a => cpoly_substitute (cc_p x) a power) (cc_c x));
  do! c0 <- get (cc_c x) 0;
  let prod := cc_pow x * power in
  if (prod <? - 2 ^ 31) || (2 ^ 31 <=? prod) then UB
  else if (2 * length c0 =? 0)%nat then UB
  else cct_make (cc_p x) c (Z.rem prod (2 * Z.of_nat (length c0))).
