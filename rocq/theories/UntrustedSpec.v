(** Specification vocabulary for messages from an untrusted sender. *)
From Verif Require Import Base Montgomery Ntt Poly Prng Sampling.

(** protocol buffers refuse strings of 2^31 bytes or more *)
Definition storable (cs : list ser_poly) : Prop := Forall (fun c => Z.of_nat (length (sp_coeffs c)) < 2 ^ 31) cs.

(** a polynomial read from a message: at most 2^15 words of the right number of
    bits, in number and value not related to the parameters otherwise *)
Definition received (p : mparams) (a : poly) : Prop :=
  1 <= Z.of_nat (length a) <= 2 ^ 15 /\ Forall (fun w => 0 <= w < 2 ^ p_logm p) a.

(** the uniform sampler of the generator has not finished within [fuel] rounds *)
Definition still_sampling (R : prng) (fuel : nat) (p : mparams) : Prop :=
  exists num s, sample_polynomial R fuel num p s = UB.

(** every polynomial of the message announces at most / exactly n coefficients *)
Definition at_most (n : nat) (cs : list ser_poly) : Prop := Forall (fun c => sp_num c <= Z.of_nat n) cs.
Definition exactly (n : nat) (cs : list ser_poly) : Prop := Forall (fun c => sp_num c = Z.of_nat n) cs.
