(** Specification vocabulary for BFV ciphertexts. *)
From Coq Require Import QArith.
From Verif Require Import Base FinSum SymSpec RnsSpec.
Local Open Scope Z_scope.

(** 1 + a + ... + a^(len-1), for a the sum of the absolute values of the
    coefficients of s: a ciphertext with [len] components of size at most B has
    a phase of size at most B * key_size n s len *)
Definition key_size (n : nat) (s : nat -> Z) (len : nat) : Z := zsum len (fun e => l1 n s ^ Z.of_nat e).

(** P * Q times the noise of a product of two BFV ciphertexts, Q and P being the
    products of the main and of the auxiliary primes, t the plaintext modulus,
    e and e' the noise of the operands, and gx, gy, gl the key sizes for the
    lengths of the operands and of the product. For P large this is about
    n t (gx e' + gy e) + t gl + 3 n e e' / Q + t^2 n gx gy Q / P. *)
Definition mul_noise (n : nat) (t P Q e e' gx gy gl : Z) : Z :=
  Z.of_nat n * e' * (t * Q * (P + 1) * gx + P * e) +
  P * (Z.of_nat n * e * (t * Q * gy + e')) +
  P * (Z.of_nat n * e * e') +
  t * t * (Z.of_nat n * (Q * gx) * (Q * gy)) +
  t * Q * P * gl.

(** the floating-point sums over [n] primes are accurate enough to be rounded to
    one of the two nearest integers (for doubles, eps = 2^-53) *)
Definition roundable (k : Z) (eps : Q) (n : Z) : Prop :=
  0 < n < 2 ^ k /\ (eps <= 1 # 16)%Q /\ (eps * inject_Z (n * (n + 6)) <= 1 # 2)%Q.
