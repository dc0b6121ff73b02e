(** Specification vocabulary for the arguments of the context factories and the
    moduli the library ships. *)
From Coq Require Import Znumtheory.
From Verif Require Import Base Shipped.

(** a modulus on which rings of degree 2^log_n can be built with k-bit words:
    it leaves two bits of the word free and is 1 modulo twice the degree *)
Definition usable (k log_n q : Z) : Prop := 4 * q <= 2 ^ k /\ q mod 2 ^ (log_n + 1) = 1.

(** the moduli of constants.h, each with the logarithm of the largest degree it
    is documented for *)
Definition shipped : list (Z * Z) :=
  [(kNewhopeModulus, kNewhopeLogDegreeBound); (kModulus59, kLogDegreeBound59); (kModulus44, kLogDegreeBound44);
   (kModulus29, kLogDegreeBound29); (kModulus25, kLogDegreeBound25); (kModulus80, kLogDegreeBound80)].

(** the two sets of rns/constants.h: main moduli, auxiliary moduli, log N, t *)
Definition shipped_rns : list (list Z * list Z * Z * Z) :=
  [([k60BitModulusQ0; k60BitModulusQ1], [k60BitModulusP0], k60BitModulusLogN, k60BitModulusPlaintextModulus);
   ([k59BitModulusQ0], [k59BitModulusP0], k59BitModulusLogN, k59BitModulusPlaintextModulus)].

(** number of binary digits *)
Definition has_bits (n q : Z) : Prop := 2 ^ (n - 1) <= q < 2 ^ n.
