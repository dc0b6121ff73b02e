(** Vocabulary for polynomials kept as coefficients (testing/coefficient_polynomial.h). *)
From Verif Require Import Base Montgomery Spec.

(** the value of coefficient i *)
Definition cvalue (p : mparams) (v : list Z) (i : nat) : Z := export_int p (nth i v 0).

(** the call returned the polynomial with the n coefficients f, all words fully reduced *)
Definition returns (p : mparams) (n : nat) (r : result (list Z)) (f : nat -> Z) : Prop :=
  exists v, r = Ok v /\ length v = n /\ Forall (reduced p) v /\
    forall i, (i < n)%nat -> cvalue p v i = f i mod p_m p.

(** X^e modulo X^n + 1, for e < 2n: coefficient k *)
Definition xpow (n e k : nat) : Z :=
  if (e =? k)%nat then 1 else if (e =? k + n)%nat then - 1 else 0.
