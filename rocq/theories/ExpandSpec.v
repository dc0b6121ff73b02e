(** Specification vocabulary for oblivious expansion. *)
From Verif Require Import Base FinSum PolySpec Montgomery Ntt Poly PolyView Spec SymEnc SymSpec NttFacts PolyExt Relin RelinSpec Expand.

(** the terms of f whose exponent is i modulo d, divided by X^i: coefficient l
    is that of X^(l + i) in f if d divides l, and 0 otherwise *)
Definition residue_part (d i : nat) (f : nat -> Z) (l : nat) : Z :=
  if (l mod d =? 0)%nat then f (l + i)%nat else 0.

(** c * X^j *)
Definition monomial (c : Z) (j l : nat) : Z := if (l =? j)%nat then c else 0.

(** a two-component ciphertext under the key itself *)
Definition fresh_shape (L : nat) (key : skey) (x : ct) : Prop :=
  ct_ok L key x /\ length (ct_c x) = 2%nat /\ ct_pow x = 1 /\ ct_lazy x = [].

(** Galois keys for [key]; key i is for the power 2^L / 2^i + 1, the error
    each adds is at most B multiples of t *)
Definition galois_keys_ok (L : nat) (t v B : Z) (key : skey) (gks : list relin) : Prop :=
  forall i gk, nth_error gks i = Some gk ->
    relin_ok L t v key gk /\ rk_num gk = 2 /\ relin_noise L v gk <= B /\
    rk_pow gk = 2 ^ Z.of_nat L / 2 ^ Z.of_nat i + 1.

(** an expander for [lv] levels created from usable keys of [key]: either a
    Galois key for every level, or one key for the generator 5, which is applied
    up to 2^(L-1) times per substitution *)
Definition expander_for (L : nat) (t v B : Z) (key : skey) (lv : nat) (ex : expander) : Prop :=
  (exists gks, galois_keys_ok L t v B key gks /\ (lv <= length gks)%nat /\ (lv <= L)%nat /\
     galois_expander gks (sk_p key) (sk_np key) = Ok ex) \/
  (exists gk, relin_ok L t v key gk /\ rk_num gk = 2 /\ 2 ^ (Z.of_nat L - 1) * relin_noise L v gk <= B /\ (lv < L)%nat /\
     generator_expander gk (sk_p key) (sk_np key) = Ok ex).
