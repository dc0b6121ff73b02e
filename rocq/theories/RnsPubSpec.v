(** Specification vocabulary for RNS public keys. *)
From Verif Require Import Base FinSum PolySpec NegRing SymSpec Montgomery Spec RnsPoly RnsSpec RnsCt RnsCtSpec RnsEncode RnsKey RnsKeySpec RnsPub.

(** pk = (a, b) over the moduli ms with b + a s = scalar * e for a polynomial e
    with coefficients of absolute value at most be *)
Definition public_key (ms : list pmod) (L : nat) (s : nat -> Z) (scalar be : Z) (pk : rpkey) : Prop :=
  rpk_ms pk = ms /\
  exists a b e, rns_is ms L true (rpk_a pk) a /\ rns_is ms L true (rpk_b pk) b /\ bounded (2 ^ L) be e /\
    pcong (big_q ms) (2 ^ L) (padd b (negacyclic (2 ^ L) a s)) (pscale scalar e).

(** the noise e r + e' + e'' s of an encryption, and a bound of it for
    |e| <= be, |r|, |e'|, |e''| <= b and |s| <= bs *)
Definition pub_error (n : nat) (s e r e' e'' : nat -> Z) (i : nat) : Z := negacyclic n e r i + e' i + negacyclic n e'' s i.
Definition pub_bound (n : nat) (be b bs : Z) : Z := Z.of_nat n * (be * b) + b + Z.of_nat n * (b * bs).
