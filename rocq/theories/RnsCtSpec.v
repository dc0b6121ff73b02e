(** Specification vocabulary for RNS ciphertexts. *)
From Verif Require Import Base FinSum PolySpec NegRing SymSpec Montgomery Spec RnsPoly RnsSpec RnsCt.

(** c_0 + c_1 s + c_2 s^2 + ... modulo X^n + 1 *)
Definition phase_of (n : nat) (s : nat -> Z) (cs : list (nat -> Z)) : nat -> Z :=
  phase n s (length cs) (fun i => nth i cs pzero).

(** x is a ciphertext over the moduli ms, with [len] components of degree 2^L in
    NTT form and PowerOfS() = j, whose phase under the secret s(X^j) is w
    modulo the product of the moduli *)
Definition ciphertext (ms : list pmod) (L : nat) (s : nat -> Z) (len : nat) (j : Z) (x : rct) (w : nat -> Z) : Prop :=
  rt_ms x = ms /\ rt_pow x = j /\ length (rt_c x) = len /\
  exists cs, Forall2 (rns_is ms L true) (rt_c x) cs /\
    pcong (big_q ms) (2 ^ L) (phase_of (2 ^ L) (substituted (2 ^ L) (Z.to_nat j) s) cs) w.

(** the call succeeds with such a ciphertext *)
Definition gives (ms : list pmod) (L : nat) (s : nat -> Z) (len : nat) (j : Z) (r : result rct) (w : nat -> Z) : Prop :=
  exists y, r = Ok y /\ ciphertext ms L s len j y w.
