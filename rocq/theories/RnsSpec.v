(** Specification vocabulary for residue number systems and RNS polynomials.
    A polynomial over the integers is the function giving its coefficients. *)
From Coq Require Import Znumtheory.
From Verif Require Import Base Montgomery Ntt Spec NttFacts PolyView RnsPoly.

(** product of a list of numbers *)
Definition prodz (l : list Z) : Z := fold_right Z.mul 1 l.

(** the product of all entries but the one at position i *)
Definition hat (qs : list Z) (i : nat) : Z := prodz (firstn i qs ++ skipn (S i) qs).

(** the prime of a PrimeModulus, and the composite modulus of a list of them *)
Definition modulus (m : pmod) : Z := p_m (pm_p m).
Definition moduli (ms : list pmod) : list Z := map modulus ms.
Definition big_q (ms : list pmod) : Z := prodz (moduli ms).

(** a PrimeModulus built by MontgomeryIntParams::Create and
    InitializeNttParameters for a prime modulus and degree 2^L *)
Definition mod_ok (k : Z) (L : nat) (m : pmod) : Prop :=
  params_for k (modulus m) (pm_p m) /\ ntt_for (pm_p m) L (pm_np m).

Definition moduli_ok (k : Z) (L : nat) (ms : list pmod) : Prop := Forall (mod_ok k L) ms.

(** the primes are pairwise different *)
Definition distinct (ms : list pmod) : Prop := NoDup (moduli ms).

(** coefficient i of one sub-polynomial, read through InverseNtt and ExportInt
    when it is in NTT form and through ExportInt otherwise *)
Definition rcoeff (m : pmod) (ntt : bool) (v : list Z) (i : nat) : Z :=
  if ntt then coeff (pm_p m) (pm_np m) v i else export_int (pm_p m) (nth i v 0).

(** v has 2^L stored words and represents f modulo the prime m *)
Definition sub_is (m : pmod) (L : nat) (ntt : bool) (v : list Z) (f : nat -> Z) : Prop :=
  ntt_poly (pm_p m) L v /\ forall i, (i < 2 ^ L)%nat -> rcoeff m ntt v i = f i mod modulus m.

(** a is an RNS polynomial of degree 2^L over the moduli ms, in the given form,
    and represents f: sub-polynomial j is f modulo the j-th prime *)
Definition rns_is (ms : list pmod) (L : nat) (ntt : bool) (a : rpoly) (f : nat -> Z) : Prop :=
  rp_logn a = L /\ rp_ntt a = ntt /\ Forall2 (fun m v => sub_is m L ntt v f) ms (rp_vs a).

(** the call succeeds with an RNS polynomial that represents f *)
Definition is_rns (ms : list pmod) (L : nat) (ntt : bool) (r : result rpoly) (f : nat -> Z) : Prop :=
  exists c, r = Ok c /\ rns_is ms L ntt c f.

(** an RNS polynomial over ms of degree 2^L, whatever it represents *)
Definition rns_poly (ms : list pmod) (L : nat) (a : rpoly) : Prop :=
  rp_logn a = L /\ Forall2 (fun m v => ntt_poly (pm_p m) L v) ms (rp_vs a).

(** w is a stored word of value x modulo the prime m *)
Definition residue (m : pmod) (w x : Z) : Prop :=
  stored (pm_p m) w /\ export_int (pm_p m) w = x mod modulus m.

(** z is the RNS integer x modulo the primes of ms *)
Definition residues (ms : list pmod) (z : rnsint) (x : Z) : Prop := Forall2 (fun m w => residue m w x) ms z.

(** ** Basis switching *)

Definition sumz (l : list Z) : Z := fold_right Z.add 0 l.

(** the inverse of a modulo the prime q *)
Definition zinv (q a : Z) : Z := a ^ (q - 2) mod q.

(** Q / q for the composite modulus Q of ms *)
Definition hat_of (ms : list pmod) (m : pmod) : Z := big_q ms / modulus m.

(** words are the inverses of Q/q modulo each prime q *)
Definition hat_inverses (ms : list pmod) (words : list Z) : Prop :=
  Forall2 (fun m w => stored (pm_p m) w /\ (export_int (pm_p m) w * hat_of ms m) mod modulus m = 1) ms words.

(** row i holds the residues of Q/q_i modulo every prime of ps; rows and
    entries beyond those needed are allowed *)
Definition hat_residues (ms ps : list pmod) (rows : list rnsint) : Prop :=
  Forall2 (fun m z => residues ps (firstn (length ps) z) (hat_of ms m)) ms (firstn (length ms) rows).

(** words are the inverses of x modulo each prime of ms *)
Definition inverses (ms : list pmod) (words : list Z) (x : Z) : Prop :=
  Forall2 (fun m w => stored (pm_p m) w /\ (export_int (pm_p m) w * x) mod modulus m = 1) ms words.

(** the digit of x at the prime q: the sum over all primes of digit * Q/q is
    congruent to x modulo Q *)
Definition crt_digit (ms : list pmod) (x : Z) (m : pmod) : Z := (zinv (modulus m) (hat_of ms m) * x) mod modulus m.

(** the sum of the digits with their weights *)
Definition crt_value (ms : list pmod) (x : Z) : Z := sumz (map (fun m => crt_digit ms x m * hat_of ms m) ms).

(** the floating-point value of the sum over all primes of digit / q, added
    from left to right *)
Definition float_sum (D : dops) (ms : list pmod) (digit : pmod -> Z) : d_t D :=
  fold_left (fun acc m => d_add D acc (d_div D (d_of_int D (digit m)) (d_of_int D (modulus m)))) ms (d_zero D).

(** u is what the float sum of x rounds to *)
Definition rounds_to (D : dops) (k : Z) (ms : list pmod) (x u : Z) : Prop :=
  d_round D (float_sum D ms (crt_digit ms x)) = Ok u /\ 0 <= u < 2 ^ k.

(** u is the integer nearest to the exact sum of digit / q *)
Definition nearest (ms : list pmod) (x u : Z) : Prop :=
  2 * Z.abs (crt_value ms x - u * big_q ms) <= big_q ms.
