(** Specification vocabulary for key switching with an auxiliary modulus. *)
From Verif Require Import Base FinSum PolySpec Montgomery Ntt Poly PolyView Spec SymEnc SymSpec NttFacts PolyExt Relin RelinSpec AuxRelin.

(** the components cs, over the ring with parameters (p, np), have phase f
    under the secret polynomial s *)
Definition phase_is (p : mparams) (L : nat) (np : nttp) (s : nat -> Z) (cs : list poly) (f : nat -> Z) : Prop :=
  forall i, (i < 2 ^ L)%nat ->
    cong (p_m p) (phase (2 ^ L) s (length cs) (fun l => coeff p np (nth l cs [])) i) (f i).

(** a key component: modulo q an encryption of P s^a, modulo P an encryption
    of 0, both with the same error t * e, |e| <= 2 v *)
Definition auxcomp_ok (L : nat) (t v : Z) (key : skey) (px : mparams) (npx : nttp) (s : nat -> Z) (a : nat)
  (kc : auxcomp) : Prop :=
  Forall (ntt_poly (sk_p key) L) [ac_b kc; ac_a kc] /\ Forall (ntt_poly px L) [ac_baux kc; ac_aaux kc] /\
  exists e, (forall l, (l < 2 ^ L)%nat -> Z.abs (e l) <= 2 * v) /\
    phase_is (sk_p key) L (sk_np key) (secret key) [ac_b kc; ac_a kc]
      (fun l => t * e l + p_m px * npow (2 ^ L) s a l) /\
    phase_is px L npx (signed_secret key) [ac_baux kc; ac_aaux kc] (fun l => t * e l).

(** a usable key switching key from s(X^power) to [key] *)
Record aux_ok (L : nat) (t v : Z) (key : skey) (ak : auxkey) : Prop := {
  ao_p : ak_p ak = sk_p key;
  ao_np : ak_np ak = sk_np key;
  ao_t : ak_t ak = t;
  ao_pow : 0 < ak_pow ak < 2 * 2 ^ Z.of_nat L /\ Z.odd (ak_pow ak) = true;
  ao_each : forall j kc, nth_error (ak_keys ak) j = Some kc ->
    auxcomp_ok L t v key (ak_px ak) (ak_npx ak) (secret_at L key (ak_pow ak))
      ((if ak_pow ak =? 1 then 2 else 1) + j) kc
}.

(** the number of components of the ciphertexts the key applies to *)
Definition aux_len (ak : auxkey) : nat := (length (ak_keys ak) + (if (ak_pow ak =? 1)%Z then 2 else 1))%nat.

(** bound on the error added by key switching, in multiples of t: the part that
    depends on q is divided by the auxiliary modulus *)
Definition aux_noise (L : nat) (v : Z) (key : skey) (ak : auxkey) : Z :=
  (Z.of_nat (length (ak_keys ak)) * (2 ^ Z.of_nat L * (p_m (sk_p key) / 2 * (2 * v))) +
   p_m (ak_px ak) / 2 * (1 + l1 (2 ^ L) (signed_secret key))) / p_m (ak_px ak).
