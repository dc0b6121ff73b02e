(** Specification vocabulary: histories of ciphertexts under one key, with
    substitutions and key switches anywhere. *)
From Verif Require Import Base FinSum PolySpec Montgomery Ntt Poly PolyExt Prng Sampling SampleSpec Spec PolyView SymEnc SymSpec
  Relin RelinSpec AuxRelin AuxRelinSpec PubKey PubKeySpec NttFacts.

Inductive hist :=
| HEnc (G : prng) (fuel : nat) (pt : poly) (s : pr_st G)
| HPub (G : prng) (pk : pkey) (be : Z) (pt : poly) (variance : Z) (s : pr_st G)
| HAdd (a b : hist)
| HSub (a b : hist)
| HScale (a : hist) (c : Z)
| HAbsorb (a : hist) (pt : poly)
| HFused (a b : hist) (pt : poly)
| HMul (a b : hist)
| HSubst (a : hist) (power : Z)
| HGalois (a : hist) (gk : relin)
| HAuxGalois (a : hist) (ak : auxkey)
| HRelin (a : hist) (rk : relin)
| HAux (a : hist) (ak : auxkey)
| HSend (a : hist).

Section Hist.
Variables (L : nat) (t : Z) (key : skey).

(** calling the library *)
Fixpoint run (h : hist) : result ct :=
  match h with
  | HEnc G fuel pt s => do! xs <- encrypt G fuel key pt s; Ok (fst xs)
  | HPub G pk _ pt v s => do! xs <- pub_encrypt G pk pt v s; Ok (fst xs)
  | HAdd a b => do! x <- run a; do! y <- run b; ct_add x y
  | HSub a b => do! x <- run a; do! y <- run b; ct_sub x y
  | HScale a c => do! x <- run a; ct_absorb_scalar x c
  | HAbsorb a pt => do! x <- run a; ct_absorb x pt
  | HFused a b pt => do! x <- run a; do! y <- run b; ct_fused_absorb x y pt
  | HMul a b => do! x <- run a; do! y <- run b; ct_mul x y
  | HSubst a p => do! x <- run a; ct_substitute (sk_np key) p x
  | HGalois a gk => do! x <- run a; galois_apply gk x
  | HAuxGalois a ak => do! x <- run a; auxgalois_apply ak x
  | HRelin a rk => do! x <- run a; relin_apply rk x
  | HAux a ak => do! x <- run a; aux_apply ak x
  | HSend a => do! x <- run a; do! m <- ct_serialize x; ct_deserialize (sk_p key) m
  end.

(** the power of the secret key in which the result is encrypted: fresh
    ciphertexts are under s(X), substitution of X^p turns s(X^a) into
    s(X^(a p)) with X^(2n) = 1, and key switching leads back to s(X) *)
Fixpoint power (h : hist) : Z :=
  match h with
  | HEnc _ _ _ _ | HPub _ _ _ _ _ _ | HGalois _ _ | HAuxGalois _ _ | HRelin _ _ | HAux _ _ => 1
  | HAdd a _ | HSub a _ | HScale a _ | HAbsorb a _ | HFused a _ _ | HMul a _ | HSend a => power a
  | HSubst a p => (power a * p) mod (2 * 2 ^ Z.of_nat L)
  end.

(** the number of components *)
Fixpoint width (h : hist) : nat :=
  match h with
  | HEnc _ _ _ _ | HPub _ _ _ _ _ _ | HGalois _ _ | HAuxGalois _ _ | HRelin _ _ | HAux _ _ => 2
  | HAdd a b | HSub a b | HFused a b _ => Nat.max (width a) (width b)
  | HMul a b => width a + width b - 1
  | HScale a _ | HAbsorb a _ | HSend a | HSubst a _ => width a
  end.

(** the coefficients of a plaintext *)
Definition plain (pt : poly) : nat -> Z := coeff (sk_p key) (sk_np key) pt.

(** what is computed, on plaintexts: polynomials over the integers modulo
    X^(2^L) + 1, to be read modulo t *)
Fixpoint meaning (h : hist) : nat -> Z :=
  match h with
  | HEnc _ _ pt _ | HPub _ _ _ pt _ _ => plain pt
  | HAdd a b => fun i => meaning a i + meaning b i
  | HSub a b => fun i => meaning a i - meaning b i
  | HScale a c => fun i => export_int (sk_p key) c * meaning a i
  | HAbsorb a pt => negacyclic (2 ^ L) (meaning a) (plain pt)
  | HFused a b pt => fun i => meaning a i + negacyclic (2 ^ L) (meaning b) (plain pt) i
  | HMul a b => negacyclic (2 ^ L) (meaning a) (meaning b)
  | HSubst a p => substituted (2 ^ L) (Z.to_nat p) (meaning a)
  | HGalois a _ | HAuxGalois a _ | HRelin a _ | HAux a _ | HSend a => meaning a
  end.

(** the worst-case error *)
Fixpoint noise (h : hist) : Z :=
  match h with
  | HEnc _ _ _ _ => t - 1 + t * (2 * sk_var key)
  | HPub _ _ be _ v _ => t - 1 + t * pub_noise L key be (2 * v)
  | HAdd a b | HSub a b => noise a + noise b
  | HScale a c => noise a * export_int (sk_p key) c
  | HAbsorb a pt => noise a * l1 (2 ^ L) (plain pt)
  | HFused a b pt => noise a + noise b * l1 (2 ^ L) (plain pt)
  | HMul a b => 2 ^ Z.of_nat L * (noise a * noise b)
  | HGalois a rk | HRelin a rk => noise a + t * relin_noise L (sk_var key) rk
  | HAuxGalois a ak | HAux a ak => noise a + t * aux_noise L (sk_var key) key ak
  | HSubst a _ | HSend a => noise a
  end.

(** a plaintext argument *)
Definition message_ok (pt : poly) : Prop := ntt_poly (sk_p key) L pt /\ forall i, (i < 2 ^ L)%nat -> 0 <= plain pt i < t.

(** an auxiliary-modulus key for ciphertexts of w components *)
Definition aux_fits (k : Z) (w : nat) (ak : auxkey) : Prop :=
  aux_ok L t (sk_var key) key ak /\ aux_len ak = w /\
  exists P, params_for k P (ak_px ak) /\ ntt_for (ak_px ak) L (ak_npx ak) /\ P <> p_m (sk_p key) /\ ~ (P | t).

(** the arguments belong together: keys made from [key], for the number of
    components they are applied to. Powers are not mentioned, except that a
    relinearization key must be one for the power of its argument. *)
Fixpoint wf (k : Z) (h : hist) : Prop :=
  match h with
  | HEnc G _ pt _ => prng_ok G /\ message_ok pt
  | HPub G pk be pt v _ => prng_ok G /\ message_ok pt /\ pub_ok L t be key pk /\ 0 <= be /\ 1 <= v /\ 2 * v <= p_m (sk_p key)
  | HAdd a b | HSub a b | HMul a b => wf k a /\ wf k b
  | HScale a c => wf k a /\ stored (sk_p key) c
  | HAbsorb a pt => wf k a /\ ntt_poly (sk_p key) L pt
  | HFused a b pt => wf k a /\ wf k b /\ ntt_poly (sk_p key) L pt
  | HSubst a _ => wf k a
  | HGalois a gk => wf k a /\ relin_ok L t (sk_var key) key gk /\ rk_num gk = 2 /\ width a = 2%nat
  | HAuxGalois a ak => wf k a /\ aux_fits k (width a) ak
  | HRelin a rk => wf k a /\ relin_ok L t (sk_var key) key rk /\ rk_num rk = Z.of_nat (width a) /\ rk_pow rk = power a
  | HAux a ak => wf k a /\ aux_fits k (width a) ak /\ ak_pow ak = power a
  | HSend a => wf k a /\ Z.of_nat (width a) <= 2 ^ 15
  end.

(** powers agree wherever the library compares them, and substitutions are by
    odd numbers below 2n *)
Fixpoint powers_agree (h : hist) : Prop :=
  match h with
  | HEnc _ _ _ _ | HPub _ _ _ _ _ _ => True
  | HAdd a b | HSub a b | HMul a b | HFused a b _ => powers_agree a /\ powers_agree b /\ power a = power b
  | HSubst a p => powers_agree a /\ 0 < p < 2 * 2 ^ Z.of_nat L /\ Z.odd p = true
  | HGalois a gk => powers_agree a /\ rk_pow gk = power a
  | HAuxGalois a ak => powers_agree a /\ ak_pow ak = power a
  | HScale a _ | HAbsorb a _ | HRelin a _ | HAux a _ | HSend a => powers_agree a
  end.

(** every fresh ciphertext could be made *)
Fixpoint leaves_ok (h : hist) : Prop :=
  match h with
  | HEnc G fuel pt s => exists x, encrypt G fuel key pt s = Ok x
  | HPub G pk _ pt v s => exists x, pub_encrypt G pk pt v s = Ok x
  | HAdd a b | HSub a b | HMul a b | HFused a b _ => leaves_ok a /\ leaves_ok b
  | HScale a _ | HAbsorb a _ | HSubst a _ | HGalois a _ | HAuxGalois a _ | HRelin a _ | HAux a _ | HSend a => leaves_ok a
  end.
End Hist.
