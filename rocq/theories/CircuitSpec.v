(** Specification vocabulary for C75: what a user computes with ciphertexts of
    the symmetric scheme, as an expression, and what it stands for. *)
From Verif Require Import Base FinSum PolySpec Montgomery Ntt Poly PolyView Spec SampleSpec SymEnc SymSpec NttFacts PolyExt Prng Sampling
  Relin RelinSpec AuxRelin AuxRelinSpec PubKey PubKeySpec.
Local Notation zsum := FinSum.zsum.

(** A computation on ciphertexts. Fresh ciphertexts are made at a level, with
    their own generator; level l uses the l-th of a chain of moduli and
    [CSwitch] goes to the next one. [CSend] serializes and deserializes. *)
Inductive circuit :=
| CEnc (lvl : nat) (G : prng) (fuel : nat) (pt : poly) (s : pr_st G)
| CPub (lvl : nat) (G : prng) (pk : pkey) (be : Z) (pt : poly) (variance : Z) (s : pr_st G)
| CAdd (a b : circuit)
| CSub (a b : circuit)
| CScale (a : circuit) (c : Z)
| CAbsorb (a : circuit) (pt : poly)
| CFused (a b : circuit) (pt : poly)
| CMul (a b : circuit)
| CRelin (a : circuit) (rk : relin)
| CAux (a : circuit) (ak : auxkey)
| CRotate (a : circuit) (gk : relin)
| CSwitch (a : circuit)
| CSend (a : circuit).

Section Chain.
Variables (L : nat) (t : Z) (keys : nat -> skey).

(** the level of the result *)
Fixpoint level (c : circuit) : nat :=
  match c with
  | CEnc l _ _ _ _ | CPub l _ _ _ _ _ _ => l
  | CAdd a _ | CSub a _ | CScale a _ | CAbsorb a _ | CFused a _ _ | CMul a _ | CRelin a _ | CAux a _ | CRotate a _ | CSend a => level a
  | CSwitch a => S (level a)
  end.

(** the number of components of the result *)
Fixpoint width (c : circuit) : nat :=
  match c with
  | CEnc _ _ _ _ _ | CPub _ _ _ _ _ _ _ => 2
  | CAdd a b | CSub a b | CFused a b _ => Nat.max (width a) (width b)
  | CScale a _ | CAbsorb a _ | CSwitch a | CSend a => width a
  | CMul a b => width a + width b - 1
  | CRelin _ _ | CAux _ _ | CRotate _ _ => 2
  end.

(** calling the library *)
Fixpoint run (c : circuit) : result ct :=
  match c with
  | CEnc l G fuel pt s => do! xs <- encrypt G fuel (keys l) pt s; Ok (fst xs)
  | CPub l G pk be pt v s => do! xs <- pub_encrypt G pk pt v s; Ok (fst xs)
  | CAdd a b => do! x <- run a; do! y <- run b; ct_add x y
  | CSub a b => do! x <- run a; do! y <- run b; ct_sub x y
  | CScale a c => do! x <- run a; ct_absorb_scalar x c
  | CAbsorb a pt => do! x <- run a; ct_absorb x pt
  | CFused a b pt => do! x <- run a; do! y <- run b; ct_fused_absorb x y pt
  | CMul a b => do! x <- run a; do! y <- run b; ct_mul x y
  | CRelin a rk => do! x <- run a; relin_apply rk x
  | CAux a ak => do! x <- run a; aux_apply ak x
  | CRotate a gk => do! x <- run a; do! y <- ct_substitute (sk_np (keys (level a))) (rk_pow gk) x; galois_apply gk y
  | CSwitch a => do! x <- run a;
      ct_switch_modulus (sk_np (keys (level a))) (sk_p (keys (S (level a)))) (sk_np (keys (S (level a)))) t x
  | CSend a => do! x <- run a; do! m <- ct_serialize x; ct_deserialize (sk_p (keys (level a))) m
  end.

(** the coefficients of a plaintext at level l *)
Definition plain (l : nat) (pt : poly) : nat -> Z := coeff (sk_p (keys l)) (sk_np (keys l)) pt.

(** what it computes: the same operations on the plaintexts, as polynomials over
    the integers modulo X^(2^L) + 1 (to be read modulo t) *)
Fixpoint meaning (c : circuit) : nat -> Z :=
  match c with
  | CEnc l _ _ pt _ | CPub l _ _ _ pt _ _ => plain l pt
  | CAdd a b => fun i => meaning a i + meaning b i
  | CSub a b => fun i => meaning a i - meaning b i
  | CScale a c => fun i => export_int (sk_p (keys (level a))) c * meaning a i
  | CAbsorb a pt => negacyclic (2 ^ L) (meaning a) (plain (level a) pt)
  | CFused a b pt => fun i => meaning a i + negacyclic (2 ^ L) (meaning b) (plain (level b) pt) i
  | CMul a b => negacyclic (2 ^ L) (meaning a) (meaning b)
  | CRotate a gk => substituted (2 ^ L) (Z.to_nat (rk_pow gk)) (meaning a)
  | CRelin a _ | CAux a _ | CSwitch a | CSend a => meaning a
  end.

(** the worst-case error of the result, computed from the circuit *)
Fixpoint noise (c : circuit) : Z :=
  match c with
  | CEnc l _ _ _ _ => t - 1 + t * (2 * sk_var (keys l))
  | CPub l _ _ be _ v _ => t - 1 + t * pub_noise L (keys l) be (2 * v)
  | CAdd a b | CSub a b => noise a + noise b
  | CScale a c => noise a * export_int (sk_p (keys (level a))) c
  | CAbsorb a pt => noise a * l1 (2 ^ L) (plain (level a) pt)
  | CFused a b pt => noise a + noise b * l1 (2 ^ L) (plain (level b) pt)
  | CMul a b => 2 ^ Z.of_nat L * (noise a * noise b)
  | CRelin a rk | CRotate a rk => noise a + t * relin_noise L (sk_var (keys (level a))) rk
  | CAux a ak => noise a + t * aux_noise L (sk_var (keys (level a))) (keys (level a)) ak
  | CSwitch a =>
      let P := p_m (sk_p (keys (level a))) in
      let Q := p_m (sk_p (keys (S (level a)))) in
      (2 * Q * noise a + P * (t + 3) * zsum (width a) (fun j => l1 (2 ^ L) (npow (2 ^ L) (signed_secret (keys (level a))) j))) / (2 * P)
  | CSend a => noise a
  end.

(** a plaintext argument at level l *)
Definition plain_ok (l : nat) (pt : poly) : Prop := ntt_poly (sk_p (keys l)) L pt.
Definition message_ok (l : nat) (pt : poly) : Prop := plain_ok l pt /\ forall i, (i < 2 ^ L)%nat -> 0 <= plain l pt i < t.

(** the documented preconditions: operands at the same level, keys for that
    level and for the right number of components, levels within the chain *)
Fixpoint wf (k : Z) (top : nat) (c : circuit) : Prop :=
  match c with
  | CEnc l G _ pt _ => (l <= top)%nat /\ prng_ok G /\ message_ok l pt
  | CPub l G pk be pt v _ => (l <= top)%nat /\ prng_ok G /\ message_ok l pt /\ pub_ok L t be (keys l) pk /\ 0 <= be /\ 1 <= v /\
      2 * v <= p_m (sk_p (keys l))
  | CAdd a b | CSub a b | CMul a b => wf k top a /\ wf k top b /\ level a = level b
  | CScale a c => wf k top a /\ stored (sk_p (keys (level a))) c
  | CAbsorb a pt => wf k top a /\ plain_ok (level a) pt
  | CFused a b pt => wf k top a /\ wf k top b /\ level a = level b /\ plain_ok (level b) pt
  | CRelin a rk => wf k top a /\ relin_ok L t (sk_var (keys (level a))) (keys (level a)) rk /\ rk_pow rk = 1 /\ rk_num rk = Z.of_nat (width a)
  | CRotate a gk => wf k top a /\ relin_ok L t (sk_var (keys (level a))) (keys (level a)) gk /\ rk_num gk = 2 /\ width a = 2%nat
  | CAux a ak => wf k top a /\ aux_ok L t (sk_var (keys (level a))) (keys (level a)) ak /\ ak_pow ak = 1 /\ aux_len ak = width a /\
      exists P, params_for k P (ak_px ak) /\ ntt_for (ak_px ak) L (ak_npx ak) /\ P <> p_m (sk_p (keys (level a))) /\ ~ (P | t)
  | CSwitch a => wf k top a /\ (S (level a) <= top)%nat
  | CSend a => wf k top a /\ Z.of_nat (width a) <= 2 ^ 15
  end.

(** every fresh ciphertext of the circuit could be made (sampling terminated) *)
Fixpoint leaves_ok (c : circuit) : Prop :=
  match c with
  | CEnc l G fuel pt s => exists x, encrypt G fuel (keys l) pt s = Ok x
  | CPub l G pk be pt v s => exists x, pub_encrypt G pk pt v s = Ok x
  | CAdd a b | CSub a b | CMul a b | CFused a b _ => leaves_ok a /\ leaves_ok b
  | CScale a _ | CAbsorb a _ | CRelin a _ | CAux a _ | CRotate a _ | CSwitch a | CSend a => leaves_ok a
  end.

(** a chain of keys: the same secret and plaintext modulus, moduli that decrease
    and agree modulo t *)
Record chain (k : Z) (top : nat) : Prop := {
  ch_key : forall l, (l <= top)%nat -> enc_key k (p_m (sk_p (keys l))) L t (keys l);
  ch_t : forall l, (l <= top)%nat -> 1 <= t <= p_m (sk_p (keys l));
  ch_var : forall l, (l <= top)%nat -> 0 <= sk_var (keys l) /\ 2 * sk_var (keys l) <= p_m (sk_p (keys l));
  ch_step : forall l, (S l <= top)%nat ->
    p_m (sk_p (keys (S l))) <= p_m (sk_p (keys l)) /\ p_m (sk_p (keys l)) mod t = p_m (sk_p (keys (S l))) mod t /\
    forall i, (i < 2 ^ L)%nat -> cong (p_m (sk_p (keys (S l)))) (secret (keys (S l)) i) (signed_secret (keys l) i)
}.
End Chain.
