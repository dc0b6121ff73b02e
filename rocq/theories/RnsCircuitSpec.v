(** Specification vocabulary for C76 and C77: what a user computes with RNS
    ciphertexts, as an expression, and what it stands for. *)
From Coq Require Import QArith.
From Verif Require Import Base FinSum PolySpec NegRing SymSpec Montgomery MontBatch Spec Prng Sampling SampleSpec RnsPoly RnsSpec RnsCtx RnsCtxSpec RnsCt RnsCtSpec
  RnsEncode RnsEncodeSpec RnsKey RnsKeySpec RnsGadget RnsGadgetSpec RnsSwitchSpec RnsPub RnsPubSpec RnsBfv RnsBfvSpec FieldSpec.
Local Open Scope Z_scope.
Local Notation zsum := FinSum.zsum.

(** A computation on ciphertexts. Fresh ciphertexts are made at a level, from
    messages, by the secret key of that level or by a public key; plaintext
    operands are given by their messages. [RSubst] substitutes X -> X^p and
    switches back with the Galois key, for p = 5^r or, with [swap], p = -5^r
    modulo 2n. [RReduce] is ModReduce and [RSend] serializes and deserializes.
    [RAbsorbScaled] is AbsorbInPlace of BFV ciphertexts, and for them [RAbsorb]
    is AbsorbInPlaceSimple. The numbers be, B and the list ws describe the keys:
    a bound of their errors, and the gadget's digits and vector. *)
Inductive rcirc :=
| REnc (l : nat) (R : prng) (fuel : nat) (msgs : list Z) (s : pr_st R)
| RPub (l : nat) (R : prng) (pk : rpkey) (be : Z) (msgs : list Z) (s : pr_st R)
| RNeg (a : rcirc)
| RAdd (a b : rcirc)
| RSub (a b : rcirc)
| RAddPlain (a : rcirc) (msgs : list Z)
| RSubPlain (a : rcirc) (msgs : list Z)
| RAbsorb (a : rcirc) (msgs : list Z)
| RAbsorbScaled (a : rcirc) (msgs : list Z)
| RScale (a : rcirc) (x : Z)
| RFused (a b : rcirc) (msgs : list Z)
| RMul (a b : rcirc)
| RRelin (a : rcirc) (rr : rrelin) (be B : Z) (ws : list Z)
| RSubst (a : rcirc) (swap : bool) (r : nat) (gk : rgalois) (be B : Z) (ws : list Z)
| RReduce (a : rcirc)
| RSend (a : rcirc).

(** the level of the result *)
Fixpoint rlevel (a : rcirc) : nat :=
  match a with
  | REnc l _ _ _ _ | RPub l _ _ _ _ _ => l
  | RNeg a | RAdd a _ | RSub a _ | RAddPlain a _ | RSubPlain a _ | RAbsorb a _ | RAbsorbScaled a _ | RScale a _ | RFused a _ _ | RMul a _
  | RRelin a _ _ _ _ | RSubst a _ _ _ _ _ _ | RSend a => rlevel a
  | RReduce a => rlevel a - 1
  end.

(** the number of components of the result *)
Fixpoint rwidth (a : rcirc) : nat :=
  match a with
  | REnc _ _ _ _ _ | RPub _ _ _ _ _ _ | RRelin _ _ _ _ _ | RSubst _ _ _ _ _ _ _ => 2
  | RNeg a | RAdd a _ | RSub a _ | RAddPlain a _ | RSubPlain a _ | RAbsorb a _ | RAbsorbScaled a _ | RScale a _ | RFused a _ _ | RReduce a | RSend a => rwidth a
  | RMul a b => rwidth a + rwidth b - 1
  end.

(** ** What it computes *)

(** The same operations on the messages, for a product and a substitution of
    vectors (to be read modulo t). *)
Section Values.
Variable mul : (nat -> Z) -> (nat -> Z) -> nat -> Z.
Variable move : bool -> nat -> (nat -> Z) -> nat -> Z.
Fixpoint values (a : rcirc) : nat -> Z :=
  match a with
  | REnc _ _ _ msgs _ | RPub _ _ _ _ msgs _ => fun i => nth i msgs 0
  | RNeg a => fun i => - values a i
  | RAdd a b => fun i => values a i + values b i
  | RSub a b => fun i => values a i - values b i
  | RAddPlain a msgs => fun i => values a i + nth i msgs 0
  | RSubPlain a msgs => fun i => values a i - nth i msgs 0
  | RAbsorb a msgs | RAbsorbScaled a msgs => mul (values a) (fun i => nth i msgs 0)
  | RScale a x => fun i => x * values a i
  | RFused a b msgs => fun i => values a i + mul (values b) (fun i => nth i msgs 0) i
  | RMul a b => mul (values a) (values b)
  | RSubst a swap r _ _ _ _ => move swap r (values a)
  | RRelin a _ _ _ _ | RReduce a | RSend a => values a
  end.
End Values.

(** the power p of [RSubst] *)
Definition move_power (n : nat) (swap : bool) (r : nat) : Z := ((if swap then -1 else 1) * 5 ^ Z.of_nat r) mod (2 * Z.of_nat n).

(** messages as coefficients: polynomials modulo X^n + 1 *)
Definition as_polynomial (n : nat) : rcirc -> nat -> Z :=
  values (negacyclic n) (fun swap r => substituted n (Z.to_nat (move_power n swap r))).

(** messages in slots: everything happens slot by slot, and a substitution
    rotates both halves of the slots and possibly swaps them *)
Definition as_slots (n : nat) : rcirc -> nat -> Z :=
  values (fun f g i => f i * g i) (fun swap r f i => f (rotated_slot n r (if swap then swapped_slot n i else i))).

(** ** Preconditions *)

Section Preconditions.
Variables (k : Z) (L : nat) (t : Z) (c : rctx) (sk : nat -> Z).
(** the error scalar of the keys: t for BGV and 1 for BFV *)
Variable scalar : Z.

Definition msgs_ok (msgs : list Z) : Prop := (length msgs <= 2 ^ L)%nat /\ Forall (fun m => 0 <= m < t) msgs.

(** operands at the same level, additions of ciphertexts of the same length,
    keys for that level, levels within the chain *)
Fixpoint rwf (a : rcirc) : Prop :=
  match a with
  | REnc l R _ msgs _ => (l < length (rc_qs c))%nat /\ prng_ok R /\ msgs_ok msgs
  | RPub l R pk be msgs _ => (l < length (rc_qs c))%nat /\ prng_ok R /\ msgs_ok msgs /\ public_key (at_level c l) L sk scalar be pk /\ 0 <= be /\
      variance_fits (rpk_var pk) (at_level c l)
  | RNeg a | RSend a => rwf a
  | RAdd a b | RSub a b => rwf a /\ rwf b /\ rlevel a = rlevel b /\ rwidth a = rwidth b
  | RAddPlain a msgs | RSubPlain a msgs | RAbsorb a msgs | RAbsorbScaled a msgs => rwf a /\ msgs_ok msgs
  | RScale a x => rwf a /\ 0 <= x < 2 ^ k
  | RFused a b msgs => rwf a /\ rwf b /\ rlevel a = rlevel b /\ rwidth a = rwidth b /\ msgs_ok msgs
  | RMul a b => rwf a /\ rwf b /\ rlevel a = rlevel b
  | RRelin a rr be B ws => rwf a /\ relin_key (at_level c (rlevel a)) L sk scalar be B ws rr /\ 0 <= B /\ 0 <= be /\
      (2 <= rwidth a)%nat /\ Z.of_nat (rwidth a) - 1 <= rr_deg rr /\ (rwidth a <= 3 \/ rwidth a = S (length ws))%nat
  | RSubst a swap r gk be B ws => rwf a /\ galois_key (at_level c (rlevel a)) L sk scalar be B ws gk /\ 0 <= B /\ 0 <= be /\
      rwidth a = 2%nat /\ gk_pow gk = move_power (2 ^ L) swap r
  | RReduce a => rwf a /\ (1 <= rlevel a)%nat
  end.
End Preconditions.

(** the keys of the levels: the same secret, with coefficients of absolute value
    at most bs, and error variances that fit *)
Record rkeys (L : nat) (c : rctx) (sk : nat -> Z) (bs : Z) (keys : nat -> rskey) : Prop := {
  rk_key : forall l, (l < length (rc_qs c))%nat -> key_is (at_level c l) L (keys l) sk;
  rk_var : forall l, (l < length (rc_qs c))%nat -> variance_fits (rsk_var (keys l)) (at_level c l);
  rk_bound : bounded (2 ^ L) bs sk
}.

(** ** BGV *)

Section Bgv.
Variables (E : encoder) (t : Z) (c : rctx) (keys : nat -> rskey).

(** a plaintext operand at level l *)
Definition bgv_plain (l : nat) (msgs : list Z) : result rpoly :=
  do! p <- en_bgv E msgs (at_level c l); ensure_ntt p (at_level c l).

(** calling the library *)
Fixpoint run_bgv (a : rcirc) : result rct :=
  match a with
  | REnc l R fuel msgs s => do! xs <- rsk_encrypt_bgv R fuel (keys l) E msgs s; Ok (fst xs)
  | RPub l R pk _ msgs s => do! xs <- rpk_encrypt_bgv R pk E msgs s; Ok (fst xs)
  | RNeg a => do! x <- run_bgv a; rct_neg x
  | RAdd a b => do! x <- run_bgv a; do! y <- run_bgv b; rct_add x y
  | RSub a b => do! x <- run_bgv a; do! y <- run_bgv b; rct_sub x y
  | RAddPlain a msgs => do! x <- run_bgv a; do! p <- bgv_plain (rlevel a) msgs; rct_add_plain x p
  | RSubPlain a msgs => do! x <- run_bgv a; do! p <- bgv_plain (rlevel a) msgs; rct_sub_plain x p
  | RAbsorb a msgs | RAbsorbScaled a msgs => do! x <- run_bgv a; do! p <- bgv_plain (rlevel a) msgs; rct_absorb x p
  | RScale a x => do! y <- run_bgv a; rct_absorb_scalar y x
  | RFused a b msgs => do! x <- run_bgv a; do! y <- run_bgv b; do! p <- bgv_plain (rlevel b) msgs; rct_fused x y p
  | RMul a b => do! x <- run_bgv a; do! y <- run_bgv b; rct_mul x y
  | RRelin a rr _ _ _ => do! x <- run_bgv a; rrelin_apply rr x
  | RSubst a _ _ gk _ _ _ => do! x <- run_bgv a; do! y <- rct_substitute x (gk_pow gk); galois_apply gk y
  | RReduce a => do! x <- run_bgv a;
      do! z <- get (rc_prime_q_invs c) (rlevel a); do! inv <- rnsint_prefix z (rlevel a); rbgv_mod_reduce x t inv
  | RSend a => do! x <- run_bgv a; do! m <- rct_serialize x; rct_deserialize m (at_level c (rlevel a))
  end.

(** every fresh ciphertext could be made (sampling terminated) *)
Fixpoint bgv_leaves (a : rcirc) : Prop :=
  match a with
  | REnc l R fuel msgs s => exists x, rsk_encrypt_bgv R fuel (keys l) E msgs s = Ok x
  | RPub l R pk _ msgs s => exists x, rpk_encrypt_bgv R pk E msgs s = Ok x
  | RAdd a b | RSub a b | RMul a b | RFused a b _ => bgv_leaves a /\ bgv_leaves b
  | RNeg a | RAddPlain a _ | RSubPlain a _ | RAbsorb a _ | RAbsorbScaled a _ | RScale a _ | RRelin a _ _ _ _ | RSubst a _ _ _ _ _ _ | RReduce a | RSend a => bgv_leaves a
  end.
End Bgv.

(** 1 + n bs + ... + (n bs)^(len - 1): a bound of [key_size] when the
    coefficients of the key have absolute value at most bs *)
Definition key_bound (n : nat) (bs : Z) (len : nat) : Z := zsum len (fun e => (Z.of_nat n * bs) ^ Z.of_nat e).

(** the worst-case size of the phase, computed from the circuit: n is the
    degree, bs bounds the coefficients of the secret *)
Section BgvNoise.
Variables (n : nat) (t : Z) (c : rctx) (keys : nat -> rskey) (bs : Z).
Fixpoint bgv_noise (a : rcirc) : Z :=
  match a with
  | REnc l _ _ _ _ => t / 2 + t * (2 * rsk_var (keys l))
  | RPub _ _ pk be _ _ => t / 2 + t * pub_bound n be (2 * rpk_var pk) bs
  | RNeg a | RSend a => bgv_noise a
  | RAdd a b | RSub a b => bgv_noise a + bgv_noise b
  | RAddPlain a _ | RSubPlain a _ => bgv_noise a + t / 2
  | RAbsorb a _ | RAbsorbScaled a _ => Z.of_nat n * (bgv_noise a * (t / 2))
  | RScale a x => x * bgv_noise a
  | RFused a b _ => bgv_noise a + Z.of_nat n * (bgv_noise b * (t / 2))
  | RMul a b => Z.of_nat n * (bgv_noise a * bgv_noise b)
  | RRelin a _ be B ws => bgv_noise a + t * (Z.of_nat (rwidth a - 2) * switch_bound n (length ws) B be)
  | RSubst a _ _ _ be B ws => bgv_noise a + t * switch_bound n (length ws) B be
  | RReduce a => let q := nth (rlevel a) (moduli (rc_qs c)) 0 in
      (2 * (q mod t) * bgv_noise a + t * (q - 1) * key_bound n bs (rwidth a)) / (2 * q)
  end.
End BgvNoise.
