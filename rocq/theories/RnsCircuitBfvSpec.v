(** Specification vocabulary for C77: running the expressions of
    RnsCircuitSpec.v on BFV ciphertexts. *)
From Coq Require Import QArith.
From Verif Require Import Base FinSum Montgomery MontBatch Prng RnsPoly RnsSpec RnsCtx RnsCtxSpec RnsCt RnsEncode RnsKey RnsGadget RnsSwitchSpec RnsPub RnsPubSpec RnsBfv RnsBfvSpec RnsCircuitSpec.
Local Open Scope Z_scope.

Section Bfv.
Variables (D : dops) (E : encoder) (raw : list Z -> list pmod -> result rpoly) (c : rctx) (keys : nat -> rskey).

(** plaintext operands at level l: EncodeBfv with and without scaling by Q/t *)
Definition bfv_scaled (l : nat) (msgs : list Z) : result rpoly := do! p <- en_bfv E msgs (at_level c l); ensure_ntt p (at_level c l).
Definition bfv_raw (l : nat) (msgs : list Z) : result rpoly := do! p <- raw msgs (at_level c l); ensure_ntt p (at_level c l).

(** calling the library *)
Fixpoint run_bfv (a : rcirc) : result rct :=
  match a with
  | REnc l R fuel msgs s => do! xs <- rsk_encrypt_bfv1 R fuel (keys l) E msgs s; Ok (fst xs)
  | RPub l R pk _ msgs s => do! xs <- rpk_encrypt_bfv R pk E msgs s; Ok (fst xs)
  | RNeg a => do! x <- run_bfv a; rct_neg x
  | RAdd a b => do! x <- run_bfv a; do! y <- run_bfv b; rct_add x y
  | RSub a b => do! x <- run_bfv a; do! y <- run_bfv b; rct_sub x y
  | RAddPlain a msgs => do! x <- run_bfv a; do! p <- bfv_scaled (rlevel a) msgs; rct_add_plain x p
  | RSubPlain a msgs => do! x <- run_bfv a; do! p <- bfv_scaled (rlevel a) msgs; rct_sub_plain x p
  | RAbsorb a msgs => do! x <- run_bfv a; do! p <- bfv_raw (rlevel a) msgs; bfv_absorb_simple x p
  | RAbsorbScaled a msgs => do! x <- run_bfv a; do! p <- bfv_scaled (rlevel a) msgs; bfv_absorb D c x p
  | RScale a x => do! y <- run_bfv a; rct_absorb_scalar y x
  | RFused a b msgs => do! x <- run_bfv a; do! y <- run_bfv b; do! p <- bfv_raw (rlevel b) msgs; rct_fused x y p
  | RMul a b => do! x <- run_bfv a; do! y <- run_bfv b; bfv_mul D c x y
  | RRelin a rr _ _ _ => do! x <- run_bfv a; rrelin_apply rr x
  | RSubst a _ _ gk _ _ _ => do! x <- run_bfv a; do! y <- rct_substitute x (gk_pow gk); galois_apply gk y
  | RReduce a => do! x <- run_bfv a; bfv_mod_reduce c x
  | RSend a => do! x <- run_bfv a; do! m <- rct_serialize x; rct_deserialize m (at_level c (rlevel a))
  end.

(** every fresh ciphertext could be made *)
Fixpoint bfv_leaves (a : rcirc) : Prop :=
  match a with
  | REnc l R fuel msgs s => exists x, rsk_encrypt_bfv1 R fuel (keys l) E msgs s = Ok x
  | RPub l R pk _ msgs s => exists x, rpk_encrypt_bfv R pk E msgs s = Ok x
  | RAdd a b | RSub a b | RMul a b | RFused a b _ => bfv_leaves a /\ bfv_leaves b
  | RNeg a | RAddPlain a _ | RSubPlain a _ | RAbsorb a _ | RAbsorbScaled a _ | RScale a _ | RRelin a _ _ _ _ | RSubst a _ _ _ _ _ _ | RReduce a | RSend a => bfv_leaves a
  end.
End Bfv.

(** What is specific to BFV: scaled plaintexts (so fresh ciphertexts, plaintext
    additions and AbsorbInPlace) and products of ciphertexts need all main
    primes; products need doubles precise enough to sum over the primes. *)
Section Top.
Variables (k : Z) (eps : Q) (c : rctx).
Definition at_top (l : nat) : Prop := S l = length (rc_qs c).
Definition products : Prop := roundable k eps (Z.of_nat (length (rc_qs c))) /\ roundable k eps (Z.of_nat (length (rc_ps c))).
Fixpoint bfv_ok (a : rcirc) : Prop :=
  match a with
  | REnc l _ _ _ _ | RPub l _ _ _ _ _ => at_top l
  | RAddPlain a _ | RSubPlain a _ => bfv_ok a /\ at_top (rlevel a)
  | RAbsorbScaled a _ => bfv_ok a /\ at_top (rlevel a) /\ products
  | RMul a b => bfv_ok a /\ bfv_ok b /\ at_top (rlevel a) /\ products
  | RAdd a b | RSub a b | RFused a b _ => bfv_ok a /\ bfv_ok b
  | RNeg a | RAbsorb a _ | RScale a _ | RRelin a _ _ _ _ | RSubst a _ _ _ _ _ _ | RReduce a | RSend a => bfv_ok a
  end.
End Top.

(** the worst-case distance between t times the phase and Q times the message:
    n is the degree, bs bounds the coefficients of the secret, qs and ps are the
    main and the auxiliary primes *)
Section BfvNoise.
Variables (n : nat) (t : Z) (qs ps : list Z) (keys : nat -> rskey) (bs : Z).
Fixpoint bfv_noise (a : rcirc) : Z :=
  match a with
  | REnc l _ _ _ _ => t + t * (2 * rsk_var (keys l))
  | RPub _ _ pk be _ _ => t + t * pub_bound n be (2 * rpk_var pk) bs
  | RNeg a | RSend a => bfv_noise a
  | RAdd a b | RSub a b => bfv_noise a + bfv_noise b
  | RAddPlain a _ | RSubPlain a _ => bfv_noise a + t
  | RAbsorb a _ => Z.of_nat n * (bfv_noise a * (t - 1))
  | RAbsorbScaled a _ => let g := key_bound n bs (rwidth a) in
      mul_noise n t (prodz ps) (prodz qs) (bfv_noise a) t g 1 g / (prodz ps * prodz qs)
  | RScale a x => x * bfv_noise a
  | RFused a b _ => bfv_noise a + Z.of_nat n * (bfv_noise b * (t - 1))
  | RMul a b => mul_noise n t (prodz ps) (prodz qs) (bfv_noise a) (bfv_noise b)
      (key_bound n bs (rwidth a)) (key_bound n bs (rwidth b)) (key_bound n bs (rwidth a + rwidth b - 1)) / (prodz ps * prodz qs)
  | RRelin a _ be B ws => bfv_noise a + t * (Z.of_nat (rwidth a - 2) * switch_bound n (length ws) B be)
  | RSubst a _ _ _ be B ws => bfv_noise a + t * switch_bound n (length ws) B be
  | RReduce a => let q := nth (rlevel a) qs 0 in (2 * bfv_noise a + t * q * key_bound n bs (rwidth a)) / (2 * q)
  end.
End BfvNoise.
