(** Specification vocabulary for C83: running a computation with the errors the
    ciphertexts report, and how much these reports can be relied on. *)
From Coq Require Import Reals.
From Verif Require Import Base Montgomery Prng RnsPoly RnsSpec RnsCtx RnsCtxSpec RnsCt RnsEncode RnsKey RnsGadget RnsPub RnsCircuitSpec ErrorEst RnsErrorEst.

(** [run_bgv] with the errors *)
Section Run.
Variables (E : encoder) (t : Z) (c : rctx) (keys : nat -> rskey) (e : rns_err).
Fixpoint run_reporting (a : rcirc) : result rtct :=
  match a with
  | REnc l R fuel msgs s => re_encrypt R fuel (keys l) E e msgs s
  | RPub l R pk _ msgs s => re_pub_encrypt R pk E e msgs s
  | RNeg a => do! x <- run_reporting a; re_neg x
  | RAdd a b => do! x <- run_reporting a; do! y <- run_reporting b; re_add x y
  | RSub a b => do! x <- run_reporting a; do! y <- run_reporting b; re_sub x y
  | RAddPlain a msgs => do! x <- run_reporting a; do! p <- bgv_plain E c (rlevel a) msgs; re_add_plain x p
  | RSubPlain a msgs => do! x <- run_reporting a; do! p <- bgv_plain E c (rlevel a) msgs; re_sub_plain x p
  | RAbsorb a msgs | RAbsorbScaled a msgs => do! x <- run_reporting a; do! p <- bgv_plain E c (rlevel a) msgs; re_absorb e x p
  | RScale a w => do! x <- run_reporting a; re_absorb_scalar x w
  | RFused a b msgs => do! x <- run_reporting a; do! y <- run_reporting b; do! p <- bgv_plain E c (rlevel b) msgs; re_fused e x y p
  | RMul a b => do! x <- run_reporting a; do! y <- run_reporting b; re_mul x y
  | RRelin a rr _ _ _ => do! x <- run_reporting a; re_relinearize e rr x
  | RSubst a _ _ gk _ _ _ => do! x <- run_reporting a; re_rotate e gk x
  | RReduce a => do! x <- run_reporting a;
      do! z <- get (rc_prime_q_invs c) (rlevel a); do! inv <- rnsint_prefix z (rlevel a); re_mod_reduce x t inv
  | RSend a => do! x <- run_reporting a; re_send x (at_level c (rlevel a))
  end.
End Run.

(** How many times smaller than the reported error the true one is, for degree n
    and variance v: a fresh ciphertext made with the secret key reports sqrt n
    times too much, and every operation uses some of this up. *)
Section Slack.
Local Open Scope R_scope.
Variables (n : nat) (v : Z).
Fixpoint slack (a : rcirc) : R :=
  match a with
  | REnc _ _ _ _ _ => sqrt (INR n)
  | RPub _ _ _ _ _ _ => 1
  | RNeg a | RSend a | RReduce a => slack a
  | RAdd a b | RSub a b => Rmin (slack a) (slack b)
  | RAddPlain a _ | RSubPlain a _ | RScale a _ => slack a / 2
  | RAbsorb a _ | RAbsorbScaled a _ => slack a * (2 * sqrt 3 / sqrt (INR n))
  | RFused a b _ => Rmin (slack a) (slack b * (2 * sqrt 3 / sqrt (INR n)))
  | RMul a b => slack a * slack b / INR n
  | RRelin a _ _ _ _ | RSubst a _ _ _ _ _ _ => Rmin (slack a) (4 / (sqrt 3 * sqrt (IZR v)))
  end.
End Slack.

(** What the estimates presuppose: all keys have the variance v, their errors are
    at most 2 v, the digits of a gadget are at most 2^LogGadgetBase(); nothing is
    multiplied by the scalar 0; and the modulus is reduced when there is something
    to gain, that is, the worst-case size of the phase is at least
    t (1 + 2 n v + ...). *)
Section Usual.
Variables (n : nat) (t v : Z) (c : rctx) (keys : nat -> rskey).
Definition usual_gadget (g : rgadget) (B be : Z) : Prop :=
  be <= 2 * v /\ exists lb, rg_log_base g = Ok lb /\ 0 <= lb <= 30 /\ B <= 2 ^ lb.
Fixpoint usual (a : rcirc) : Prop :=
  match a with
  | REnc l _ _ _ _ => rsk_var (keys l) = v
  | RPub _ _ pk be _ _ => rpk_var pk = v /\ be <= 2 * v
  | RNeg a | RSend a | RAddPlain a _ | RSubPlain a _ | RAbsorb a _ | RAbsorbScaled a _ => usual a
  | RScale a x => usual a /\ 1 <= x
  | RAdd a b | RSub a b | RFused a b _ | RMul a b => usual a /\ usual b
  | RRelin a rr be B _ => usual a /\ usual_gadget (rr_g rr) B be
  | RSubst a _ _ gk be B _ => usual a /\ usual_gadget (gk_g gk) B be
  | RReduce a => usual a /\ 2 * t <= nth (rlevel a) (moduli (rc_qs c)) 0 /\
      t * key_bound n (2 * v) (rwidth a) <= bgv_noise n t c keys (2 * v) a
  end.
End Usual.
