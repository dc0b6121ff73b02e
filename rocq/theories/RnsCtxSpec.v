(** Specification vocabulary for RNS contexts. *)
From Coq Require Import Znumtheory.
From Verif Require Import Base Montgomery Ntt Spec NttFacts RnsPoly RnsSpec RnsCtx.

(** the arguments an application passes: a word size, different primes for the
    main and auxiliary moduli, a plaintext modulus that is neither 1 nor a word
    overflow *)
Definition ctx_args (k : Z) (qs ps : list Z) (t : Z) : Prop :=
  word_size k /\ Forall prime qs /\ Forall prime ps /\ NoDup (qs ++ ps) /\ 1 < t < 2 ^ k.

(** c was returned by one of the four factory functions *)
Definition ctx_made (k log_n : Z) (qs ps : list Z) (t : Z) (c : rctx) : Prop :=
  ctx_create k log_n qs ps t = Ok c \/ ctx_create_bgv_ff k log_n qs ps t = Ok c \/
  ctx_create_bfv k log_n qs ps t = Ok c \/ ctx_create_bfv_ff k log_n qs ps t = Ok c.

(** the same, for the two BFV factories *)
Definition ctx_made_bfv (k log_n : Z) (qs ps : list Z) (t : Z) (c : rctx) : Prop :=
  ctx_create_bfv k log_n qs ps t = Ok c \/ ctx_create_bfv_ff k log_n qs ps t = Ok c.

(** the moduli of level l: the first l + 1 main moduli *)
Definition at_level (c : rctx) (l : nat) : list pmod := firstn (S l) (rc_qs c).
