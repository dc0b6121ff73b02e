(** Model of rns/rns_public_key.h and .cc, rns/rns_bgv_public_key.h and
    rns/rns_bfv_public_key.h.

    Simplifications: seeds are drawn by the system's entropy source; here they
    are arguments. The argument error_params and null pointers are not
    modelled. *)
From Verif Require Import Base Montgomery MontBatch Ntt Poly PolyExt Prng Sampling Relin RnsPoly RnsCtx RnsCt RnsEncode RnsKey.

(** rns_public_key.h lines 84-99: members. *)
Record rpkey := { rpk_a : rpoly; rpk_b : rpoly; rpk_ms : list pmod; rpk_var : Z; rpk_seed : list Z; rpk_type : Z }.

(** rns_public_key.cc lines 40-97: Create; rns_bgv_public_key.h lines 53-62 pass
    the plaintext modulus as error_scalar, rns_bfv_public_key.h lines 53-60 the
    default 1. *)
Definition rpk_create (F : genfam) (fuel : nat) (key : rskey) (variance ty error_scalar : Z) (seed seed_e : list Z) : result rpkey :=
  if variance <=? 0 then Err InvalidArgument
  else if negb (known_type ty) then Err InvalidArgument
  else
    let ms := rsk_ms key in
    let log_n := Z.of_nat (rp_logn (rsk_key key)) in
    do! s <- gf_start F ty seed;
    do! s_e <- gf_start F ty seed_e;
    do! ' (u, _) <- rns_sample_uniform (gf_prng F ty) fuel log_n ms s;
    do! ' (b, _) <- rns_sample_error (gf_prng F ty) log_n variance ms s_e;
    do! b <- rns_mul_scalar b error_scalar ms;
    do! b <- rns_fused_mul_add b u (rsk_key key) ms;
    do! u <- rns_neg_in_place u ms;
    Ok {| rpk_a := u; rpk_b := b; rpk_ms := ms; rpk_var := variance; rpk_seed := seed; rpk_type := ty |}.

Section Encrypt.
Variable R : prng.

(** rns_bgv_public_key.h lines 82-130: Encrypt. *)
Definition rpk_encrypt_bgv (pk : rpkey) (E : encoder) (messages : list Z) (s : pr_st R) : result (rct * pr_st R) :=
  let ms := rpk_ms pk in
  let log_n := Z.of_nat (rp_logn (rpk_a pk)) in
  do! p <- en_bgv E messages ms;
  do! p <- ensure_ntt p ms;
  do! ' (r, s) <- rns_sample_error R log_n (rpk_var pk) ms s;
  do! ' (c0, s) <- rns_sample_error R log_n (rpk_var pk) ms s;
  do! c0 <- rns_mul_scalar c0 (en_t E) ms;
  do! c0 <- rns_fused_mul_add c0 (rpk_b pk) r ms;
  do! c0 <- rns_add c0 p ms;
  do! ' (c1, s) <- rns_sample_error R log_n (rpk_var pk) ms s;
  do! c1 <- rns_mul_scalar c1 (en_t E) ms;
  do! c1 <- rns_fused_mul_add c1 (rpk_a pk) r ms;
  Ok (rct_make [c0; c1] ms 1, s).

(** rns_bfv_public_key.h lines 80-127: Encrypt. *)
Definition rpk_encrypt_bfv (pk : rpkey) (E : encoder) (messages : list Z) (s : pr_st R) : result (rct * pr_st R) :=
  let ms := rpk_ms pk in
  let log_n := Z.of_nat (rp_logn (rpk_a pk)) in
  do! p <- en_bfv E messages ms;
  do! p <- ensure_ntt p ms;
  do! ' (r, s) <- rns_sample_error R log_n (rpk_var pk) ms s;
  do! ' (c0, s) <- rns_sample_error R log_n (rpk_var pk) ms s;
  do! c0 <- rns_fused_mul_add c0 (rpk_b pk) r ms;
  do! c0 <- rns_add c0 p ms;
  do! ' (c1, s) <- rns_sample_error R log_n (rpk_var pk) ms s;
  do! c1 <- rns_fused_mul_add c1 (rpk_a pk) r ms;
  Ok (rct_make [c0; c1] ms 1, s).
End Encrypt.
