(** Model of /repo/shell_encryption/public_key_encryption.{h,cc}.

    Simplifications: seeds are drawn by the system's entropy source; here they
    are arguments. Error estimates are omitted as in SymEnc.v
    (B_publickey_encryption fails only for a variance that has been refused
    before). Null pointers are not modelled. *)
From Verif Require Import Base Montgomery MontBatch Ntt Poly PolyExt Prng Sampling SymEnc Relin.

(** public_key_encryption.h lines 107-128: members. *)
Record pkey := { pk_a : poly; pk_b : poly; pk_seed : list Z; pk_type : Z; pk_t : Z; pk_np : nttp; pk_p : mparams }.

(** public_key_encryption.cc lines 48-115: Create. *)
Definition pub_create (F : genfam) (fuel : nat) (key : skey) (variance ty : Z) (seed seed_e : list Z) : result pkey :=
  if variance <=? 0 then Err InvalidArgument
  else if negb (known_type ty) then Err InvalidArgument
  else
    let p := sk_p key in
    do! s <- gf_start F ty seed;
    do! e <- gf_start F ty seed_e;
    do! ' (a, _) <- sample_polynomial (gf_prng F ty) fuel (Z.of_nat (length (sk_key key))) p s;
    do! ' (err, _) <- sample_error (gf_prng F ty) p (length (sk_key key)) variance e;
    do! b <- convert_to_ntt p (sk_np key) err;
    do! b <- poly_mul_scalar p b (sk_t key);
    do! b <- poly_fused_mul_add p b a (sk_key key);
    Ok {| pk_a := poly_neg p a; pk_b := b; pk_seed := seed; pk_type := ty; pk_t := sk_t key;
          pk_np := sk_np key; pk_p := p |}.

(** public_key_encryption.cc lines 119-168: Encrypt. *)
Definition pub_encrypt (R : prng) (pk : pkey) (plaintext : poly) (variance : Z) (s : pr_st R) : result (ct * pr_st R) :=
  if variance <=? 0 then Err InvalidArgument
  else
    let p := pk_p pk in
    let len := length (pk_a pk) in
    do! ' (vc, s) <- sample_error R p len variance s;
    do! v <- convert_to_ntt p (pk_np pk) vc;
    do! ' (e0, s) <- sample_error R p len variance s;
    do! ' (e1, s) <- sample_error R p len variance s;
    do! c0 <- convert_to_ntt p (pk_np pk) e0;
    do! c0 <- poly_mul_scalar p c0 (pk_t pk);
    do! c0 <- poly_fused_mul_add p c0 (pk_b pk) v;
    do! c0 <- poly_add p c0 plaintext;
    do! c1 <- convert_to_ntt p (pk_np pk) e1;
    do! c1 <- poly_mul_scalar p c1 (pk_t pk);
    do! c1 <- poly_fused_mul_add p c1 (pk_a pk) v;
    Ok (ct_make p [c0; c1] 1, s).

(** serialization.proto lines 82-89: message SerializedPublicRlweKey *)
Record spub := { spk_seed : list Z; spk_type : Z; spk_b : ser_poly }.

(** public_key_encryption.cc lines 171-178: Serialize. *)
Definition pub_serialize (pk : pkey) : result spub :=
  do! b <- poly_serialize (pk_p pk) (pk_b pk);
  Ok {| spk_seed := pk_seed pk; spk_type := pk_type pk; spk_b := b |}.

(** public_key_encryption.cc lines 182-219: Deserialize. *)
Definition pub_deserialize (F : genfam) (fuel : nat) (sp : spub) (t : Z) (p : mparams) (np : nttp) : result pkey :=
  if negb (known_type (spk_type sp)) then Err InvalidArgument
  else
    do! s <- gf_start F (spk_type sp) (spk_seed sp);
    do! ' (a, _) <- sample_polynomial (gf_prng F (spk_type sp)) fuel (Z.of_nat (np_n np)) p s;
    do! b <- poly_deserialize p (spk_b sp);
    Ok {| pk_a := poly_neg p a; pk_b := b; pk_seed := spk_seed sp; pk_type := spk_type sp; pk_t := t;
          pk_np := np; pk_p := p |}.
