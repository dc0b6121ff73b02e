(** Model of the error estimates of RNS ciphertexts: rns/rns_error_params.h and
    the error_ member of the ciphertexts. The code computes them in double; here
    they are real numbers, that is, rounding is left out, as in ErrorEst.v. *)
From Coq Require Import Reals.
From Verif Require Import Base Montgomery Prng RnsPoly RnsCtx RnsCt RnsEncode RnsKey RnsGadget RnsPub ErrorEst.
Local Open Scope R_scope.

(** rns_error_params.h lines 171-183: members. The bit lengths of the moduli and
    their sums (lines 63-74, 108-111) are left out: nothing reads them. *)
Record rns_err := { re_logn : Z; re_dim : Z; re_logt : Z; re_sigma : R }.

(** rns/rns_error_params.h lines 46-78: Create; lines 113-118: the constructor computes [1 << log_n] in
    int. *)
Definition rns_err_create (log_n : Z) (main : list pmod) (log_t : Z) (sigma : R) : result rns_err :=
  if (log_n <=? 0)%Z then Err InvalidArgument
  else match main with
  | [] => Err InvalidArgument
  | _ =>
    if (log_t <=? 0)%Z then Err InvalidArgument
    else if Rle_dec sigma 0 then Err InvalidArgument
    else do! dim <- shl1 log_n; Ok {| re_logn := log_n; re_dim := dim; re_logt := log_t; re_sigma := sigma |}
  end.

(** rns/rns_error_params.h line 169: ExportDoubleT *)
Definition re_t (e : rns_err) : R := rns_export_t (re_logt e).
(** rns/rns_error_params.h lines 127-131: B_plaintext *)
Definition re_plaintext (e : rns_err) : R := re_t e * sqrt (3 * IZR (re_dim e)).
(** rns/rns_error_params.h lines 140-142: B_secretkey_encryption *)
Definition re_secretkey (e : rns_err) : R := re_t e * sqrt (IZR (re_dim e)) * (sqrt 3 + 6 * re_sigma e).
(** rns/rns_error_params.h lines 153-156: B_publickey_encryption *)
Definition re_publickey (e : rns_err) : R :=
  re_t e * (sqrt (IZR (re_dim e)) * (6 * re_sigma e + sqrt 3) + 72 * IZR (re_dim e) * re_sigma e * re_sigma e).
(** rns/rns_error_params.h lines 84-90: BoundOnGadgetBasedKeySwitching *)
Definition re_switch (e : rns_err) (num_components log_base num_digits : Z) : result R :=
  do! base <- shl1 log_base;
  do! dim <- shl1 (re_logn e);
  Ok (8 / sqrt 3 * re_t e * IZR num_digits * re_sigma e * IZR dim * IZR base * IZR num_components).

(** rns_gadget.h lines 91-94: LogGadgetBase; of an empty vector it would be
    undefined. *)
Definition rg_log_base (g : rgadget) : result Z :=
  match rg_logbs g with [] => UB | b :: bs => Ok (fold_right Z.max b bs) end.

(** rns/rns_ciphertext.h lines 496-512: a ciphertext together with its error_ member. *)
Definition rtct : Type := rct * R.

(** rns_secret_key.h lines 165-231: EncryptBgv *)
Definition re_encrypt (R : prng) (fuel : nat) (key : rskey) (E : encoder) (e : rns_err) (msgs : list Z) (s : pr_st R) : result rtct :=
  do! xs <- rsk_encrypt_bgv R fuel key E msgs s; Ok (fst xs, re_secretkey e).
(** rns_bgv_public_key.h lines 83-130: Encrypt *)
Definition re_pub_encrypt (R : prng) (pk : rpkey) (E : encoder) (e : rns_err) (msgs : list Z) (s : pr_st R) : result rtct :=
  do! xs <- rpk_encrypt_bgv R pk E msgs s; Ok (fst xs, re_publickey e).
(** rns_ciphertext.h lines 101-106: NegateInPlace *)
Definition re_neg (x : rtct) : result rtct := do! z <- rct_neg (fst x); Ok (z, snd x).
(** rns/rns_ciphertext.h lines 111-128, 143-160: AddInPlace, SubInPlace of a ciphertext *)
Definition re_add (x y : rtct) : result rtct := do! z <- rct_add (fst x) (fst y); Ok (z, snd x + snd y).
Definition re_sub (x y : rtct) : result rtct := do! z <- rct_sub (fst x) (fst y); Ok (z, snd x + snd y).
(** rns/rns_ciphertext.h lines 132-138, 164-170: AddInPlace, SubInPlace of a plaintext leave error_ *)
Definition re_add_plain (x : rtct) (p : rpoly) : result rtct := do! z <- rct_add_plain (fst x) p; Ok (z, snd x).
Definition re_sub_plain (x : rtct) (p : rpoly) : result rtct := do! z <- rct_sub_plain (fst x) p; Ok (z, snd x).
(** rns/rns_ciphertext.h lines 175-181: AbsorbInPlace of a plaintext *)
Definition re_absorb (e : rns_err) (x : rtct) (p : rpoly) : result rtct :=
  do! z <- rct_absorb (fst x) p; Ok (z, snd x * re_plaintext e).
(** rns/rns_ciphertext.h lines 227-234: AbsorbInPlace of a scalar *)
Definition re_absorb_scalar (x : rtct) (w : Z) : result rtct :=
  do! z <- rct_absorb_scalar (fst x) w; Ok (z, rns_scale_error (snd x) w).
(** rns/rns_ciphertext.h lines 237-258: FusedAbsorbAddInPlace *)
Definition re_fused (e : rns_err) (x y : rtct) (p : rpoly) : result rtct :=
  do! z <- rct_fused (fst x) (fst y) p; Ok (z, snd x + snd y * re_plaintext e).
(** rns/rns_ciphertext.h lines 383-406: Mul *)
Definition re_mul (x y : rtct) : result rtct := do! z <- rct_mul (fst x) (fst y); Ok (z, snd x * snd y).
(** rns_relinearization_key.h lines 82-93 and 158-164: ApplyTo; the number of
    components is Degree() - 1 *)
Definition re_relinearize (e : rns_err) (rr : rrelin) (x : rtct) : result rtct :=
  do! z <- rrelin_apply rr (fst x);
  do! lb <- rg_log_base (rr_g rr);
  do! b <- re_switch e (Z.of_nat (length (rt_c (fst x))) - 2) lb (Z.of_nat (rg_dimension (rr_g rr)));
  Ok (z, snd x + b).
(** rns_bgv_ciphertext.h lines 162-174: Substitute keeps error_; rns_galois_key.h
    lines 137-147 and 264-270: ApplyTo *)
Definition re_rotate (e : rns_err) (gk : rgalois) (x : rtct) : result rtct :=
  do! y <- rct_substitute (fst x) (gk_pow gk);
  do! z <- galois_apply gk y;
  do! lb <- rg_log_base (gk_g gk);
  do! b <- re_switch e 1 lb (Z.of_nat (rg_dimension (gk_g gk)));
  Ok (z, snd x + b).
(** rns_bgv_ciphertext.h lines 146-157: ModReduce leaves error_ *)
Definition re_mod_reduce (x : rtct) (t : Z) (inv : rnsint) : result rtct := do! z <- rbgv_mod_reduce (fst x) t inv; Ok (z, snd x).
(** rns_ciphertext.h lines 70-98: Serialize and Deserialize, which carry error_
    in the message *)
Definition re_send (x : rtct) (ms : list pmod) : result rtct :=
  do! m <- rct_serialize (fst x); do! z <- rct_deserialize m ms; Ok (z, snd x).
