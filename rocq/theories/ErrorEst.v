(** Model of the error estimates: error_params.h, rns/rns_error_params.h and the
    error_ member of the ciphertexts. The code computes them in double; here they
    are real numbers, that is, rounding is left out. *)
From Coq Require Import Reals.
From Verif Require Import Base Montgomery Ntt Poly SymEnc Prng Sampling Relin PubKey.
Local Open Scope R_scope.

(** error_params.h lines 122-135 and 176-182: the constructor and members. ExportDoubleT (lines 172-174) is
    the low 64 bits of t. *)
Record err_params := { ep_t : Z; ep_dim : nat; ep_sigma : R; ep_logm : Z }.
Definition export_t (e : err_params) : R := IZR (ep_t e mod 2 ^ 64)%Z.
Definition mk_err_params (t : Z) (n : nat) (variance logm : Z) : err_params :=
  {| ep_t := t; ep_dim := n; ep_sigma := sqrt (IZR variance); ep_logm := logm |}.

(** error_params.h lines 143-147: B_plaintext. *)
Definition b_plaintext (e : err_params) : R := export_t e * sqrt (3 * INR (ep_dim e)).
(** error_params.h lines 156-158: B_encryption. *)
Definition b_encryption (e : err_params) : R := export_t e * sqrt (INR (ep_dim e)) * (sqrt 3 + 6 * ep_sigma e).
(** error_params.h lines 165-168: B_scale. *)
Definition b_scale (e : err_params) : R :=
  export_t e * (sqrt (3 * INR (ep_dim e)) + 8 * INR (ep_dim e) * sqrt (1 / 3)).
(** error_params.h lines 68-77: B_relinearize. [1 << log_base] is computed in int: undefined from
    32 on, and -2^31 for 31. *)
Definition shl1 (x : Z) : result Z :=
  if (32 <=? x)%Z then UB else if (x =? 31)%Z then Ok (- 2 ^ 31)%Z else Ok (2 ^ x)%Z.
Definition b_relinearize (e : err_params) (num_components log_base : Z) : result R :=
  do! base <- shl1 log_base;
  Ok (8 / sqrt 3 * export_t e * IZR ((log_base + ep_logm e - 1) / log_base) * ep_sigma e * INR (ep_dim e) * IZR base * IZR num_components).
(** error_params.h lines 109-118: B_publickey_encryption, for a positive variance. *)
Definition b_publickey (e : err_params) (n : nat) (variance : Z) : R :=
  export_t e * (sqrt (INR n) * (6 * sqrt (IZR variance) + sqrt 3) + 72 * INR n * IZR variance).

(** symmetric_encryption.h lines 593-607: a ciphertext together with its error_ member. *)
Definition tct : Type := ct * R.

(** symmetric_encryption.h lines 1006-1023: Encrypt. *)
Definition t_encrypt (G : prng) (fuel : nat) (key : skey) (e : err_params) (pt : poly) (s : pr_st G) : result tct :=
  do! ' (x, _) <- encrypt G fuel key pt s; Ok (x, b_encryption e).
(** symmetric_encryption.h lines 118-135, 162-179: AddInPlace, SubInPlace. *)
Definition t_add (x y : tct) : result tct := do! z <- ct_add (fst x) (fst y); Ok (z, snd x + snd y).
Definition t_sub (x y : tct) : result tct := do! z <- ct_sub (fst x) (fst y); Ok (z, snd x + snd y).
(** symmetric_encryption.h lines 221-227: AbsorbInPlace of a polynomial. *)
Definition t_absorb (e : err_params) (x : tct) (b : poly) : result tct :=
  do! z <- ct_absorb (fst x) b; Ok (z, snd x * b_plaintext e).
(** symmetric_encryption.h lines 238-244: AbsorbInPlace of a scalar. *)
Definition t_scale (x : tct) (c : Z) : result tct :=
  do! z <- ct_absorb_scalar (fst x) c; Ok (z, snd x * IZR (export_int (ct_p (fst x)) c)).
(** symmetric_encryption.h lines 408-435: operator*. *)
Definition t_mul (x y : tct) : result tct := do! z <- ct_mul (fst x) (fst y); Ok (z, snd x * snd y).
(** symmetric_encryption.h lines 441-483: SwitchModulus; GetDouble is exact here. *)
Definition t_switch (npp : nttp) (pq : mparams) (npq : nttp) (eq : err_params) (t : Z) (x : tct) : result tct :=
  do! z <- ct_switch_modulus npp pq npq t (fst x);
  Ok (z, IZR (p_m pq) / IZR (p_m (ct_p (fst x))) * snd x + b_scale eq).
(** relinearization_key.cc lines 338-344: ApplyTo with the error of its result. *)
Definition t_relinearize (e : err_params) (rk : relin) (x : tct) : result tct :=
  do! z <- relin_apply rk (fst x);
  do! b <- b_relinearize e (Z.of_nat (length (rk_parts rk))) (rk_logT rk);
  Ok (z, snd x + b).
(** symmetric_encryption.h lines 517-532: Substitute keeps the error; galois_key.h
    lines 66-75: ApplyTo of the Galois key, by the relinearization key. *)
Definition t_rotate (e : err_params) (np : nttp) (gk : relin) (x : tct) : result tct :=
  do! sub <- ct_substitute np (rk_pow gk) (fst x);
  do! z <- galois_apply gk sub;
  do! b <- b_relinearize e (Z.of_nat (length (rk_parts gk))) (rk_logT gk);
  Ok (z, snd x + b).
(** public_key_encryption.cc lines 119-168: Encrypt, with the error of its result. *)
Definition t_pub_encrypt (G : prng) (pk : pkey) (e : err_params) (pt : poly) (variance : Z) (s : pr_st G) : result tct :=
  do! ' (x, _) <- pub_encrypt G pk pt variance s;
  Ok (x, b_publickey e (ep_dim e) variance).

(** rns_error_params.h line 169: ExportDoubleT is pow(log_plaintext_modulus, 2). *)
Definition rns_export_t (log_t : Z) : R := IZR log_t * IZR log_t.
(** rns/rns_error_params.h lines 140-142: B_secretkey_encryption. *)
Definition rns_b_encryption (log_n : nat) (log_t : Z) (sigma : R) : R :=
  rns_export_t log_t * sqrt (INR (2 ^ log_n)) * (sqrt 3 + 6 * sigma).
(** rns_ciphertext.h line 232: the error after absorbing a scalar. *)
Definition rns_scale_error (err : R) (scalar : Z) : R := err * (IZR scalar / 2).
