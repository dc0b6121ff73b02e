(** Model of rns/rns_secret_key.h and rns/rns_secret_key.cc.
    The arguments error_params and null pointers are not modelled. *)
From Verif Require Import Base Montgomery MontBatch Ntt Poly PolyExt Prng Sampling RnsPoly RnsCtx RnsCt RnsEncode.

(** rns/rns_secret_key.h lines 62-80: the Encoder template parameter: CoefficientEncoder or FiniteFieldEncoder. *)
Record encoder := {
  en_t : Z;                                            (* PlaintextModulus *)
  en_bgv : list Z -> list pmod -> result rpoly;         (* EncodeBgv *)
  en_unbgv : rpoly -> list pmod -> result (list Z);     (* DecodeBgv *)
  en_bfv : list Z -> list pmod -> result rpoly;         (* EncodeBfv, is_scaled = true *)
  en_unbfv : rpoly -> list pmod -> result (list Z)      (* DecodeBfv *)
}.

(** rns/coefficient_encoder.h as an Encoder of rns/rns_secret_key.h line 62 *)
Definition coeff_encoder (D : dops) (c : rctx) : encoder :=
  {| en_t := rc_t c; en_bgv := coeff_encode_bgv c; en_unbgv := coeff_decode_bgv c;
     en_bfv := fun m ms => coeff_encode_bfv c m ms true; en_unbfv := coeff_decode_bfv D c |}.

(** rns/finite_field_encoder.h as an Encoder of rns/rns_secret_key.h line 62 *)
Definition field_encoder (D : dops) (e : ffenc) : encoder :=
  {| en_t := rc_t (fe_ctx e); en_bgv := ff_encode_bgv e; en_unbgv := ff_decode_bgv e;
     en_bfv := fun m ms => ff_encode_bfv e m ms true; en_unbfv := ff_decode_bfv D e |}.

(** ** Secret keys *)

(** rns_secret_key.h lines 156-163: members. *)
Record rskey := { rsk_key : rpoly; rsk_ms : list pmod; rsk_var : Z }.

Section Keys.
Variable R : prng.
Local Notation S := (pr_st R).

(** rns_secret_key.cc lines 34-57: Sample. *)
Definition rsk_sample (log_n variance : Z) (ms : list pmod) (s : S) : result (rskey * S) :=
  if log_n <=? 0 then Err InvalidArgument
  else if variance <=? 0 then Err InvalidArgument
  else match ms with
  | [] => Err InvalidArgument
  | _ => do! ' (a, s) <- rns_sample_error R log_n variance ms s;
         Ok ({| rsk_key := a; rsk_ms := ms; rsk_var := variance |}, s)
  end.

(** rns/rns_secret_key.h lines 181-183, 327-329: "if (!x.IsNttForm()) x.ConvertToNttForm" *)
Definition ensure_ntt (a : rpoly) (ms : list pmod) : result rpoly := if rp_ntt a then Ok a else rns_to_ntt a ms.

(** rns_secret_key.h lines 188-231: EncryptPolynomialBgv. *)
Definition rsk_encrypt_poly_bgv (fuel : nat) (key : rskey) (plaintext : rpoly) (t : Z) (s : S) : result (rct * S) :=
  let ms := rsk_ms key in
  let log_n := Z.of_nat (rp_logn (rsk_key key)) in
  if negb (rp_ntt plaintext) then Err InvalidArgument
  else
    do! ' (a, s) <- rns_sample_uniform R fuel log_n ms s;
    do! ' (c0, s) <- rns_sample_error R log_n (rsk_var key) ms s;
    do! c0 <- rns_mul_scalar c0 t ms;
    do! c0 <- rns_add c0 plaintext ms;
    do! c0 <- rns_fused_mul_add c0 a (rsk_key key) ms;
    do! a <- rns_neg_in_place a ms;
    Ok (rct_make [c0; a] ms 1, s).

(** rns/rns_secret_key.h lines 166-186: EncryptBgv. *)
Definition rsk_encrypt_bgv (fuel : nat) (key : rskey) (E : encoder) (messages : list Z) (s : S) : result (rct * S) :=
  do! p <- en_bgv E messages (rsk_ms key);
  do! p <- ensure_ntt p (rsk_ms key);
  rsk_encrypt_poly_bgv fuel key p (en_t E) s.
End Keys.

(** rns_secret_key.cc lines 59-84: RawDecrypt; [i] counts the components. *)
Fixpoint raw_loop (key : rpoly) (ms : list pmod) (cs : list rpoly) (i : nat) (s_power out : rpoly) : result rpoly :=
  match cs with
  | [] => Ok out
  | ci :: cs' =>
      do! s_power <- (if (1 <? i)%nat then rns_mul s_power key ms else Ok s_power);
      do! ci <- (if (0 <? i)%nat then rns_mul ci s_power ms else Ok ci);
      do! out <- rns_add out ci ms;
      raw_loop key ms cs' (S i) s_power out
  end.
Definition rsk_raw_decrypt (key : rskey) (x : rct) : result rpoly :=
  do! zero <- rns_zero (Z.of_nat (rp_logn (rsk_key key))) (rsk_ms key) true;
  raw_loop (rsk_key key) (rsk_ms key) (rt_c x) 0 (rsk_key key) zero.

(** rns_secret_key.h lines 239-251 (= 274-288, 370-382): the checks of the
    decryption functions. *)
Definition rsk_check (key : rskey) (x : rct) : result unit :=
  if negb (rt_pow x =? 1) then Err InvalidArgument
  else match rt_c x with
  | [] => UB
  | c0 :: _ =>
      if negb (rp_logn c0 =? rp_logn (rsk_key key))%nat then Err InvalidArgument
      else if negb (same_len (rt_ms x) (rsk_ms key)) then Err InvalidArgument
      else Ok tt
  end.

(** rns/rns_secret_key.h lines 233-263: DecryptBgv. *)
Definition rsk_decrypt_bgv (key : rskey) (E : encoder) (x : rct) : result (list Z) :=
  do! _ <- rsk_check key x;
  do! a <- rsk_raw_decrypt key x;
  en_unbgv E a (rsk_ms key).

(** rns/rns_secret_key.h lines 265-301: DecryptBgvWithCrt, for the finite field encoder. *)
Definition rsk_decrypt_bgv_crt (K : Z) (key : rskey) (e : ffenc) (x : rct) (hats invs : list Z) : result (list Z) :=
  do! _ <- rsk_check key x;
  if negb (same_len hats invs) || negb (same_len hats (rsk_ms key)) then Err InvalidArgument
  else
    do! a <- rsk_raw_decrypt key x;
    ff_decode_bgv_crt K e a (rsk_ms key) hats invs.

(** rns_secret_key.cc lines 86-95: ModReduce. *)
Definition rsk_mod_reduce (key : rskey) : result rskey :=
  if (length (rsk_ms key) <=? 1)%nat then Err FailedPrecondition
  else
    do! ' (_, a) <- rns_detach (rsk_key key);
    Ok {| rsk_key := a; rsk_ms := firstn (length (rsk_ms key) - 1) (rsk_ms key); rsk_var := rsk_var key |}.

Section Bfv.
Variables R R' : prng.

(** rns_secret_key.h lines 303-353: EncryptBfv with separate generators for the
    error (R) and for the pad (R'). *)
Definition rsk_encrypt_bfv (fuel : nat) (key : rskey) (E : encoder) (messages : list Z) (s : pr_st R) (s' : pr_st R')
  : result (rct * pr_st R * pr_st R') :=
  let ms := rsk_ms key in
  let log_n := Z.of_nat (rp_logn (rsk_key key)) in
  do! p <- en_bfv E messages ms;
  do! p <- ensure_ntt p ms;
  do! ' (a, s') <- rns_sample_uniform R' fuel log_n ms s';
  do! ' (c0, s) <- rns_sample_error R log_n (rsk_var key) ms s;
  do! c0 <- rns_add c0 p ms;
  do! c0 <- rns_fused_mul_add c0 a (rsk_key key) ms;
  do! a <- rns_neg_in_place a ms;
  Ok (rct_make [c0; a] ms 1, s, s').

(** rns/rns_secret_key.h lines 355-362: EncryptBfv with one generator for both. *)
Definition rsk_encrypt_bfv1 (fuel : nat) (key : rskey) (E : encoder) (messages : list Z) (s : pr_st R)
  : result (rct * pr_st R) :=
  let ms := rsk_ms key in
  let log_n := Z.of_nat (rp_logn (rsk_key key)) in
  do! p <- en_bfv E messages ms;
  do! p <- ensure_ntt p ms;
  do! ' (a, s) <- rns_sample_uniform R fuel log_n ms s;
  do! ' (c0, s) <- rns_sample_error R log_n (rsk_var key) ms s;
  do! c0 <- rns_add c0 p ms;
  do! c0 <- rns_fused_mul_add c0 a (rsk_key key) ms;
  do! a <- rns_neg_in_place a ms;
  Ok (rct_make [c0; a] ms 1, s).
End Bfv.

(** rns_secret_key.h lines 364-394: DecryptBfv. *)
Definition rsk_decrypt_bfv (key : rskey) (E : encoder) (x : rct) : result (list Z) :=
  do! _ <- rsk_check key x;
  do! a <- rsk_raw_decrypt key x;
  en_unbfv E a (rsk_ms key).
