(** Model of rns/rns_bfv_ciphertext.h and .cc. The operators of rns_bfv_ciphertext.h lines 67-142
    copy the object and call the methods of RnsCt.v; Substitute (lines
    190-202 of the header) is [rct_substitute], like that of BGV ciphertexts.

    Simplifications: context_ is an argument, so a ciphertext built from a plain
    RLWE ciphertext, whose context_ is not initialised (rns_bfv_ciphertext.h lines 57-58), is not
    modelled; neither are error estimates. *)
From Verif Require Import Base Montgomery MontBatch RnsPoly RnsCtx RnsCt.

Section Bfv.
Variable D : dops.
Variable c : rctx.

(** rns/rns_ciphertext.h line 452: Level() of a ciphertext over the moduli ms *)
Definition level_of (ms : list pmod) : Z := Z.of_nat (length ms) - 1.

(** rns/rns_bfv_ciphertext.cc lines 65-77, 165-177: P/t * ci modulo P and modulo Q, for ci in coefficient
    form: (ci_scaled_aux, ci_scaled_main), both in coefficient form. *)
Definition bfv_scale (ms : list pmod) (hat_inv : list Z) (ci : rpoly) : result (rpoly * rpoly) :=
  do! aux <- rns_scale_and_switch D ci ms (rc_ps c) hat_inv (rc_q_inv_mod_ps c) (rc_p_mod_qs c);
  do! main <- rns_switch_basis D aux (rc_ps c) ms (rc_p_hat_invs c) (rc_p_hat_mod_qs c) (rc_p_mod_qs c);
  Ok (aux, main).

(** rns/rns_bfv_ciphertext.cc lines 86-91, 191-199 *)
Definition bfv_reduce (ms : list pmod) (main aux : rpoly) : result rpoly :=
  rns_scale_and_reduce D main aux (rc_t c) ms (rc_ps c) (rc_p_hat_invs c) (rc_p_hat_mod_qs c) (rc_p_mod_qs c) (rc_p_inv_mod_qs c).

(** rns/rns_bfv_ciphertext.cc lines 61-93: one component. *)
Definition bfv_absorb_one (ms : list pmod) (hat_inv : list Z) (plain plain_aux : rpoly) (ci : rpoly) : result rpoly :=
  do! ci <- (if rp_ntt ci then rns_to_coeff ci ms else Ok ci);
  do! ' (aux, main) <- bfv_scale ms hat_inv ci;
  do! main <- rns_to_ntt main ms;
  do! main <- rns_mul main plain ms;
  do! aux <- rns_to_ntt aux (rc_ps c);
  do! aux <- rns_mul aux plain_aux (rc_ps c);
  bfv_reduce ms main aux.

(** rns/rns_bfv_ciphertext.cc lines 33-97: AbsorbInPlace of an encoded plaintext. *)
Definition bfv_absorb (x : rct) (plain : rpoly) : result rct :=
  let ms := rt_ms x in
  if negb (rp_ntt plain) then Err InvalidArgument
  else
    do! hat_inv <- main_crt_factors c (level_of ms);
    do! hat_mod <- main_complement_residues c (level_of ms);
    do! q_mod <- main_leveled_aux_residues c (level_of ms);
    do! pc <- rns_to_coeff plain ms;
    do! pa <- rns_switch_basis D pc ms (rc_ps c) hat_inv hat_mod q_mod;
    do! pa <- rns_to_ntt pa (rc_ps c);
    rct_map (bfv_absorb_one ms hat_inv plain pa) x.

(** rns/rns_bfv_ciphertext.cc lines 160-189: the tensor product. The code alternates between the
    products modulo Q and modulo P of one pair of components; here each row is
    done modulo Q first, which only changes the order of independent steps. *)
Fixpoint bfv_rows (ms : list pmod) (hat_inv : list Z) (cs d d_aux : list rpoly) (idx : nat) (res res_aux : list rpoly)
  : result (list rpoly * list rpoly) :=
  match cs with
  | [] => Ok (res, res_aux)
  | ci :: cs =>
      do! ci <- rns_to_coeff ci ms;
      do! ' (aux, main) <- bfv_scale ms hat_inv ci;
      do! main <- rns_to_ntt main ms;
      do! aux <- rns_to_ntt aux (rc_ps c);
      do! res <- rct_mul_row ms main d idx res;
      do! res_aux <- rct_mul_row (rc_ps c) aux d_aux idx res_aux;
      bfv_rows ms hat_inv cs d d_aux (S idx) res res_aux
  end.

(** rns/rns_bfv_ciphertext.cc lines 99-205: Mul. LogN() of a ciphertext without components is
    undefined. *)
Definition bfv_mul (x y : rct) : result rct :=
  let ms := rt_ms x in
  if negb (same_len ms (rt_ms y)) then Err InvalidArgument
  else if negb (rt_pow x =? rt_pow y) then Err InvalidArgument
  else
    do! hat_inv <- main_crt_factors c (level_of ms);
    do! hat_mod <- main_complement_residues c (level_of ms);
    do! q_mod <- main_leveled_aux_residues c (level_of ms);
    do! y_aux <- seqr (map (fun ci =>
      do! ci <- rns_to_coeff ci ms;
      do! ca <- rns_switch_basis D ci ms (rc_ps c) hat_inv hat_mod q_mod;
      rns_to_ntt ca (rc_ps c)) (rt_c y));
    match rt_c x with
    | [] => UB
    | x0 :: _ =>
        do! zero <- rns_zero (Z.of_nat (rp_logn x0)) ms true;
        do! zero_aux <- rns_zero (Z.of_nat (rp_logn x0)) (rc_ps c) true;
        let size := (length (rt_c x) + length (rt_c y) - 1)%nat in
        do! ' (tensor, tensor_aux) <- bfv_rows ms hat_inv (rt_c x) (rt_c y) y_aux 0 (repeat zero size) (repeat zero_aux size);
        do! res <- seqr (map2 (bfv_reduce ms) tensor tensor_aux);
        Ok (rct_make res ms (rt_pow x))
    end.

(** rns/rns_bfv_ciphertext.cc lines 207-222: AbsorbInPlaceSimple of an unscaled plaintext. *)
Definition bfv_absorb_simple (x : rct) (plain : rpoly) : result rct :=
  if negb (level_of (rt_ms x) + 1 =? Z.of_nat (length (rp_vs plain))) then Err InvalidArgument
  else if negb (rp_ntt plain) then Err InvalidArgument
  else rct_map (fun ci => rns_mul ci plain (rt_ms x)) x.

(** rns/rns_bfv_ciphertext.h lines 171-186: ModReduce. *)
Definition bfv_mod_reduce (x : rct) : result rct :=
  let ms := rt_ms x in
  if (length ms <=? 1)%nat then Err FailedPrecondition
  else
    let level := (length ms - 1)%nat in
    do! ql_inv <- get (rc_prime_q_invs c) level;
    do! cs <- seqr (map (fun a => do! z <- rnsint_prefix ql_inv level; rns_mod_reduce_msb a z ms) (rt_c x));
    Ok {| rt_c := cs; rt_lazy := rt_lazy x; rt_ms := firstn level ms; rt_pow := rt_pow x |}.
End Bfv.
