(** Model of rns/coefficient_encoder.h and .cc, rns/finite_field_encoder.h and
    .cc and rns/error_distribution.h. Null pointer arguments are not modelled. *)
From Verif Require Import Base Montgomery MontBatch Ntt Poly PolyExt Prng Sampling Gauss RnsPoly RnsCtx.

(** ** Coefficient encoder. An encoder is its context. *)

(** rns/coefficient_encoder.cc lines 69, 144: "num_coeffs - size" further zeros (std::vector::resize) *)
Definition pad_to (n : nat) (zero : Z) (v : list Z) : list Z := v ++ repeat zero (n - length v).

(** coefficient_encoder.cc lines 47-72: EncodeBgv. *)
Definition coeff_encode_bgv (c : rctx) (messages : list Z) (ms : list pmod) : result rpoly :=
  do! n <- shl_int (rc_logn c);
  if (n <? length messages)%nat then Err InvalidArgument
  else match ms with
  | [] => Err InvalidArgument
  | _ =>
      do! vs <- seqr (map (fun m => do! v <- import_balanced (rc_t c) (pm_p m) messages;
                                    Ok (pad_to n (import_zero (pm_p m)) v)) ms);
      rns_create vs false
  end.

(** rns/coefficient_encoder.cc lines 91-98: the loop of ModReduceLsb down to one modulus; [level] is the
    number of remaining moduli minus one. *)
Fixpoint reduce_to_one (c : rctx) (ms : list pmod) (level : nat) (a : rpoly) : result rpoly :=
  match level with
  | O => Ok a
  | S l =>
      do! row <- get (rc_prime_q_invs c) level;
      do! inv <- rnsint_prefix row level;
      do! a <- rns_mod_reduce_lsb a (rc_t c) inv (firstn (S level) ms);
      reduce_to_one c ms l a
  end.

(** rns/coefficient_encoder.cc lines 74-108: DecodeBgv. The loop does not run for a polynomial without
    moduli, and reading moduli[0] is then undefined. *)
Definition coeff_decode_bgv (c : rctx) (a : rpoly) (ms : list pmod) : result (list Z) :=
  if negb (same_len ms (rp_vs a)) then Err InvalidArgument
  else
    do! a <- (if rp_ntt a then rns_to_coeff a ms else Ok a);
    do! a <- reduce_to_one c ms (length (rp_vs a) - 1) a;
    do! m0 <- get ms 0;
    do! v0 <- get (rp_vs a) 0;
    if (length v0 <? rp_ncoeffs a)%nat then UB
    else remove_error_on_msb (p_k (pm_p m0)) (map (export_int (pm_p m0)) (firstn (rp_ncoeffs a) v0)) (pm_q m0) (rc_t c).

(** rns/coefficient_encoder.cc lines 113-171: EncodeBfv. *)
Definition coeff_encode_bfv (c : rctx) (messages : list Z) (ms : list pmod) (scaled : bool) : result rpoly :=
  do! n <- shl_int (rc_logn c);
  if (n <? length messages)%nat then Err InvalidArgument
  else match ms with
  | [] => Err InvalidArgument
  | _ =>
    match rc_pt c with
    | None => Err InvalidArgument
    | Some pt =>
        let v := pad_to n (import_zero pt) (map (import_int pt) messages) in
        if scaled then
          do! v <- batch_mul_scalar pt v (mneg pt (import_int pt (rc_q_mod_t c)));
          do! a <- rns_convert v pt ms;
          rns_mul_rnsint a (rc_t_inv_mod_qs c) ms
        else rns_convert v pt ms
    end
  end.

(** rns/rns_context.h lines 127-129: the PrimeModulus of the plaintext modulus. Contexts for coefficient
    encoding have no NTT parameters (a null pointer); nothing reads them here,
    and empty tables stand for them. *)
Definition no_ntt : nttp :=
  {| np_n := 0; np_ninv := 0; np_psis := []; np_psis_c := []; np_psis_inv := []; np_psis_inv_c := []; np_bitrevs := [] |}.
Definition plain_modulus (c : rctx) (pt : mparams) : pmod :=
  {| pm_p := pt; pm_np := match rc_nt c with Some nt => nt | None => no_ntt end |}.

(** rns/coefficient_encoder.cc lines 173-218: DecodeBfv. The number of moduli fits an [int]; with no
    modulus at all the level is -1 and the constants are refused. *)
Definition coeff_decode_bfv (D : dops) (c : rctx) (a : rpoly) (ms : list pmod) : result (list Z) :=
  if negb (same_len ms (rp_vs a)) then Err InvalidArgument
  else match rc_pt c with
  | None => Err InvalidArgument
  | Some pt =>
      do! a <- (if rp_ntt a then rns_to_coeff a ms else Ok a);
      do! hat_inv <- main_crt_factors c (Z.of_nat (length ms) - 1);
      do! b <- rns_scale_and_switch D a ms [plain_modulus c pt] hat_inv [rc_q_invs_mod_t c] (rc_t_mod_qs c);
      do! v0 <- get (rp_vs b) 0;
      if (length v0 <? rp_ncoeffs b)%nat then UB
      else Ok (map (export_int pt) (firstn (rp_ncoeffs b) v0))
  end.

(** ** Finite field encoder *)

(** finite_field_encoder.h lines 123-130: members; the coefficient encoder is
    the context again. *)
Record ffenc := { fe_ctx : rctx; fe_pt : mparams; fe_nt : nttp; fe_slots : list nat }.

(** rns/finite_field_encoder.cc lines 67, 69: v[i] for an [int] index *)
Definition get_z {A} (v : list A) (i : Z) : result A := if i <? 0 then UB else get v (Z.to_nat i).

(** rns/finite_field_encoder.cc lines 64-71: an [int] product that must not overflow *)
Definition int_mul (a b : Z) : result Z :=
  if (a * b <? - 2 ^ 31) || (2 ^ 31 <=? a * b) then UB else Ok (a * b).

(** finite_field_encoder.cc lines 64-71: the loop over i, giving the first and
    the second half of slot_indices. Indices of bitrevs are not checked. *)
Fixpoint slot_loop (nt : nttp) (n : Z) (steps : nat) (curr : Z) : result (list nat * list nat) :=
  match steps with
  | O => Ok ([], [])
  | S steps' =>
      do! a <- get_z (np_bitrevs nt) (Z.quot (curr - 1) 2);
      do! co <- int_mul curr (2 * n - 1);
      let co := Z.rem co (2 * n) in
      do! b <- get_z (np_bitrevs nt) (Z.quot (co - 1) 2);
      do! next <- int_mul curr 5;
      do! ' (xs, ys) <- slot_loop nt n steps' (Z.rem next (2 * n));
      Ok (a :: xs, b :: ys)
  end.

(** rns/finite_field_encoder.cc lines 38-78: Create. *)
Definition ff_create (c : rctx) : result ffenc :=
  match rc_pt c, rc_nt c with
  | Some pt, Some nt =>
      do! n <- shl_int (rc_logn c);
      do! ' (xs, ys) <- slot_loop nt (Z.of_nat n) (n / 2) 1;
      Ok {| fe_ctx := c; fe_pt := pt; fe_nt := nt; fe_slots := xs ++ ys |}
  | _, _ => Err InvalidArgument
  end.

(** rns/finite_field_encoder.cc lines 99-104: the messages in their slots. Indices are not checked. *)
Fixpoint fill_slots (pt : mparams) (messages : list Z) (idx : list nat) (slots : list Z) : result (list Z) :=
  match messages with
  | [] => Ok slots
  | x :: messages' =>
      match idx with
      | [] => UB
      | j :: idx' => if (length slots <=? j)%nat then UB
                     else fill_slots pt messages' idx' (upd slots j (import_int pt x))
      end
  end.

(** rns/finite_field_encoder.cc lines 94-106 (= 162-174): the polynomial modulo t. *)
Definition ff_slots (e : ffenc) (messages : list Z) (n : nat) : result (list Z) :=
  do! slots <- fill_slots (fe_pt e) messages (fe_slots e) (repeat (import_zero (fe_pt e)) n);
  inverse_ntt (fe_pt e) (fe_nt e) slots.

(** rns/finite_field_encoder.cc lines 80-111: EncodeBgv. *)
Definition ff_encode_bgv (e : ffenc) (messages : list Z) (ms : list pmod) : result rpoly :=
  do! n <- shl_int (rc_logn (fe_ctx e));
  if (n <? length messages)%nat then Err InvalidArgument
  else match ms with
  | [] => Err InvalidArgument
  | _ => do! v <- ff_slots e messages n; rns_convert_balanced v (fe_pt e) ms
  end.

(** rns/finite_field_encoder.cc lines 124-144 (= 195-215; finite_field_encoder.h lines 188-206 after a
    conversion to Int): from coefficients modulo t to messages. *)
Definition ff_unslot (e : ffenc) (coeffs : list Z) : result (list Z) :=
  do! v <- forward_ntt (fe_pt e) (fe_nt e) (map (import_int (fe_pt e)) coeffs);
  seqr (map (fun i => do! j <- get (fe_slots e) i; do! x <- get v j; Ok (export_int (fe_pt e) x)) (seq 0 (length coeffs))).

(** rns/finite_field_encoder.cc lines 113-145: DecodeBgv. *)
Definition ff_decode_bgv (e : ffenc) (a : rpoly) (ms : list pmod) : result (list Z) :=
  do! coeffs <- coeff_decode_bgv (fe_ctx e) a ms; ff_unslot e coeffs.

(** rns/finite_field_encoder.cc lines 147-182: EncodeBfv. *)
Definition ff_encode_bfv (e : ffenc) (messages : list Z) (ms : list pmod) (scaled : bool) : result rpoly :=
  do! n <- shl_int (rc_logn (fe_ctx e));
  if (n <? length messages)%nat then Err InvalidArgument
  else match ms with
  | [] => Err InvalidArgument
  | _ => do! v <- ff_slots e messages n; coeff_encode_bfv (fe_ctx e) (map (export_int (fe_pt e)) v) ms scaled
  end.

(** rns/finite_field_encoder.cc lines 184-216: DecodeBfv. *)
Definition ff_decode_bfv (D : dops) (e : ffenc) (a : rpoly) (ms : list pmod) : result (list Z) :=
  do! coeffs <- coeff_decode_bfv D (fe_ctx e) a ms; ff_unslot e coeffs.

(** finite_field_encoder.h lines 145-207: DecodeBgvWithCrt over K-bit big
    integers. *)
Definition ff_decode_bgv_crt (K : Z) (e : ffenc) (a : rpoly) (ms : list pmod) (hats invs : list Z) : result (list Z) :=
  if negb (same_len hats invs) || negb (same_len ms hats) || negb (same_len ms invs) then Err InvalidArgument
  else
    do! a <- (if rp_ntt a then rns_to_coeff a ms else Ok a);
    do! xs <- crt_interpolation K (rp_vs a) ms hats invs;
    do! coeffs <- remove_error_on_msb K xs (big_product K ms) (wrap K (p_m (fe_pt e)));
    ff_unslot e (map (wrap (p_k (fe_pt e))) coeffs).

(** ** Error distribution *)
Section Errors.
Variable R : prng.

(** error_distribution.h lines 39-64: SampleError. *)
Definition rns_sample_error (log_n variance : Z) (ms : list pmod) (s : pr_st R) : result (rpoly * pr_st R) :=
  if log_n <=? 0 then Err InvalidArgument
  else if variance <=? 0 then Err InvalidArgument
  else match ms with
  | [] => Err InvalidArgument
  | m0 :: _ =>
      do! n <- shl_int log_n;
      do! ' (v, s) <- sample_error R (pm_p m0) n variance s;
      do! a <- rns_convert_balanced v (pm_p m0) ms;
      Ok (a, s)
  end.

(** rns/error_distribution.h lines 68-85: SampleUniformTernary. *)
Definition rns_sample_ternary (fuel : nat) (log_n : Z) (ms : list pmod) (s : pr_st R) : result (rpoly * pr_st R) :=
  if log_n <=? 0 then Err InvalidArgument
  else match ms with
  | [] => Err InvalidArgument
  | m0 :: _ =>
      do! n <- shl_int log_n;
      do! ' (v, s) <- sample_ternary R fuel (pm_p m0) (Z.of_nat n) s;
      do! a <- rns_convert_balanced v (pm_p m0) ms;
      Ok (a, s)
  end.

(** rns/error_distribution.h lines 118-133: the residue of one coefficient given as a two's complement
    Integer of k bits. kNegativeThreshold is half the largest value
    (discrete_gaussian.h lines 66-67). *)
Definition gauss_residue (k : Z) (m : pmod) (coeff : Z) : Z :=
  import_int (pm_p m)
    (if (2 ^ k - 1) / 2 <? coeff then wrap k (pm_q m - wrap k (- coeff) mod pm_q m) else coeff).

(** rns/error_distribution.h lines 114-134: the loop over the coefficients. *)
Fixpoint draw_gauss (D : fops) (k : Z) (g : sampler D) (sd : F D) (iters : Z) (n : nat) (s : pr_st R) : result (list Z * pr_st R) :=
  match n with
  | O => Ok ([], s)
  | S n' =>
      do! ' (x, s) <- sample_with_iterations D R k g sd iters s;
      do! ' (xs, s) <- draw_gauss D k g sd iters n' s;
      Ok (x :: xs, s)
  end.

(** rns/error_distribution.h lines 92-137: SampleDiscreteGaussian; [fuel] bounds the loop of
    NumIterations. *)
Definition rns_sample_gaussian (D : fops) (fuel : nat) (log_n : Z) (sd : F D) (ms : list pmod) (g : sampler D)
  (s : pr_st R) : result (rpoly * pr_st R) :=
  if log_n <=? 0 then Err InvalidArgument
  else match ms with
  | [] => Err InvalidArgument
  | m0 :: _ =>
      let k := p_k (pm_p m0) in
      do! iters <- num_iterations D fuel g sd;
      do! n <- shl_int log_n;
      do! ' (xs, s) <- draw_gauss D k g sd iters n s;
      do! a <- rns_create (map (fun m => map (gauss_residue k m) xs) ms) false;
      Ok (a, s)
  end.
End Errors.
