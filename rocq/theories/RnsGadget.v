(** Model of rns/rns_gadget.h and .cc, rns/rns_galois_key.h and .cc and
    rns/rns_relinearization_key.h and .cc.

    Simplifications: null gadget pointers and the error estimates are not
    modelled. Seeds drawn by the system's entropy source are arguments. *)
From Verif Require Import Base Montgomery MontBatch Ntt Poly PolyExt Prng Sampling Relin RnsPoly RnsCtx RnsCt RnsEncode RnsKey.

(** ** Gadgets *)

(** rns_gadget.h lines 108-116: members. *)
Record rgadget := { rg_logbs : list Z; rg_dims : list nat; rg_gs : list rnsint }.

(** rns/rns_gadget.h line 97: Dimension. *)
Definition rg_dimension (g : rgadget) : nat := fold_right Nat.add 0%nat (rg_dims g).

(** rns_gadget.cc lines 91-98: the entries of one modulus; mod_params_qi is p
    and qi has index i. *)
Fixpoint gadget_row (p : mparams) (i : nat) (zeros : rnsint) (bi cur : Z) (count : nat) : list rnsint :=
  match count with
  | O => []
  | S c => upd zeros i cur :: gadget_row p i zeros bi (mmul p cur bi) c
  end.

(** rns/rns_gadget.cc lines 83-100 *)
Fixpoint gadget_rows (zeros : rnsint) (i : nat) (ms : list pmod) (bs : list Z) (ks : list nat) (hats invs : list Z) : list rnsint :=
  match ms, bs, ks, hats, invs with
  | m :: ms, b :: bs, c :: ks, h :: hats, v :: invs =>
      gadget_row (pm_p m) i zeros (import_int (pm_p m) b) (mmul (pm_p m) h v) c ++ gadget_rows zeros (S i) ms bs ks hats invs
  | _, _, _, _, _ => []
  end.

(** rns/rns_gadget.cc lines 43-102: Create. [1 << log_bs[i]] is an [int] shift, stored in an
    Integer; GadgetSize divides by log_bs[i]. *)
Definition rgadget_create (log_n : Z) (log_bs hats invs : list Z) (ms : list pmod) : result rgadget :=
  if log_n <=? 0 then Err InvalidArgument
  else match ms with
  | [] => Err InvalidArgument
  | _ =>
    if negb (same_len log_bs ms) then Err InvalidArgument
    else if negb (same_len hats ms) then Err InvalidArgument
    else if negb (same_len invs ms) then Err InvalidArgument
    else
      do! bs <- seqr (map2 (fun m lb => if (lb <=? 0) || (31 <=? lb) then UB else Ok (wrap (p_k (pm_p m)) (2 ^ lb))) ms log_bs);
      let ks := map2 (fun m lb => Z.to_nat (gadget_size (pm_p m) lb)) ms log_bs in
      let zeros := map (fun m => import_zero (pm_p m)) ms in
      Ok {| rg_logbs := log_bs; rg_dims := ks; rg_gs := gadget_rows zeros 0 ms bs ks hats invs |}
  end.

(** rns/rns_gadget.cc lines 134-145: one digit of the coefficients modulo qi, for all moduli. *)
Fixpoint spread (p : mparams) (i : nat) (d : list Z) (j : nat) (ms : list pmod) : list (list Z) :=
  match ms with
  | [] => []
  | m :: ms => (if (j =? i)%nat then d else convert_balanced p (pm_p m) d) :: spread p i d (S j) ms
  end.

(** rns/rns_gadget.cc lines 123-151 *)
Fixpoint decompose_rows (g : rgadget) (all : list pmod) (i : nat) (ms : list pmod) (vs : list (list Z)) : result (list rpoly) :=
  match ms, vs with
  | m :: ms, v :: vs =>
      do! lb <- get (rg_logbs g) i;
      do! dim <- get (rg_dims g) i;
      do! ds <- base_decompose (pm_p m) v lb dim;
      do! xs <- seqr (map (fun d => rns_create (spread (pm_p m) i d 0 all) false) ds);
      do! rest <- decompose_rows g all (S i) ms vs;
      Ok (xs ++ rest)
  | _, _ => Ok []
  end.

(** rns/rns_gadget.cc lines 108-153: Decompose. *)
Definition rg_decompose (g : rgadget) (a : rpoly) (ms : list pmod) : result (list rpoly) :=
  if rp_ntt a then Err InvalidArgument
  else if negb (same_len ms (rp_vs a)) then Err InvalidArgument
  else decompose_rows g ms 0 ms (rp_vs a).

(** the loops "for i in [0, k): acc.FusedMulAddInPlace(xs[i], ys[i])" *)
Fixpoint fma_loop (ms : list pmod) (acc : rpoly) (xs ys : list rpoly) (idx : list nat) : result rpoly :=
  match idx with
  | [] => Ok acc
  | i :: idx =>
      do! x <- get xs i;
      do! y <- get ys i;
      do! acc <- rns_fused_mul_add acc x y ms;
      fma_loop ms acc xs ys idx
  end.

(** ** Galois keys *)

(** rns_galois_key.h lines 272-289: members. *)
Record rgalois := { gk_as : list rpoly; gk_bs : list rpoly; gk_g : rgadget; gk_pow : Z; gk_ms : list pmod;
  gk_seed : list Z; gk_type : Z }.

Section Pads.
Variable R : prng.
(** rns_galois_key.cc lines 97-103, rns_relinearization_key.cc lines 105-111 *)
Fixpoint pad_loop (fuel : nat) (log_n : Z) (ms : list pmod) (count : nat) (s : pr_st R) : result (list rpoly) :=
  match count with
  | O => Ok []
  | S c => do! ' (a, s) <- rns_sample_uniform R fuel log_n ms s;
           do! rest <- pad_loop fuel log_n ms c s; Ok (a :: rest)
  end.
End Pads.

(** rns_galois_key.cc lines 81-105: SampleRandomPad. *)
Definition galois_pads (F : genfam) (fuel : nat) (dimension : nat) (log_n : Z) (ms : list pmod) (seed : list Z) (ty : Z) : result (list rpoly) :=
  if negb (known_type ty) then Err InvalidArgument
  else do! s <- gf_start F ty seed; pad_loop (gf_prng F ty) fuel log_n ms dimension s.

Section Switch.
Variable R : prng.
(** rns_galois_key.cc lines 158-173 and rns_relinearization_key.cc lines
    156-173: an encryption of g * secret for each gadget component g. The pads
    are those from position idx on. The relinearization key negates the pad
    before it multiplies the secret with g; neither affects the other. *)
Fixpoint switch_loop (log_n variance t : Z) (ms : list pmod) (key secret : rpoly) (pads : list rpoly) (idx : nat)
    (gs : list rnsint) (s : pr_st R) : result (list rpoly * pr_st R) :=
  match gs with
  | [] => Ok ([], s)
  | g :: gs =>
      do! z <- rns_mul_rnsint secret g ms;
      do! pad <- get pads idx;
      do! u <- rns_neg pad ms;
      do! ' (b, s) <- rns_sample_error R log_n variance ms s;
      do! b <- rns_mul_scalar b t ms;
      do! b <- rns_add b z ms;
      do! b <- rns_fused_mul_add b u key ms;
      do! ' (bs, s) <- switch_loop log_n variance t ms key secret pads (S idx) gs s;
      Ok (b :: bs, s)
  end.
End Switch.

(** rns/rns_galois_key.cc lines 107-181: CreateWithRandomPad. [power % 2 == 0] on a non-negative
    number. The gadget's dimension counts its components. *)
Definition galois_create_pads (F : genfam) (pads : list rpoly) (key : rskey) (power variance : Z) (g : rgadget)
    (seed : list Z) (ty t : Z) (seed_e : list Z) : result rgalois :=
  let ms := rsk_ms key in
  let log_n := Z.of_nat (rp_logn (rsk_key key)) in
  if (power <? 0) || (power mod 2 =? 0) || (2 * Z.of_nat (rp_ncoeffs (rsk_key key)) <=? power) then Err InvalidArgument
  else if variance <=? 0 then Err InvalidArgument
  else if negb (known_type ty) then Err InvalidArgument
  else
    do! s <- gf_start F ty seed_e;
    do! source <- rns_substitute (rsk_key key) power ms;
    do! ' (bs, _) <- switch_loop (gf_prng F ty) log_n variance t ms (rsk_key key) source pads 0 (rg_gs g) s;
    Ok {| gk_as := pads; gk_bs := bs; gk_g := g; gk_pow := power; gk_ms := ms; gk_seed := seed; gk_type := ty |}.

(** rns/rns_galois_key.h lines 48-79: Create; CreateForBgv passes the plaintext modulus as
    error_scalar t, CreateForBfv the default 1 (rns/rns_galois_key.h lines 63-78). *)
Definition galois_create (F : genfam) (fuel : nat) (key : rskey) (power variance : Z) (g : rgadget) (ty t : Z)
    (seed seed_e : list Z) : result rgalois :=
  if negb (known_type ty) then Err InvalidArgument
  else
    do! pads <- galois_pads F fuel (rg_dimension g) (Z.of_nat (rp_logn (rsk_key key))) (rsk_ms key) seed ty;
    galois_create_pads F pads key power variance g seed ty t seed_e.

(** rns/rns_galois_key.cc lines 183-202: CreateFromKeyComponents. *)
Definition galois_from (key_as key_bs : list rpoly) (power : Z) (g : rgadget) (ms : list pmod) (seed : list Z) (ty : Z) : result rgalois :=
  if negb (length key_as =? rg_dimension g)%nat || negb (length key_bs =? rg_dimension g)%nat then Err InvalidArgument
  else Ok {| gk_as := key_as; gk_bs := key_bs; gk_g := g; gk_pow := power; gk_ms := ms; gk_seed := seed; gk_type := ty |}.

(** rns/rns_galois_key.cc lines 204-236: Deserialize; rns/rns_galois_key.h lines 125-134: Serialize. *)
Record ser_galois := { sg_bs : list ser_rpoly; sg_pow : Z; sg_seed : list Z; sg_type : Z }.
Definition galois_deserialize (F : genfam) (fuel : nat) (sg : ser_galois) (g : rgadget) (ms : list pmod) : result rgalois :=
  match sg_bs sg with
  | [] => Err InvalidArgument
  | _ =>
    do! bs <- seqr (map (fun b => rns_deserialize b ms) (sg_bs sg));
    do! b0 <- get bs 0;
    do! pads <- galois_pads F fuel (length bs) (Z.of_nat (rp_logn b0)) ms (sg_seed sg) (sg_type sg);
    Ok {| gk_as := pads; gk_bs := bs; gk_g := g; gk_pow := sg_pow sg; gk_ms := ms; gk_seed := sg_seed sg; gk_type := sg_type sg |}
  end.
Definition galois_serialize (gk : rgalois) : result ser_galois :=
  do! bs <- seqr (map (fun b => rns_serialize b (gk_ms gk)) (gk_bs gk));
  Ok {| sg_bs := bs; sg_pow := gk_pow gk; sg_seed := gk_seed gk; sg_type := gk_type gk |}.

(** the checks of rns/rns_galois_key.cc lines 242-253 and 315-326; Degree() is the number of
    components minus one *)
Definition galois_checks (gk : rgalois) (x : rct) : result unit :=
  if negb (rt_pow x =? gk_pow gk) then Err InvalidArgument
  else if negb (same_len (rt_ms x) (gk_ms gk)) then Err InvalidArgument
  else if negb (length (rt_c x) =? 2)%nat then Err InvalidArgument
  else Ok tt.

(** rns/rns_galois_key.cc lines 258-260: "if (c.IsNttForm()) c.ConvertToCoeffForm(moduli_)" *)
Definition ensure_coeff (a : rpoly) (ms : list pmod) : result rpoly := if rp_ntt a then rns_to_coeff a ms else Ok a.

(** rns/rns_galois_key.cc lines 238-287: ApplyToRlweCiphertext. The code converts each digit to
    NTT form just before its product with key_bs_; here all the conversions
    come before the products, which only changes the order of independent
    steps. *)
Definition galois_switch (gk : rgalois) (x : rct) : result (list rpoly) :=
  let ms := gk_ms gk in
  do! _ <- galois_checks gk x;
  do! c1 <- rct_component x 1;
  do! c1 <- ensure_coeff c1 ms;
  do! digits <- rg_decompose (gk_g gk) c1 ms;
  let idx := seq 0 (rg_dimension (gk_g gk)) in
  do! zero <- rns_zero (Z.of_nat (rp_logn c1)) ms true;
  do! digits <- seqr (map (fun i => do! d <- get digits i; rns_to_ntt d ms) idx);
  do! c0_new <- fma_loop ms zero digits (gk_bs gk) idx;
  do! c1_new <- fma_loop ms zero digits (gk_as gk) idx;
  do! c0 <- rct_component x 0;
  do! c0_new <- rns_add c0_new c0 ms;
  Ok [c0_new; c1_new].

(** rns/rns_galois_key.h lines 137-160: ApplyTo, for BGV and BFV ciphertexts. *)
Definition galois_apply (gk : rgalois) (x : rct) : result rct :=
  do! c <- galois_switch gk x; Ok (rct_make c (gk_ms gk) 1).

(** rns/rns_galois_key.cc lines 289-307: PrecomputeRandomPad. *)
Definition galois_precompute (gk : rgalois) (digits : list rpoly) : result rpoly :=
  if negb (length digits =? rg_dimension (gk_g gk))%nat then Err InvalidArgument
  else
    do! a0 <- get (gk_as gk) 0;
    do! zero <- rns_zero (Z.of_nat (rp_logn a0)) (gk_ms gk) true;
    fma_loop (gk_ms gk) zero digits (gk_as gk) (seq 0 (length digits)).

(** rns/rns_galois_key.cc lines 332-341: the lazy products. A digit in coefficient form is a failed
    CHECK, which ends the program: modelled as UB. *)
Fixpoint lazy_loop (ms : list pmod) (acc : rlazy) (xs ys : list rpoly) (idx : list nat) : result rlazy :=
  match idx with
  | [] => Ok acc
  | i :: idx =>
      do! x <- get xs i;
      if negb (rp_ntt x) then UB
      else
        do! y <- get ys i;
        do! acc <- rlazy_fused acc x y ms;
        lazy_loop ms acc xs ys idx
  end.

(** rns/rns_galois_key.cc lines 309-347: ApplyToRlweCiphertextWithRandomPad; rns/rns_galois_key.h lines 172-206:
    ApplyToWithRandomPad. *)
Definition galois_apply_with_pad (gk : rgalois) (x : rct) (digits : list rpoly) (pad : rpoly) : result rct :=
  let ms := gk_ms gk in
  do! _ <- galois_checks gk x;
  if negb (length digits =? rg_dimension (gk_g gk))%nat then Err InvalidArgument
  else
    do! b0 <- get (gk_bs gk) 0;
    do! z <- rlazy_zero (Z.of_nat (rp_logn b0)) ms;
    do! z <- lazy_loop ms z digits (gk_bs gk) (seq 0 (rg_dimension (gk_g gk)));
    do! c0_new <- rlazy_export z ms;
    do! c0 <- rct_component x 0;
    do! c0_new <- rns_add c0_new c0 ms;
    Ok (rct_make [c0_new; pad] ms 1).

(** ** Relinearization keys *)

(** rns_relinearization_key.h lines 166-183: members. *)
Record rrelin := { rr_as : list rpoly; rr_bs : list rpoly; rr_g : rgadget; rr_deg : Z; rr_ms : list pmod;
  rr_seed : list Z; rr_type : Z }.

(** rns_relinearization_key.cc lines 80-113: SampleRandomPad. *)
Definition relin_pads (F : genfam) (fuel : nat) (dimension degree log_n : Z) (ms : list pmod) (seed : list Z) (ty : Z) : result (list rpoly) :=
  if dimension <=? 0 then Err InvalidArgument
  else if degree <=? 1 then Err InvalidArgument
  else if log_n <=? 0 then Err InvalidArgument
  else if negb (known_type ty) then Err InvalidArgument
  else do! s <- gf_start F ty seed; pad_loop (gf_prng F ty) fuel log_n ms (Z.to_nat (dimension * (degree - 1))) s.

(** rns/rns_relinearization_key.cc lines 152-174: the loop over the powers of the secret. *)
Fixpoint relin_loop (R : prng) (log_n variance t : Z) (ms : list pmod) (key secret : rpoly) (pads : list rpoly) (idx : nat)
    (gs : list rnsint) (count : nat) (s : pr_st R) : result (list rpoly) :=
  match count with
  | O => Ok []
  | S c =>
      do! secret <- rns_mul secret key ms;
      do! ' (bs, s) <- switch_loop R log_n variance t ms key secret pads idx gs s;
      do! rest <- relin_loop R log_n variance t ms key secret pads (idx + length gs) gs c s;
      Ok (bs ++ rest)
  end.

(** rns/rns_relinearization_key.cc lines 115-182: CreateWithRandomPad. Any prng_type other than HKDF means
    ChaCha here; only Create calls this function, with a known type. *)
Definition relin_create_pads (F : genfam) (pads : list rpoly) (key : rskey) (degree variance : Z) (g : rgadget)
    (seed : list Z) (ty t : Z) (seed_e : list Z) : result rrelin :=
  let ms := rsk_ms key in
  if variance <=? 0 then Err InvalidArgument
  else
    do! s <- gf_start F ty seed_e;
    do! bs <- relin_loop (gf_prng F ty) (Z.of_nat (rp_logn (rsk_key key))) variance t ms (rsk_key key) (rsk_key key) pads 0
                (rg_gs g) (Z.to_nat (degree - 1)) s;
    Ok {| rr_as := pads; rr_bs := bs; rr_g := g; rr_deg := degree; rr_ms := ms; rr_seed := seed; rr_type := ty |}.

(** rns/rns_relinearization_key.cc lines 44-78: Create (rns/rns_relinearization_key.h lines 59-77: CreateForBgv, CreateForBfv). *)
Definition rrelin_create (F : genfam) (fuel : nat) (key : rskey) (degree variance : Z) (g : rgadget) (ty t : Z)
    (seed seed_e : list Z) : result rrelin :=
  if degree <=? 1 then Err InvalidArgument
  else if negb (known_type ty) then Err InvalidArgument
  else
    do! pads <- relin_pads F fuel (Z.of_nat (rg_dimension g)) degree (Z.of_nat (rp_logn (rsk_key key))) (rsk_ms key) seed ty;
    relin_create_pads F pads key degree variance g seed ty t seed_e.

(** rns/rns_relinearization_key.cc lines 218-226: the products with one component; index = base + j. *)
Fixpoint relin_digits (ms : list pmod) (rr : rrelin) (digits : list rpoly) (base : nat) (js : list nat) (c0 c1 : rpoly) : result (rpoly * rpoly) :=
  match js with
  | [] => Ok (c0, c1)
  | j :: js =>
      do! d <- get digits j;
      do! d <- rns_to_ntt d ms;
      do! b <- get (rr_bs rr) (base + j);
      do! c0 <- rns_fused_mul_add c0 d b ms;
      do! a <- get (rr_as rr) (base + j);
      do! c1 <- rns_fused_mul_add c1 d a ms;
      relin_digits ms rr digits base js c0 c1
  end.

(** rns/rns_relinearization_key.cc lines 210-227: components 2, 3, ..., l; [l] is the degree of the
    ciphertext, which is what the code multiplies (i - 2) with. *)
Fixpoint relin_components (rr : rrelin) (l : nat) (i : nat) (cs : list rpoly) (c0 c1 : rpoly) : result (rpoly * rpoly) :=
  match cs with
  | [] => Ok (c0, c1)
  | ci :: cs =>
      do! ci <- ensure_coeff ci (rr_ms rr);
      do! digits <- rg_decompose (rr_g rr) ci (rr_ms rr);
      do! ' (c0, c1) <- relin_digits (rr_ms rr) rr digits ((i - 2) * l) (seq 0 (rg_dimension (rr_g rr))) c0 c1;
      relin_components rr l (S i) cs c0 c1
  end.

(** rns/rns_relinearization_key.cc lines 184-232: ApplyToRlweCiphertext; rns/rns_relinearization_key.h lines 82-105: ApplyTo. *)
Definition rrelin_apply (rr : rrelin) (x : rct) : result rct :=
  if rr_deg rr <? Z.of_nat (length (rt_c x)) - 1 then Err InvalidArgument
  else if negb (same_len (rt_ms x) (rr_ms rr)) then Err InvalidArgument
  else if negb (rt_pow x =? 1) then Err InvalidArgument
  else
    do! c0 <- rct_component x 0;
    do! c1 <- rct_component x 1;
    do! ' (c0, c1) <- relin_components rr (length (rt_c x) - 1) 2 (skipn 2 (rt_c x)) c0 c1;
    Ok (rct_make [c0; c1] (rr_ms rr) 1).
