(** Model of /repo/shell_encryption/relinearization_key.{h,cc}, galois_key.h and
    symmetric_encryption_with_prng.h.

    Simplifications: seeds are drawn by the system's entropy source; here they
    are arguments. Error estimates are omitted as in SymEnc.v. *)
From Verif Require Import Base Montgomery MontBatch Ntt Poly PolyExt Prng Sampling SymEnc.

(** The generators a PrngType stands for (serialization.proto lines 45-49:
    1 = HKDF, 2 = ChaCha) and SingleThread*Prng::Create. *)
Record genfam := { gf_prng : Z -> prng; gf_start : forall ty, list Z -> result (pr_st (gf_prng ty)) }.
Definition known_type (ty : Z) : bool := (ty =? 1) || (ty =? 2).

(** relinearization_key.cc line 175: the conversion of a size to int *)
Definition int32 (z : Z) : Z := (z + 2 ^ 31) mod 2 ^ 32 - 2 ^ 31.

(** ** symmetric_encryption_with_prng.h *)

(** symmetric_encryption_with_prng.h lines 71-83: EncryptWithPrng. Two generators: polynomials and errors. *)
Fixpoint encrypt_with_prng (R E : prng) (fuel : nat) (key : skey) (pts : list poly) (s : pr_st R) (e : pr_st E)
  : result (list poly * (pr_st R * pr_st E)) :=
  match pts with
  | [] => Ok ([], (s, e))
  | pt :: pts' =>
    do! ' (a, s) <- sample_polynomial R fuel (Z.of_nat (length (sk_key key))) (sk_p key) s;
    do! ' (c0, e) <- encrypt_internal E key pt a e;
    do! ' (r, se) <- encrypt_with_prng R E fuel key pts' s e;
    Ok (c0 :: r, se)
  end.

(** symmetric_encryption_with_prng.h lines 92-109: ExpandFromPrng. *)
Fixpoint expand_from_prng (R : prng) (fuel : nat) (p : mparams) (c0s : list poly) (s : pr_st R)
  : result (list ct * pr_st R) :=
  match c0s with
  | [] => Ok ([], s)
  | c0 :: c0s' =>
    do! ' (a, s) <- sample_polynomial R fuel (Z.of_nat (length c0)) p s;
    do! ' (r, s) <- expand_from_prng R fuel p c0s' s;
    Ok (ct_make p [c0; poly_neg p a] 1 :: r, s)
  end.

(** ** relinearization_key.cc *)

(** relinearization_key.h lines 117-153: RelinearizationKeyPart, the two rows of
    the matrix; lines 184-216: members. *)
Record part := { pt_top : list poly; pt_bot : list poly; pt_logT : Z }.
Record relin := { rk_dim : Z; rk_num : Z; rk_logT : Z; rk_T : Z; rk_pow : Z; rk_p : mparams; rk_np : nttp;
                  rk_parts : list part; rk_seed : list Z; rk_type : Z }.

(** relinearization_key.h lines 176-182 *)
Definition identical_base (power : Z) : bool := int32 power =? 1.
Definition first_index (power : Z) : Z := if identical_base power then 2 else 1.

(** relinearization_key.cc lines 41-53: SampleOrthogonalFromPrng. *)
Definition sample_orthogonal (R : prng) (fuel : nat) (key : skey) (s : pr_st R)
  : result ((poly * poly) * pr_st R) :=
  do! ' (r, s) <- sample_polynomial R fuel (Z.of_nat (length (sk_key key))) (sk_p key) s;
  do! top <- poly_mul (sk_p key) r (sk_key key);
  Ok ((poly_neg (sk_p key) top, r), s).

(** relinearization_key.cc lines 57-74: PowersOfT. *)
Fixpoint powers_of_t (p : mparams) (key_to_i : poly) (T : Z) (dim : nat) : result (list poly) :=
  match dim with
  | O => Ok []
  | S O => Ok [key_to_i]
  | S d =>
    do! next <- poly_mul_scalar p key_to_i T;
    do! r <- powers_of_t p next T d;
    Ok (key_to_i :: r)
  end.

(** relinearization_key.cc lines 119-138: the loop of KeyPart::Create over powers_of_t. [len] is
    key_power.Len(). *)
Fixpoint part_loop (R E : prng) (fuel : nat) (key : skey) (len : nat) (pows : list poly)
  (s : pr_st R) (e : pr_st E) : result ((list poly * list poly) * (pr_st R * pr_st E)) :=
  match pows with
  | [] => Ok (([], []), (s, e))
  | w :: pows' =>
    let p := sk_p key in
    do! ' (r, s) <- sample_orthogonal R fuel key s;
    do! ' (err, e) <- sample_error E p len (sk_var key) e;
    do! x <- convert_to_ntt p (sk_np key) err;
    do! x <- poly_mul_scalar p x (sk_t key);
    do! x <- poly_add p x (fst r);
    do! x <- poly_add p x w;
    do! ' (m, se) <- part_loop R E fuel key len pows' s e;
    Ok ((x :: fst m, snd r :: snd m), se)
  end.

(** relinearization_key.cc lines 101-141: KeyPart::Create. *)
Definition part_create (R E : prng) (fuel : nat) (key_power : poly) (key : skey) (logT T : Z) (dim : nat)
  (s : pr_st R) (e : pr_st E) : result (part * (pr_st R * pr_st E)) :=
  do! pows <- powers_of_t (sk_p key) key_power T dim;
  do! ' (m, se) <- part_loop R E fuel key (length key_power) pows s e;
  Ok ({| pt_top := fst m; pt_bot := snd m; pt_logT := logT |}, se).

(** relinearization_key.cc lines 86-93: the loop of MatrixMultiply. *)
Fixpoint mm_loop (p : mparams) (np : nttp) (digits : list (list Z)) (top bot : list poly) (r0 r1 : poly) {struct top}
  : result (poly * poly) :=
  match top with
  | [] => Ok (r0, r1)
  | a :: top' =>
    match digits, bot with
    | d :: digits', b :: bot' =>
      do! x <- convert_to_ntt p np d;
      do! r0 <- poly_fused_mul_add p r0 x a;
      do! r1 <- poly_fused_mul_add p r1 x b;
      mm_loop p np digits' top' bot' r0 r1
    | _, _ => UB
    end
  end.

(** relinearization_key.cc lines 77-96: MatrixMultiply. *)
Definition matrix_multiply (p : mparams) (np : nttp) (digits : list (list Z)) (top bot : list poly)
  : result (poly * poly) :=
  do! d0 <- get digits 0;
  do! z <- poly_zero p (length d0);
  mm_loop p np digits top bot z z.

(** relinearization_key.cc lines 145-162: ApplyPartTo. *)
Definition apply_part (pt : part) (c : poly) (p : mparams) (np : nttp) : result (poly * poly) :=
  do! v <- inverse_ntt_poly p np c;
  do! digits <- base_decompose p v (pt_logT pt) (length (pt_top pt));
  matrix_multiply p np digits (pt_top pt) (pt_bot pt).

(** relinearization_key.cc lines 268-280: the loop of Create; [i] is the power of s of the next part. *)
Fixpoint create_loop (R E : prng) (fuel : nat) (key : skey) (base key_power : poly) (logT T : Z) (dim : nat)
  (i : Z) (count : nat) (s : pr_st R) (e : pr_st E) : result (list part) :=
  match count with
  | O => Ok []
  | S count' =>
    do! kp <- (if i =? 1 then Ok key_power else poly_mul (sk_p key) key_power base);
    do! ' (pt, se) <- part_create R E fuel kp key logT T dim s e;
    do! r <- create_loop R E fuel key base kp logT T dim (i + 1) count' (fst se) (snd se);
    Ok (pt :: r)
  end.

(** relinearization_key.cc lines 213-286: Create. log_modulus < number of bits, so the shift is in
    range. *)
Definition relin_create (F : genfam) (fuel : nat) (key : skey) (ty num logT power : Z) (seed seed_e : list Z)
  : result relin :=
  let p := sk_p key in
  if num <? (if identical_base power then 3 else 2) then Err InvalidArgument
  else if logT <=? 0 then Err InvalidArgument
  else if logT >? p_logm p then Err InvalidArgument
  else
    let T := import_int p (2 ^ logT) in
    do! base <- key_substitute (int32 power) key;
    if negb (known_type ty) then Err InvalidArgument
    else
      do! s <- gf_start F ty seed;
      do! e <- gf_start F ty seed_e;
      let dim := gadget_size p logT in
      let first := first_index power in
      do! parts <- create_loop (gf_prng F ty) (gf_prng F ty) fuel key (sk_key base) (sk_key base) logT T
                     (Z.to_nat dim) first (Z.to_nat (num - first)) s e;
      Ok {| rk_dim := dim; rk_num := num; rk_logT := logT; rk_T := T; rk_pow := int32 power; rk_p := p;
            rk_np := sk_np key; rk_parts := parts; rk_seed := seed; rk_type := ty |}.

(** relinearization_key.cc lines 313-323: the remaining parts. *)
Fixpoint apply_loop (p : mparams) (np : nttp) (parts : list part) (x : ct) (idx : Z) (r0 r1 : poly)
  : result (poly * poly) :=
  match parts with
  | [] => Ok (r0, r1)
  | pt :: parts' =>
    do! c <- ct_component x idx;
    do! ' (a, b) <- apply_part pt c p np;
    do! r0 <- poly_add p r0 a;
    do! r1 <- poly_add p r1 b;
    apply_loop p np parts' x (idx + 1) r0 r1
  end.

(** relinearization_key.cc lines 290-344: ApplyTo. *)
Definition relin_apply (rk : relin) (x : ct) : result ct :=
  let p := rk_p rk in
  if Z.of_nat (length (ct_c x)) >? rk_num rk then Err InvalidArgument
  else
    let first := first_index (rk_pow rk) in
    do! c1 <- ct_component x first;
    match rk_parts rk with
    | [] => UB
    | pt :: parts =>
      do! ' (r0, r1) <- apply_part pt c1 p (rk_np rk);
      do! ' (r0, r1) <- apply_loop p (rk_np rk) parts x (first + 1) r0 r1;
      do! c0 <- ct_component x 0;
      do! r0 <- poly_add p r0 c0;
      do! r1 <- (if identical_base (rk_pow rk) then do! c <- ct_component x 1; poly_add p r1 c else Ok r1);
      Ok (ct_make p [r0; r1] 1)
    end.

(** serialization.proto lines 52-73 *)
Record ser_relin := { sr_c : list ser_poly; sr_logT : Z; sr_num : Z; sr_seed : list Z; sr_type : Z; sr_pow : Z }.

(** relinearization_key.cc lines 348-362: Serialize. *)
Definition relin_serialize (rk : relin) : result ser_relin :=
  do! c <- seqr (map (poly_serialize (rk_p rk)) (flat_map pt_top (rk_parts rk)));
  Ok {| sr_c := c; sr_logT := int32 (rk_logT rk); sr_num := rk_num rk; sr_seed := rk_seed rk;
        sr_type := rk_type rk; sr_pow := rk_pow rk |}.

(** relinearization_key.cc lines 180-188: the loop of KeyPart::Deserialize. *)
Fixpoint part_deser_loop (R : prng) (fuel : nat) (p : mparams) (polys : list ser_poly) (s : pr_st R)
  : result ((list poly * list poly) * pr_st R) :=
  match polys with
  | [] => Ok (([], []), s)
  | c :: polys' =>
    do! a <- poly_deserialize p c;
    do! ' (b, s) <- sample_polynomial R fuel (Z.of_nat (length a)) p s;
    do! ' (m, s) <- part_deser_loop R fuel p polys' s;
    Ok ((a :: fst m, b :: snd m), s)
  end.

(** relinearization_key.cc lines 442-451 *)
Fixpoint parts_deser (R : prng) (fuel : nat) (p : mparams) (logT : Z) (per : nat) (count : nat)
  (polys : list ser_poly) (s : pr_st R) : result (list part) :=
  match count with
  | O => Ok []
  | S count' =>
    do! ' (m, s) <- part_deser_loop R fuel p (firstn per polys) s;
    do! r <- parts_deser R fuel p logT per count' (skipn per polys) s;
    Ok ({| pt_top := fst m; pt_bot := snd m; pt_logT := logT |} :: r)
  end.

(** relinearization_key.cc lines 366-454: Deserialize. *)
Definition relin_deserialize (F : genfam) (fuel : nat) (sr : ser_relin) (p : mparams) (np : nttp) : result relin :=
  let first := first_index (sr_pow sr) in
  if sr_num sr <=? first then Err InvalidArgument
  else
    let expected := sr_num sr - first in
    if negb (Z.of_nat (length (sr_c sr)) mod expected =? 0) then Err InvalidArgument
    else if sr_logT sr <=? 0 then Err InvalidArgument
    else if sr_logT sr >? p_logm p then Err InvalidArgument
    else
      let per := Z.of_nat (length (sr_c sr)) / expected in
      if negb (per =? gadget_size p (sr_logT sr)) then Err InvalidArgument
      else
        let T := import_int p (2 ^ sr_logT sr) in
        if negb (known_type (sr_type sr)) then Err InvalidArgument
        else
          do! s <- gf_start F (sr_type sr) (sr_seed sr);
          do! parts <- parts_deser (gf_prng F (sr_type sr)) fuel p (sr_logT sr) (Z.to_nat per)
                         (Z.to_nat expected) (sr_c sr) s;
          Ok {| rk_dim := per; rk_num := sr_num sr; rk_logT := sr_logT sr; rk_T := T; rk_pow := sr_pow sr;
                rk_p := p; rk_np := np; rk_parts := parts; rk_seed := sr_seed sr; rk_type := sr_type sr |}.

(** ** galois_key.h: a relinearization key of two parts *)

(** galois_key.h lines 52-60: Create *)
Definition galois_create (F : genfam) (fuel : nat) (key : skey) (ty power logT : Z) (seed seed_e : list Z)
  : result relin := relin_create F fuel key ty 2 logT power seed seed_e.
(** galois_key.h lines 66-75: ApplyTo *)
Definition galois_apply (gk : relin) (x : ct) : result ct :=
  if negb (ct_pow x =? rk_pow gk) then Err InvalidArgument else relin_apply gk x.
(** galois_key.h lines 80-99: Serialize, Deserialize *)
Definition galois_serialize := relin_serialize.
Definition galois_deserialize := relin_deserialize.
