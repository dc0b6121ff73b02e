(** Model of /repo/shell_encryption/symmetric_encryption.h: ciphertexts, keys,
    encryption and decryption.

    Simplifications: the heuristic error estimate error_ (a double) and the
    ErrorParams object that feeds it are omitted, since no decision of the
    code depends on them. When an in-place operation fails midway the C++
    object is left partly updated; here a failing call returns no object, and
    InPlace.v models what is left in it. The error estimates are in ErrorEst.v. *)
From Verif Require Import Base Montgomery MontBatch Ntt Poly PolyExt Prng Sampling.

(** ** Ciphertexts *)

(** symmetric_encryption.h lines 591-607: members. *)
Record ct := { ct_c : list poly; ct_lazy : list lazy; ct_pow : Z; ct_p : mparams }.

(** symmetric_encryption.h lines 76-80: the empty ciphertext. *)
Definition ct_empty (p : mparams) : ct := {| ct_c := []; ct_lazy := []; ct_pow := 1; ct_p := p |}.

(** symmetric_encryption.h lines 83-91: a ciphertext from its components. *)
Definition ct_make (p : mparams) (c : list poly) (pow : Z) : ct :=
  {| ct_c := c; ct_lazy := []; ct_pow := pow; ct_p := p |}.

(** symmetric_encryption.h lines 593-595: x with other values of the members c_ and lazy_ *)
Definition with_c (x : ct) (c : list poly) : ct :=
  {| ct_c := c; ct_lazy := ct_lazy x; ct_pow := ct_pow x; ct_p := ct_p x |}.
Definition with_lazy (x : ct) (z : list lazy) : ct :=
  {| ct_c := ct_c x; ct_lazy := z; ct_pow := ct_pow x; ct_p := ct_p x |}.

(** symmetric_encryption.h lines 129-131, 173-175: the loop
    [for i < that.c_.size(): c_[i] = f(c_[i], that.c_[i])] *)
Fixpoint zip_into (f : poly -> poly -> result poly) (c d : list poly) {struct d} : result (list poly) :=
  match d with
  | [] => Ok c
  | y :: d' => match c with
    | [] => UB
    | x :: c' => do! z <- f x y; do! r <- zip_into f c' d'; Ok (z :: r)
    end
  end.

(** symmetric_encryption.h lines 124-127, 168-171: pad with zero polynomials up to the size of d. *)
Definition pad_to (p : mparams) (c d : list poly) : result (list poly) :=
  if (length c <? length d)%nat then
    do! d0 <- get d 0;
    do! z <- poly_zero p (length d0);
    Ok (c ++ repeat z (length d - length c))
  else Ok c.

(** symmetric_encryption.h lines 111-135: operator+ / AddInPlace. *)
Definition ct_add (x y : ct) : result ct :=
  if negb (ct_pow x =? ct_pow y) then Err InvalidArgument
  else
    do! c <- pad_to (ct_p x) (ct_c x) (ct_c y);
    do! c <- zip_into (poly_add (ct_p x)) c (ct_c y);
    Ok (with_c x c).

(** symmetric_encryption.h lines 155-179: operator- / SubInPlace. *)
Definition ct_sub (x y : ct) : result ct :=
  if negb (ct_pow x =? ct_pow y) then Err InvalidArgument
  else
    do! c <- pad_to (ct_p x) (ct_c x) (ct_c y);
    do! c <- zip_into (poly_sub (ct_p x)) c (ct_c y);
    Ok (with_c x c).

(** symmetric_encryption.h lines 214-227: absorb a polynomial. *)
Definition ct_absorb (x : ct) (b : poly) : result ct :=
  do! c <- seqr (map (fun a => poly_mul (ct_p x) a b) (ct_c x));
  Ok (with_c x c).

(** symmetric_encryption.h lines 231-244: absorb a scalar. *)
Definition ct_absorb_scalar (x : ct) (s : Z) : result ct :=
  do! c <- seqr (map (fun a => poly_mul_scalar (ct_p x) a s) (ct_c x));
  Ok (with_c x c).

(** symmetric_encryption.h lines 258-271: fused multiply-add of the common components, products of
    the remaining ones. *)
Fixpoint fused_into (f : poly -> poly -> result poly) (g : poly -> result poly) (c a : list poly)
  : result (list poly) :=
  match c, a with
  | c, [] => Ok c
  | [], y :: a' => do! z <- g y; do! r <- fused_into f g [] a'; Ok (z :: r)
  | x :: c', y :: a' => do! z <- f x y; do! r <- fused_into f g c' a'; Ok (z :: r)
  end.

(** symmetric_encryption.h lines 250-275: FusedAbsorbAddInPlace. *)
Definition ct_fused_absorb (x a : ct) (b : poly) : result ct :=
  if negb (ct_pow x =? ct_pow a) then Err InvalidArgument
  else
    do! c <- fused_into (fun u y => poly_fused_mul_add (ct_p x) u y b)
                        (fun y => poly_mul (ct_p a) y b) (ct_c x) (ct_c a);
    Ok (with_c x c).

(** symmetric_encryption.h lines 364-391: FusedAbsorbConstantAddInPlace. *)
Definition ct_fused_absorb_constant (x a : ct) (b : const_poly) : result ct :=
  if negb (ct_pow x =? ct_pow a) then Err InvalidArgument
  else
    do! c <- fused_into (fun u y => poly_fused_mul_constant_add (ct_p x) u y b)
                        (fun y => poly_mul_constant (ct_p a) y b) (ct_c x) (ct_c a);
    Ok (with_c x c).

(** symmetric_encryption.h lines 328-332: the loop over lazy_, reading a.c_[j] without a check. *)
Fixpoint lazy_into (p : mparams) (z : list lazy) (a : list poly) (b : poly) : result (list lazy) :=
  match z with
  | [] => Ok []
  | x :: z' => match a with
    | [] => UB
    | y :: a' => do! x' <- lazy_fused p x y b; do! r <- lazy_into p z' a' b; Ok (x' :: r)
    end
  end.

(** symmetric_encryption.h lines 285-335: FusedAbsorbAddInPlaceLazily. *)
Definition ct_fused_lazily (x a : ct) (b : poly) : result ct :=
  if negb (ct_pow x =? ct_pow a) then Err InvalidArgument
  else match ct_c a with
  | [] => Ok x
  | a0 :: _ =>
    match ct_lazy x with
    | [] =>
      do! z <- seqr (map (fun y => lazy_create (ct_p x) y b) (ct_c a));
      Ok (with_lazy x z)
    | _ =>
      do! z <- (if (length (ct_lazy x) <? length (ct_c a))%nat then
                  do! e <- lazy_create_empty (ct_p x) (length a0);
                  Ok (ct_lazy x ++ repeat e (length (ct_c a) - length (ct_lazy x)))
                else Ok (ct_lazy x));
      do! z <- lazy_into (ct_p x) z (ct_c a) b;
      Ok (with_lazy x z)
    end
  end.

(** symmetric_encryption.h lines 340-362: MergeLazyOperations. *)
Fixpoint merge_into (p : mparams) (c : list poly) (z : list lazy) : result (list poly) :=
  match z with
  | [] => Ok c
  | y :: z' => match c with
    | [] => do! e <- lazy_export p y; do! r <- merge_into p [] z'; Ok (e :: r)
    | x :: c' =>
      do! e <- lazy_export p y;
      do! s <- poly_add p x e;
      do! r <- merge_into p c' z';
      Ok (s :: r)
    end
  end.

Definition ct_merge (x : ct) : result ct :=
  match ct_lazy x with
  | [] => Err FailedPrecondition
  | _ => do! c <- merge_into (ct_p x) (ct_c x) (ct_lazy x); Ok (ct_make (ct_p x) c (ct_pow x))
  end.

(** symmetric_encryption.h lines 424-429: result[i + j] += c_[i] * that.c_[j]. *)
Fixpoint mul_row (p : mparams) (ci : poly) (d : list poly) (idx : nat) (res : list poly)
  : result (list poly) :=
  match d with
  | [] => Ok res
  | dj :: d' =>
    do! x <- get res idx;
    do! y <- poly_fused_mul_add p x ci dj;
    mul_row p ci d' (S idx) (upd res idx y)
  end.

Fixpoint mul_rows (p : mparams) (c d : list poly) (idx : nat) (res : list poly) : result (list poly) :=
  match c with
  | [] => Ok res
  | ci :: c' => do! res <- mul_row p ci d idx res; mul_rows p c' d (S idx) res
  end.

(** symmetric_encryption.h lines 408-435: operator* of two ciphertexts. *)
Definition ct_mul (x y : ct) : result ct :=
  if negb (ct_pow x =? ct_pow y) then Err InvalidArgument
  else match ct_c x, ct_c y with
  | x0 :: _, y0 :: _ =>
    if (length x0 <=? 0)%nat || (length y0 <=? 0)%nat then Err InvalidArgument
    else
      do! temp <- poly_zero (ct_p x) (length x0);
      do! res <- mul_rows (ct_p x) (ct_c x) (ct_c y) 0
                   (repeat temp (length (ct_c x) + length (ct_c y) - 1));
      Ok (ct_make (ct_p x) res (ct_pow x))
  | _, _ => Err InvalidArgument
  end.

(** symmetric_encryption.h lines 474-498: one coefficient of SwitchModulus, t <> 0. For 16-bit words
    [int_p - int_q] and [% t] are computed in (signed) int. *)
Definition switch1 (pp pq : mparams) (t x : Z) : Z :=
  let k := p_k pp in
  let p := p_m pp in
  let q := p_m pq in
  let int_p := export_int pp x in
  let int_q := wrap k (wrap (2 * k) (int_p * q) / p) in
  let delta := if k =? 16 then wrap k (Z.rem (int_p - int_q) t) else wrap k (int_p - int_q) mod t in
  let int_q := wrap k (int_q + delta) in
  let int_q := if shr t 1 <=? delta then wrap k (int_q + (q - t)) else int_q in
  import_int pq int_q.

(** symmetric_encryption.h lines 442-507: SwitchModulus. ModularInt and ModularIntQ share Int. *)
Definition ct_switch_modulus (npp : nttp) (pq : mparams) (npq : nttp) (t : Z) (x : ct) : result ct :=
  let pp := ct_p x in
  if t =? 0 then UB
  else if negb (p_m pp mod t =? p_m pq mod t) then Err InvalidArgument
  else
    do! c <- seqr (map (fun a =>
                do! v <- inverse_ntt_poly pp npp a;
                convert_to_ntt pq npq (map (switch1 pp pq t) v)) (ct_c x));
    Ok (ct_make pq c (ct_pow x)).

(** symmetric_encryption.h lines 517-532: Substitute. power_of_s_ * substitution_power is an int
    product, c_[0] of an empty vector is undefined. *)
Definition ct_substitute (np : nttp) (power : Z) (x : ct) : result ct :=
  do! c <- seqr (map (fun a => poly_substitute np a power) (ct_c x));
  do! c0 <- get (ct_c x) 0;
  let prod := ct_pow x * power in
  if (prod <? - 2 ^ 31) || (2 ^ 31 <=? prod) then UB
  else if (2 * length c0 =? 0)%nat then UB
  else Ok (ct_make (ct_p x) c (Z.rem prod (2 * Z.of_nat (length c0)))).

(** symmetric_encryption.h lines 534-545: Serialize (serialization.proto: power_of_s, c). *)
Record ser_ct := { sc_c : list ser_poly; sc_pow : Z }.

Definition ct_serialize (x : ct) : result ser_ct :=
  do! c <- seqr (map (poly_serialize (ct_p x)) (ct_c x));
  Ok {| sc_c := c; sc_pow := ct_pow x |}.

(** symmetric_encryption.h lines 547-569: Deserialize. *)
Definition ct_deserialize (p : mparams) (s : ser_ct) : result ct :=
  if Z.of_nat (length (sc_c s)) <=? 0 then Err InvalidArgument
  else if Z.of_nat (length (sc_c s)) >? max_num_coeffs then Err InvalidArgument
  else do! c <- seqr (map (poly_deserialize p) (sc_c s)); Ok (ct_make p c (sc_pow s)).

(** symmetric_encryption.h lines 574-579: Component. *)
Definition ct_component (x : ct) (i : Z) : result poly :=
  if (0 >? i) || (i >=? Z.of_nat (length (ct_c x))) then Err InvalidArgument
  else get (ct_c x) (Z.to_nat i).

(** ** Keys *)

(** symmetric_encryption.h lines 838-856: members. sk_pt are the plaintext modulus parameters. *)
Record skey := { sk_key : poly; sk_var : Z; sk_logt : Z; sk_t : Z;
                 sk_p : mparams; sk_pt : mparams; sk_np : nttp }.

(** [(One() << log_t) + One()]: for 16-bit words One() is promoted to int. *)
Definition t_word (p : mparams) (log_t : Z) : result Z :=
  if (if p_k p =? 16 then 31 else p_k p) <=? log_t then UB
  else Ok (wrap (p_k p) (wrap (p_k p) (2 ^ log_t) + 1)).

(** symmetric_encryption.h lines 634-649: Sample. *)
Definition key_sample (R : prng) (log_n : nat) (variance log_t : Z) (p : mparams) (np : nttp)
  (s : pr_st R) : result (skey * pr_st R) :=
  do! ' (e, s) <- sample_error R p (2 ^ log_n) variance s;
  do! key <- convert_to_ntt p np e;
  do! t <- t_word p log_t;
  Ok ({| sk_key := key; sk_var := variance; sk_logt := log_t; sk_t := import_int p t;
         sk_p := p; sk_pt := p; sk_np := np |}, s).

(** symmetric_encryption.h lines 652-654: Serialize. *)
Definition key_serialize (key : skey) : result ser_poly := poly_serialize (sk_p key) (sk_key key).

(** symmetric_encryption.h lines 657-689: Deserialize. [log_modulus - 1] does not underflow. *)
Definition key_deserialize (variance log_t : Z) (s : ser_poly) (p pt : mparams) (np : nttp) : result skey :=
  if log_t >? p_logm p - 1 then Err InvalidArgument
  else
    do! key <- poly_deserialize p s;
    do! t <- t_word pt log_t;
    Ok {| sk_key := key; sk_var := variance; sk_logt := log_t; sk_t := import_int pt t;
          sk_p := p; sk_pt := pt; sk_np := np |}.

(** symmetric_encryption.h lines 704-744: SwitchModulus. *)
Definition key_switch1 (pp pq : mparams) (x : Z) : Z :=
  let int_p := export_int pp x in
  let int_p := if int_p >? shr (p_m pp) 1 then wrap (p_k pp) (int_p - p_m pp mod p_m pq) else int_p in
  import_int pq int_p.

Definition key_switch_modulus (pq : mparams) (npq : nttp) (key : skey) : result skey :=
  do! t <- t_word pq (sk_logt key);
  if t =? 0 then UB
  else if negb (p_m (sk_p key) mod t =? p_m pq mod t) then Err InvalidArgument
  else
    do! v <- inverse_ntt_poly (sk_p key) (sk_np key) (sk_key key);
    do! key_q <- convert_to_ntt pq npq (map (key_switch1 (sk_p key) pq) v);
    Ok {| sk_key := key_q; sk_var := sk_var key; sk_logt := sk_logt key; sk_t := import_int pq t;
          sk_p := pq; sk_pt := pq; sk_np := npq |}.

(** symmetric_encryption.h lines 749-759: Substitute. *)
Definition key_substitute (power : Z) (key : skey) : result skey :=
  do! t <- t_word (sk_p key) (sk_logt key);
  do! sub <- poly_substitute (sk_np key) (sk_key key) power;
  Ok {| sk_key := sub; sk_var := sk_var key; sk_logt := sk_logt key; sk_t := import_int (sk_p key) t;
        sk_p := sk_p key; sk_pt := sk_pt key; sk_np := sk_np key |}.

Definition with_key (x : skey) (k : poly) : skey :=
  {| sk_key := k; sk_var := sk_var x; sk_logt := sk_logt x; sk_t := sk_t x;
     sk_p := sk_p x; sk_pt := sk_pt x; sk_np := sk_np x |}.

(** symmetric_encryption.h lines 777-822: Add and Sub. *)
Definition key_compatible (x y : skey) : bool :=
  (sk_var x =? sk_var y) && (sk_logt x =? sk_logt y) && meqb (sk_t x) (sk_t y).
Definition key_add (x y : skey) : result skey :=
  if negb (key_compatible x y) then Err InvalidArgument
  else do! k <- poly_add (sk_p x) (sk_key x) (sk_key y); Ok (with_key x k).
Definition key_sub (x y : skey) : result skey :=
  if negb (key_compatible x y) then Err InvalidArgument
  else do! k <- poly_sub (sk_p x) (sk_key x) (sk_key y); Ok (with_key x k).

(** symmetric_encryption.h lines 825-836: NullKey. *)
Definition key_null (log_n : nat) (variance log_t : Z) (p : mparams) (np : nttp) : result skey :=
  do! zero <- poly_zero p (2 ^ log_n);
  do! t <- t_word p log_t;
  Ok {| sk_key := zero; sk_var := variance; sk_logt := log_t; sk_t := import_int p t;
        sk_p := p; sk_pt := p; sk_np := np |}.

(** ** Encryption and decryption *)

(** symmetric_encryption.h lines 940-961: internal::Encrypt. *)
Definition encrypt_internal (R : prng) (key : skey) (plaintext a : poly) (s : pr_st R)
  : result (poly * pr_st R) :=
  let p := sk_p key in
  do! ' (e, s) <- sample_error R p (length (sk_key key)) (sk_var key) s;
  do! c0 <- convert_to_ntt p (sk_np key) e;
  do! c0 <- poly_mul_scalar p c0 (sk_t key);
  do! c0 <- poly_add p c0 plaintext;
  do! c0 <- poly_fused_mul_add p c0 a (sk_key key);
  Ok (c0, s).

(** symmetric_encryption.h lines 1006-1023: Encrypt. *)
Definition encrypt (R : prng) (fuel : nat) (key : skey) (plaintext : poly) (s : pr_st R)
  : result (ct * pr_st R) :=
  let p := sk_p key in
  do! ' (a, s) <- sample_polynomial R fuel (Z.of_nat (length (sk_key key))) p s;
  do! ' (c0, s) <- encrypt_internal R key plaintext a s;
  Ok (ct_make p [c0; poly_neg p a] 1, s).

(** symmetric_encryption.h lines 967-999: ExtractErrorAndMessage. The loop; [i] counts components,
    [kp] is key_powers. *)
Fixpoint extract_loop (key : skey) (pc : mparams) (cs : list poly) (i : nat) (kp acc : poly)
  : result poly :=
  match cs with
  | [] => Ok acc
  | ci :: cs' =>
    do! kp <- (if (1 <? i)%nat then poly_mul (sk_p key) kp (sk_key key) else Ok kp);
    do! ci <- (if (0 <? i)%nat then poly_mul pc ci kp else Ok ci);
    do! acc <- poly_add (sk_p key) acc ci;
    extract_loop key pc cs' (S i) kp acc
  end.

Definition extract_error_and_message (key : skey) (x : ct) : result (list Z) :=
  do! z <- poly_zero (sk_p key) (length (sk_key key));
  do! acc <- extract_loop key (ct_p x) (ct_c x) 0 (sk_key key) z;
  inverse_ntt_poly (sk_p key) (sk_np key) acc.

(** symmetric_encryption.h lines 1084-1111: RemoveError. For 16-bit words the difference is a
    (signed) int that is converted back to Int. *)
Definition remove_error (p : mparams) (q t : Z) (v : list Z) : list Z :=
  let plaintext := map (export_int p) v in
  if t =? 0 then plaintext
  else
    let q_mod_t := q mod t in
    map (fun x => (if x >? shr q 1 then wrap (p_k p) (x - q_mod_t) else x) mod t) plaintext.

(** symmetric_encryption.h lines 1119-1135: MeasureError. *)
Definition measure_error (p : mparams) (q : Z) (v : list Z) : Z :=
  fold_left (fun max i =>
    let curr := export_int p i in
    let curr := if curr >? shr q 1 then wrap (p_k p) (q - curr) else curr in
    if curr >? max then curr else max) v 0.

(** symmetric_encryption.h lines 1138-1152: Decrypt. *)
Definition decrypt (key : skey) (x : ct) : result (list Z) :=
  do! v <- extract_error_and_message key x;
  let t := export_int (sk_pt key) (sk_t key) in
  if t =? 0 then Err InvalidArgument
  else Ok (remove_error (sk_p key) (p_m (sk_p key)) t v).
