(** Model of rns/lazy_rns_polynomial.h and .cc, rns/rns_ciphertext.h and
    rns/rns_bgv_ciphertext.h.

    Simplifications: the error estimate error_ (a double) and error_params_ are
    omitted, since no decision of the code depends on them; a method that
    updates an object returns the new object, and only the error when it fails
    part way. InPlace.v models what is left in the object, RnsErrorEst.v the
    error estimates. *)
From Verif Require Import Base Montgomery MontBatch Ntt Poly PolyExt Prng Sampling RnsPoly.

(** ** Lazy polynomials *)

(** lazy_rns_polynomial.h lines 186-192: members; the accumulators are BigInt,
    2k-bit words. *)
Record rlazy := { rl_vs : list (list Z); rl_level : Z; rl_max : Z }.

(** rns/lazy_rns_polynomial.h lines 144-168: ComputeLogMaximalLevel. *)
Fixpoint rlazy_log_max_loop (ms : list pmod) (l : Z) : result Z :=
  match ms with
  | [] => Ok l
  | m :: ms' =>
      let lq := 2 * p_k (pm_p m) - 1 - 2 * p_logm (pm_p m) in
      if lq <? 1 then Err InvalidArgument else rlazy_log_max_loop ms' (if lq <? l then lq else l)
  end.

(** the word size is the one of the first modulus; with no modulus at all
    (excluded by every caller) 64 stands for it *)
Definition rlazy_log_max (ms : list pmod) : result Z :=
  rlazy_log_max_loop ms ((match ms with m :: _ => p_k (pm_p m) | [] => 64 end) - 2).

(** rns/lazy_rns_polynomial.h lines 46-84: Create. All vectors of a polynomial have NumCoeffs entries. *)
Definition rlazy_create (a b : rpoly) (ms : list pmod) : result rlazy :=
  if negb (rp_ntt a) || negb (rp_ntt b) then Err InvalidArgument
  else if negb (rp_ncoeffs b =? rp_ncoeffs a)%nat then Err InvalidArgument
  else if negb (same_len (rp_vs a) ms) || negb (same_len (rp_vs b) ms) then Err InvalidArgument
  else
    do! l <- rlazy_log_max ms;
    Ok {| rl_vs := map2 (fun m vw => map2 (big_mul (pm_p m)) (fst vw) (snd vw)) ms (combine (rp_vs a) (rp_vs b));
          rl_level := 1; rl_max := 2 ^ l |}.

(** rns/lazy_rns_polynomial.h lines 87-106: CreateZero. *)
Definition rlazy_zero (log_n : Z) (ms : list pmod) : result rlazy :=
  if log_n <=? 0 then Err InvalidArgument
  else match ms with
  | [] => Err InvalidArgument
  | _ =>
      do! n <- shl_int log_n;
      do! l <- rlazy_log_max ms;
      Ok {| rl_vs := map (fun _ => repeat 0 n) ms; rl_level := 0; rl_max := 2 ^ l |}
  end.

(** rns/lazy_rns_polynomial.h lines 110-129: Export. *)
Definition rlazy_export (z : rlazy) (ms : list pmod) : result rpoly :=
  if negb (same_len ms (rl_vs z)) then Err InvalidArgument
  else match rl_vs z with
  | [] => UB
  | _ => rns_create (map2 (fun m v => map (fun c => export_int (pm_p m) (barrett_reduce_bigint (pm_p m) c)) v) ms (rl_vs z)) true
  end.

(** rns/lazy_rns_polynomial.h lines 171-179: Refresh. *)
Definition rlazy_refresh (z : rlazy) (ms : list pmod) : rlazy :=
  {| rl_vs := map2 (fun m v => map (barrett_reduce_bigint (pm_p m)) v) ms (rl_vs z); rl_level := 1; rl_max := rl_max z |}.

(** lazy_rns_polynomial.cc lines 34-80: FusedMulAddInPlace. The 32- and 64-bit
    specializations (lines 82-120) do the same sums with vector instructions:
    see RnsHwy.v. *)
Definition rlazy_fused (z : rlazy) (a b : rpoly) (ms : list pmod) : result rlazy :=
  if negb (rp_ntt a) || negb (rp_ntt b) then Err InvalidArgument
  else if negb (same_len (rp_vs a) ms) || negb (same_len (rp_vs b) ms) || negb (same_len (rl_vs z) ms) then Err InvalidArgument
  else match rl_vs z with
  | [] => UB
  | v0 :: _ =>
    if negb (rp_ncoeffs a =? length v0)%nat || negb (rp_ncoeffs b =? length v0)%nat then Err InvalidArgument
    else
      let z := if rl_level z =? rl_max z then rlazy_refresh z ms else z in
      Ok {| rl_vs := map2 (fun m zab =>
                map2 (fun c xy => wrap (2 * p_k (pm_p m)) (c + big_mul (pm_p m) (fst xy) (snd xy)))
                  (fst zab) (combine (fst (snd zab)) (snd (snd zab))))
              ms (combine (rl_vs z) (combine (rp_vs a) (rp_vs b)));
            rl_level := rl_level z + 1; rl_max := rl_max z |}
  end.

(** ** Ciphertexts *)

(** rns_ciphertext.h lines 496-513: members. *)
Record rct := { rt_c : list rpoly; rt_lazy : list rlazy; rt_ms : list pmod; rt_pow : Z }.

(** rns/rns_ciphertext.h lines 53-61: the constructor. *)
Definition rct_make (c : list rpoly) (ms : list pmod) (pow : Z) : rct :=
  {| rt_c := c; rt_lazy := []; rt_ms := ms; rt_pow := pow |}.

(** rns/rns_ciphertext.h lines 63-68: CreateZero. *)
Definition rct_zero (ms : list pmod) : rct := rct_make [] ms 1.

Definition rct_with_c (x : rct) (c : list rpoly) : rct :=
  {| rt_c := c; rt_lazy := rt_lazy x; rt_ms := rt_ms x; rt_pow := rt_pow x |}.
Definition rct_with_lazy (x : rct) (z : list rlazy) : rct :=
  {| rt_c := rt_c x; rt_lazy := z; rt_ms := rt_ms x; rt_pow := rt_pow x |}.

(** rns/rns_ciphertext.h lines 70-98: Deserialize and Serialize (the error field is omitted). *)
Record ser_rct := { src_c : list ser_rpoly; src_pow : Z }.
Definition rct_deserialize (s : ser_rct) (ms : list pmod) : result rct :=
  do! c <- seqr (map (fun b => rns_deserialize b ms) (src_c s));
  Ok (rct_make c ms (src_pow s)).
Definition rct_serialize (x : rct) : result ser_rct :=
  do! c <- seqr (map (fun a => rns_serialize a (rt_ms x)) (rt_c x));
  Ok {| src_c := c; src_pow := rt_pow x |}.

(** rns/rns_ciphertext.h lines 102-104, 176-178, 188-191: the loops "for (auto& c : components_) c = f(c)" *)
Definition rct_map (f : rpoly -> result rpoly) (x : rct) : result rct :=
  do! c <- seqr (map f (rt_c x)); Ok (rct_with_c x c).

(** rns/rns_ciphertext.h lines 101-106: NegateInPlace. *)
Definition rct_neg (x : rct) : result rct := rct_map (fun c => rns_neg_in_place c (rt_ms x)) x.

(** the checks of rns/rns_ciphertext.h lines 112-121 *)
Definition rct_compatible (x y : rct) : bool :=
  same_len (rt_c x) (rt_c y) && same_len (rt_ms x) (rt_ms y) && (rt_pow x =? rt_pow y).

(** rns/rns_ciphertext.h lines 111-128: AddInPlace of a ciphertext. *)
Definition rct_add (x y : rct) : result rct :=
  if negb (rct_compatible x y) then Err InvalidArgument
  else do! c <- seqr (map2 (fun a b => rns_add a b (rt_ms x)) (rt_c x) (rt_c y)); Ok (rct_with_c x c).

(** rns/rns_ciphertext.h lines 143-160: SubInPlace of a ciphertext. *)
Definition rct_sub (x y : rct) : result rct :=
  if negb (rct_compatible x y) then Err InvalidArgument
  else do! c <- seqr (map2 (fun a b => rns_sub a b (rt_ms x)) (rt_c x) (rt_c y)); Ok (rct_with_c x c).

(** rns/rns_ciphertext.h lines 132-138: AddInPlace of a plaintext; components_[0] is not checked. *)
Definition rct_add_plain (x : rct) (b : rpoly) : result rct :=
  if negb (same_len (rt_ms x) (rp_vs b)) then Err InvalidArgument
  else match rt_c x with
  | [] => UB
  | c0 :: cs => do! c0 <- rns_add c0 b (rt_ms x); Ok (rct_with_c x (c0 :: cs))
  end.

(** rns/rns_ciphertext.h lines 164-170: SubInPlace of a plaintext. *)
Definition rct_sub_plain (x : rct) (b : rpoly) : result rct :=
  if negb (same_len (rt_ms x) (rp_vs b)) then Err InvalidArgument
  else match rt_c x with
  | [] => UB
  | c0 :: cs => do! c0 <- rns_sub c0 b (rt_ms x); Ok (rct_with_c x (c0 :: cs))
  end.

(** rns/rns_ciphertext.h lines 175-192: AbsorbInPlace and AbsorbMonomialInPlace differ only in the
    error estimate. *)
Definition rct_absorb (x : rct) (b : rpoly) : result rct := rct_map (fun c => rns_mul c b (rt_ms x)) x.

(** rns/rns_ciphertext.h lines 198-216: a scalar given by its residues. *)
Definition rct_absorb_rns (x : rct) (zs : rnsint) : result rct :=
  if negb (same_len zs (rt_ms x)) then Err InvalidArgument
  else rct_map (fun c => rns_mul_rnsint c zs (rt_ms x)) x.

(** rns/rns_ciphertext.h lines 220-234: a scalar given as an Int. *)
Definition rct_absorb_scalar (x : rct) (s : Z) : result rct := rct_map (fun c => rns_mul_scalar c s (rt_ms x)) x.

(** rns/rns_ciphertext.h lines 237-258: FusedAbsorbAddInPlace. *)
Definition rct_fused (x a : rct) (b : rpoly) : result rct :=
  if negb (rct_compatible x a) then Err InvalidArgument
  else do! c <- seqr (map2 (fun u y => rns_fused_mul_add u y b (rt_ms x)) (rt_c x) (rt_c a)); Ok (rct_with_c x c).

(** rns/rns_ciphertext.h lines 269-290: FusedAbsorbAddInPlaceWithoutPad. *)
Definition rct_fused_nopad (x a : rct) (b : rpoly) : result rct :=
  match rt_c x, rt_c a with
  | [c0; c1], [a0; a1] =>
      if negb (same_len (rt_ms x) (rt_ms a)) then Err InvalidArgument
      else if negb (rt_pow x =? rt_pow a) then Err InvalidArgument
      else do! c0 <- rns_fused_mul_add c0 a0 b (rt_ms x); Ok (rct_with_c x [c0; c1])
  | _, _ => Err InvalidArgument
  end.

(** rns/rns_ciphertext.h lines 298-331: FusedAbsorbAddInPlaceWithoutPadLazily. *)
Definition rct_fused_lazily (x a : rct) (b : rpoly) : result rct :=
  match rt_c a with
  | [a0; a1] =>
      if negb (same_len (rt_ms x) (rt_ms a)) then Err InvalidArgument
      else if negb (rt_pow x =? rt_pow a) then Err InvalidArgument
      else match rt_lazy x with
      | [] => do! z <- rlazy_create a0 b (rt_ms x); Ok (rct_with_lazy x [z])
      | z :: zs => do! z <- rlazy_fused z a0 b (rt_ms x); Ok (rct_with_lazy x (z :: zs))
      end
  | _ => Err InvalidArgument
  end.

(** rns/rns_ciphertext.h lines 334-361: MergeLazyOperations. *)
Fixpoint rct_merge_into (ms : list pmod) (c : list rpoly) (z : list rlazy) : result (list rpoly) :=
  match z with
  | [] => Ok c
  | y :: z' => match c with
    | [] => do! e <- rlazy_export y ms; do! r <- rct_merge_into ms [] z'; Ok (e :: r)
    | x :: c' =>
      do! e <- rlazy_export y ms;
      do! s <- rns_add x e ms;
      do! r <- rct_merge_into ms c' z';
      Ok (s :: r)
    end
  end.
Definition rct_merge (x : rct) : result rct :=
  match rt_lazy x with
  | [] => Err FailedPrecondition
  | _ => do! c <- rct_merge_into (rt_ms x) (rt_c x) (rt_lazy x); Ok (rct_make c (rt_ms x) (rt_pow x))
  end.

(** rns/rns_ciphertext.h lines 365-377: SetPadComponent. For an empty ciphertext (degree -1) the pad
    becomes component 0. *)
Definition rct_set_pad (x : rct) (a : rpoly) : result rct :=
  match rt_c x with
  | [c0; _] => Ok (rct_with_c x [c0; a])
  | [c0] => Ok (rct_with_c x [c0; a])
  | [] => Ok (rct_with_c x [a])
  | _ => Err InvalidArgument
  end.

(** rns/rns_ciphertext.h lines 396-404: result[i + j] += components_[i] * that.components_[j]. *)
Fixpoint rct_mul_row (ms : list pmod) (ci : rpoly) (d : list rpoly) (idx : nat) (res : list rpoly)
  : result (list rpoly) :=
  match d with
  | [] => Ok res
  | dj :: d' =>
    do! x <- get res idx;
    do! y <- rns_fused_mul_add x ci dj ms;
    rct_mul_row ms ci d' (S idx) (upd res idx y)
  end.
Fixpoint rct_mul_rows (ms : list pmod) (c d : list rpoly) (idx : nat) (res : list rpoly) : result (list rpoly) :=
  match c with
  | [] => Ok res
  | ci :: c' => do! res <- rct_mul_row ms ci d idx res; rct_mul_rows ms c' d (S idx) res
  end.

(** rns/rns_ciphertext.h lines 383-406: Mul. LogN() of a ciphertext without components is undefined. *)
Definition rct_mul (x y : rct) : result rct :=
  if negb (same_len (rt_ms x) (rt_ms y)) then Err InvalidArgument
  else if negb (rt_pow x =? rt_pow y) then Err InvalidArgument
  else match rt_c x with
  | [] => UB
  | x0 :: _ =>
      do! zero <- rns_zero (Z.of_nat (rp_logn x0)) (rt_ms x) true;
      do! res <- rct_mul_rows (rt_ms x) (rt_c x) (rt_c y) 0 (repeat zero (length (rt_c x) + length (rt_c y) - 1));
      Ok (rct_make res (rt_ms x) (rt_pow x))
  end.

(** rns/rns_ciphertext.h lines 409-422 *)
Definition rct_to_ntt (x : rct) : result rct := rct_map (fun c => rns_to_ntt c (rt_ms x)) x.
Definition rct_to_coeff (x : rct) : result rct := rct_map (fun c => rns_to_coeff c (rt_ms x)) x.

(** rns/rns_ciphertext.h lines 428-440: IsModulusSameAs. *)
Definition rct_same_modulus (x y : rct) : bool :=
  same_len (rt_ms x) (rt_ms y) &&
  forallb (fun ab => p_m (pm_p (fst ab)) =? p_m (pm_p (snd ab))) (combine (rt_ms x) (rt_ms y)).

(** rns/rns_ciphertext.h lines 455-460: Component. *)
Definition rct_component (x : rct) (i : Z) : result rpoly :=
  if (i <? 0) || (Z.of_nat (length (rt_c x)) <=? i) then Err InvalidArgument
  else get (rt_c x) (Z.to_nat i).

(** ** BGV ciphertexts *)

(** rns_bgv_ciphertext.h lines 146-157: ModReduce. The arithmetic operators of
    lines 56-139 copy the object and call the methods above. *)
Definition rbgv_mod_reduce (x : rct) (t : Z) (ql_inv : rnsint) : result rct :=
  if (length (rt_ms x) <=? 1)%nat then Err FailedPrecondition
  else
    do! c <- seqr (map (fun a => rns_mod_reduce_lsb a t ql_inv (rt_ms x)) (rt_c x));
    Ok {| rt_c := c; rt_lazy := rt_lazy x; rt_ms := firstn (length (rt_ms x) - 1) (rt_ms x); rt_pow := rt_pow x |}.

(** rns/rns_bgv_ciphertext.h lines 161-174: Substitute. The product of powers is an [int] product; the
    new object has no lazy components. *)
Definition rct_substitute (x : rct) (power : Z) : result rct :=
  do! c <- seqr (map (fun a => rns_substitute a power (rt_ms x)) (rt_c x));
  do! c0 <- get (rt_c x) 0;
  let prod := rt_pow x * power in
  if (prod <? - 2 ^ 31) || (2 ^ 31 <=? prod) then UB
  else Ok (rct_make c (rt_ms x) (Z.rem prod (2 * Z.of_nat (rp_ncoeffs c0)))).
