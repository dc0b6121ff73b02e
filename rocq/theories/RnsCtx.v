(** Model of rns/rns_context.h, rns/rns_context.cc, rns/crt_interpolation.h and
    rns/error_correction.h. *)
From Verif Require Import Base Montgomery MontBatch Ntt RnsPoly.

(** rns_context.cc lines 37-52 (= 56-71): the PrimeModulus of one prime. *)
Definition make_modulus (k log_n q : Z) : result pmod :=
  do! p <- params_create k q;
  do! np <- init_ntt p log_n;
  Ok {| pm_p := p; pm_np := np |}.

(** the modulus member of the Montgomery parameters (rns_modulus.h line 34) *)
Definition pm_q (m : pmod) : Z := p_m (pm_p m).

(** the index of every element of a list beside it, for the loops over i and j of rns/rns_context.cc lines 149-360 *)
Definition indexed {A} (l : list A) : list (nat * A) := combine (seq 0 (length l)) l.

(** rns/rns_context.cc lines 229-231, 254-256: the loops "for j: if (j != i) acc.MulInPlace(x_j)", starting from one *)
Definition mul_except (p : mparams) (i : nat) (xs : list Z) : Z :=
  fold_left (fun acc jx => if (fst jx =? i)%nat then acc else mmul p acc (snd jx)) (indexed xs) (import_one p).

(** rns/rns_context.cc lines 323-327: the loops "for j: acc.MulInPlace(x_j)", starting from one *)
Definition mul_all (p : mparams) (xs : list Z) : Z := fold_left (mmul p) xs (import_one p).

(** rns/rns_context.cc lines 149-176: q_i mod q_j, 0 on the diagonal. *)
Definition ctx_prime_qs (qs : list pmod) : list rnsint :=
  map (fun im => map (fun jm => if (fst jm =? fst im)%nat then import_zero (pm_p (snd jm))
                                else import_int (pm_p (snd jm)) (pm_q (snd im))) (indexed qs)) (indexed qs).

(** rns/rns_context.cc lines 149-176: q_i^-1 mod q_j, 1 on the diagonal. *)
Definition ctx_prime_q_invs (qs : list pmod) : list rnsint :=
  map (fun im => map (fun jm => if (fst jm =? fst im)%nat then import_one (pm_p (snd jm))
                                else mult_inverse (pm_p (snd jm)) (import_int (pm_p (snd jm)) (pm_q (snd im)))) (indexed qs)) (indexed qs).

(** rns/rns_context.cc lines 178-191: q_j^-1 mod p_i, indexed by i first. *)
Definition ctx_q_inv_mod_ps (qs ps : list pmod) : list rnsint :=
  map (fun pi => map (fun qj => mult_inverse (pm_p pi) (import_int (pm_p pi) (pm_q qj))) qs) ps.

(** rns/rns_context.cc lines 193-208: the running products, one vector for each level. *)
Fixpoint leveled_loop (qs ps : list pmod) (acc : rnsint) : list rnsint :=
  match qs with
  | [] => []
  | q :: qs' =>
      let acc := map2 (fun pj x => mmul (pm_p pj) x (import_int (pm_p pj) (pm_q q))) ps acc in
      acc :: leveled_loop qs' ps acc
  end.
Definition ctx_leveled_q_mod_ps (qs ps : list pmod) : list rnsint :=
  leveled_loop qs ps (map (fun pj => import_one (pm_p pj)) ps).

(** rns/rns_context.cc lines 297-312 *)
Definition ctx_p_hat_invs (ps : list pmod) : list Z :=
  map (fun jm => mul_except (pm_p (snd jm)) (fst jm)
                   (map (fun pk => mult_inverse (pm_p (snd jm)) (import_int (pm_p (snd jm)) (pm_q pk))) ps)) (indexed ps).

(** rns/rns_context.cc lines 314-331 *)
Definition ctx_p_mod_qs (qs ps : list pmod) : list Z :=
  map (fun qi => mul_all (pm_p qi) (map (fun pj => import_int (pm_p qi) (pm_q pj)) ps)) qs.
Definition ctx_p_inv_mod_qs (qs ps : list pmod) : list Z :=
  map (fun qi => mul_all (pm_p qi) (map (fun pj => mult_inverse (pm_p qi) (import_int (pm_p qi) (pm_q pj))) ps)) qs.

(** rns/rns_context.cc lines 333-352 *)
Definition ctx_p_hat_mod_qs (qs ps : list pmod) : list rnsint :=
  map (fun j => map (fun qi => mul_except (pm_p qi) j (map (fun pk => import_int (pm_p qi) (pm_q pk)) ps)) qs)
    (seq 0 (length ps)).

(** rns/rns_context.cc lines 360-376: a product modulo t in the type of twice the width. *)
Definition rem_product (k t : Z) (ms : list pmod) : Z :=
  wrap k (fold_left (fun acc m => wrap (2 * k) (acc * pm_q m) mod t) ms 1).

(** rns_context.h lines 254-314: the data members; the plaintext parameters are
    absent until one of the BFV or finite field factories sets them. *)
Record rctx := {
  rc_logn : Z; rc_qs : list pmod; rc_ps : list pmod; rc_t : Z;
  rc_pt : option mparams; rc_nt : option nttp;
  rc_prime_qs : list rnsint; rc_prime_q_invs : list rnsint; rc_q_inv_mod_ps : list rnsint;
  rc_leveled_q_mod_ps : list rnsint; rc_p_hat_invs : list Z; rc_p_hat_mod_qs : list rnsint;
  rc_p_mod_qs : list Z; rc_p_inv_mod_qs : list Z; rc_q_mod_t : Z; rc_p_mod_t : Z;
  rc_t_mod_qs : list Z; rc_t_inv_mod_qs : list Z; rc_t_inv_mod_ps : list Z;
  rc_qs_mod_t : list Z; rc_q_invs_mod_t : list Z; rc_ql_invs_mod_t : list Z
}.

(** rns/rns_context.cc lines 22-74: Create. *)
Definition ctx_create (k log_n : Z) (qs ps : list Z) (t : Z) : result rctx :=
  if log_n <=? 0 then Err InvalidArgument
  else if t =? 0 then Err InvalidArgument
  else
    do! qs <- seqr (map (make_modulus k log_n) qs);
    do! ps <- seqr (map (make_modulus k log_n) ps);
    Ok {| rc_logn := log_n; rc_qs := qs; rc_ps := ps; rc_t := t; rc_pt := None; rc_nt := None;
          rc_prime_qs := ctx_prime_qs qs; rc_prime_q_invs := ctx_prime_q_invs qs;
          rc_q_inv_mod_ps := ctx_q_inv_mod_ps qs ps; rc_leveled_q_mod_ps := ctx_leveled_q_mod_ps qs ps;
          rc_p_hat_invs := ctx_p_hat_invs ps; rc_p_hat_mod_qs := ctx_p_hat_mod_qs qs ps;
          rc_p_mod_qs := ctx_p_mod_qs qs ps; rc_p_inv_mod_qs := ctx_p_inv_mod_qs qs ps;
          rc_q_mod_t := rem_product k t qs; rc_p_mod_t := rem_product k t ps;
          rc_t_mod_qs := map (fun m => import_int (pm_p m) t) qs;
          rc_t_inv_mod_qs := map (fun m => mult_inverse (pm_p m) (import_int (pm_p m) t)) qs;
          rc_t_inv_mod_ps := map (fun m => mult_inverse (pm_p m) (import_int (pm_p m) t)) ps;
          rc_qs_mod_t := []; rc_q_invs_mod_t := []; rc_ql_invs_mod_t := [] |}.

(** rns/rns_context.cc lines 402-416: the plaintext parameters for finite field encoding. *)
Definition ctx_finite_field (k : Z) (c : rctx) : result rctx :=
  do! m <- make_modulus k (rc_logn c) (rc_t c);
  Ok {| rc_logn := rc_logn c; rc_qs := rc_qs c; rc_ps := rc_ps c; rc_t := rc_t c;
        rc_pt := Some (pm_p m); rc_nt := Some (pm_np m);
        rc_prime_qs := rc_prime_qs c; rc_prime_q_invs := rc_prime_q_invs c; rc_q_inv_mod_ps := rc_q_inv_mod_ps c;
        rc_leveled_q_mod_ps := rc_leveled_q_mod_ps c; rc_p_hat_invs := rc_p_hat_invs c;
        rc_p_hat_mod_qs := rc_p_hat_mod_qs c; rc_p_mod_qs := rc_p_mod_qs c; rc_p_inv_mod_qs := rc_p_inv_mod_qs c;
        rc_q_mod_t := rc_q_mod_t c; rc_p_mod_t := rc_p_mod_t c; rc_t_mod_qs := rc_t_mod_qs c;
        rc_t_inv_mod_qs := rc_t_inv_mod_qs c; rc_t_inv_mod_ps := rc_t_inv_mod_ps c;
        rc_qs_mod_t := rc_qs_mod_t c; rc_q_invs_mod_t := rc_q_invs_mod_t c; rc_ql_invs_mod_t := rc_ql_invs_mod_t c |}.

(** rns/rns_context.cc lines 418-440: q_i mod t, their inverses and the inverses of the
    running products. *)
Fixpoint bfv_loop (pt : mparams) (t : Z) (qs : list pmod) (acc : Z) : result (list Z * list Z * list Z) :=
  match qs with
  | [] => Ok ([], [], [])
  | q :: qs' =>
      let x := import_int pt (pm_q q mod t) in
      do! y <- mult_inverse_fast pt x;
      let acc := mmul pt acc y in
      do! ' (xs, ys, zs) <- bfv_loop pt t qs' acc;
      Ok (x :: xs, y :: ys, acc :: zs)
  end.

Definition ctx_bfv (c : rctx) : result rctx :=
  match rc_pt c with
  | None => UB
  | Some pt =>
      do! ' (xs, ys, zs) <- bfv_loop pt (rc_t c) (rc_qs c) (import_one pt);
      Ok {| rc_logn := rc_logn c; rc_qs := rc_qs c; rc_ps := rc_ps c; rc_t := rc_t c; rc_pt := rc_pt c; rc_nt := rc_nt c;
            rc_prime_qs := rc_prime_qs c; rc_prime_q_invs := rc_prime_q_invs c; rc_q_inv_mod_ps := rc_q_inv_mod_ps c;
            rc_leveled_q_mod_ps := rc_leveled_q_mod_ps c; rc_p_hat_invs := rc_p_hat_invs c;
            rc_p_hat_mod_qs := rc_p_hat_mod_qs c; rc_p_mod_qs := rc_p_mod_qs c; rc_p_inv_mod_qs := rc_p_inv_mod_qs c;
            rc_q_mod_t := rc_q_mod_t c; rc_p_mod_t := rc_p_mod_t c; rc_t_mod_qs := rc_t_mod_qs c;
            rc_t_inv_mod_qs := rc_t_inv_mod_qs c; rc_t_inv_mod_ps := rc_t_inv_mod_ps c;
            rc_qs_mod_t := xs; rc_q_invs_mod_t := ys; rc_ql_invs_mod_t := zs |}
  end.

Definition with_pt (c : rctx) (pt : mparams) : rctx :=
  {| rc_logn := rc_logn c; rc_qs := rc_qs c; rc_ps := rc_ps c; rc_t := rc_t c; rc_pt := Some pt; rc_nt := None;
     rc_prime_qs := rc_prime_qs c; rc_prime_q_invs := rc_prime_q_invs c; rc_q_inv_mod_ps := rc_q_inv_mod_ps c;
     rc_leveled_q_mod_ps := rc_leveled_q_mod_ps c; rc_p_hat_invs := rc_p_hat_invs c;
     rc_p_hat_mod_qs := rc_p_hat_mod_qs c; rc_p_mod_qs := rc_p_mod_qs c; rc_p_inv_mod_qs := rc_p_inv_mod_qs c;
     rc_q_mod_t := rc_q_mod_t c; rc_p_mod_t := rc_p_mod_t c; rc_t_mod_qs := rc_t_mod_qs c;
     rc_t_inv_mod_qs := rc_t_inv_mod_qs c; rc_t_inv_mod_ps := rc_t_inv_mod_ps c;
     rc_qs_mod_t := rc_qs_mod_t c; rc_q_invs_mod_t := rc_q_invs_mod_t c; rc_ql_invs_mod_t := rc_ql_invs_mod_t c |}.

(** rns/rns_context.cc lines 76-97 *)
Definition ctx_create_bgv_ff (k log_n : Z) (qs ps : list Z) (t : Z) : result rctx :=
  if t mod 2 =? 0 then Err InvalidArgument
  else do! c <- ctx_create k log_n qs ps t; ctx_finite_field k c.

(** rns/rns_context.cc lines 99-119 *)
Definition ctx_create_bfv (k log_n : Z) (qs ps : list Z) (t : Z) : result rctx :=
  do! c <- ctx_create k log_n qs ps t;
  do! pt <- params_create k t;
  ctx_bfv (with_pt c pt).

(** rns/rns_context.cc lines 121-146 *)
Definition ctx_create_bfv_ff (k log_n : Z) (qs ps : list Z) (t : Z) : result rctx :=
  if t mod 2 =? 0 then Err InvalidArgument
  else
    do! c <- ctx_create k log_n qs ps t;
    do! c <- ctx_finite_field k c;
    ctx_bfv c.

Definition check_level (c : rctx) (level : Z) : bool := (level <? 0) || (Z.of_nat (length (rc_qs c)) <=? level).

(** rns_context.h lines 149-157 *)
Definition main_leveled_aux_residues (c : rctx) (level : Z) : result rnsint :=
  if check_level c level then Err InvalidArgument else get (rc_leveled_q_mod_ps c) (Z.to_nat level).

(** rns/rns_context.cc lines 230, 255: the components i of the first n entries of a table *)
Definition components (rows : list rnsint) (n i : nat) : result (list Z) :=
  seqr (map (fun j => do! z <- get rows j; get z i) (seq 0 n)).

(** rns/rns_context.cc lines 213-236 and 238-261 *)
Definition main_products (c : rctx) (rows : list rnsint) (level : Z) : result (list Z) :=
  if check_level c level then Err InvalidArgument
  else
    let n := Z.to_nat (level + 1) in
    seqr (map (fun im => do! xs <- components rows n (fst im); Ok (mul_except (pm_p (snd im)) (fst im) xs))
            (firstn n (indexed (rc_qs c)))).
Definition main_complements (c : rctx) (level : Z) : result (list Z) := main_products c (rc_prime_qs c) level.
Definition main_crt_factors (c : rctx) (level : Z) : result (list Z) := main_products c (rc_prime_q_invs c) level.

(** rns/rns_context.cc lines 263-293 *)
Definition main_complement_residues (c : rctx) (level : Z) : result (list rnsint) :=
  if check_level c level then Err InvalidArgument
  else
    let n := Z.to_nat (level + 1) in
    let qs := firstn n (rc_qs c) in
    Ok (map (fun i => map (fun pj => mul_except (pm_p pj) i (map (fun qk => import_int (pm_p pj) (pm_q qk)) qs)) (rc_ps c))
          (seq 0 n)).

(** ** crt_interpolation.h; the big integer has K bits *)

(** rns/crt_interpolation.h lines 44-59: RnsModulusComplements. *)
Definition rns_modulus_complements (K : Z) (ms : list pmod) : list Z :=
  map (fun i => fold_left (fun acc jm => if (fst jm =? i)%nat then acc
                                         else wrap K (acc * wrap K (pm_q (snd jm)))) (indexed ms) 1) (seq 0 (length ms)).

(** rns/crt_interpolation.h lines 93-97 *)
Definition big_product (K : Z) (ms : list pmod) : Z := fold_left (fun acc m => wrap K (acc * wrap K (pm_q m))) ms 1.

(** rns/crt_interpolation.h lines 102-115: one value of i; reading past the end of a vector and
    division by a q that wrapped to zero are undefined. *)
Fixpoint crt_row (K q : Z) (p : mparams) (hat inv : Z) (row acc : list Z) : result (list Z) :=
  match acc with
  | [] => Ok []
  | a :: acc' =>
      match row with
      | [] => UB
      | x :: row' =>
          if q =? 0 then UB
          else
            let f := wrap K (wrap K (export_int p inv) * hat) mod q in
            let f := wrap K (f * wrap K (export_int p x)) mod q in
            do! rest <- crt_row K q p hat inv row' acc';
            Ok (wrap K (a + f) mod q :: rest)
      end
  end.

Fixpoint crt_rows (K q : Z) (ms : list pmod) (hats invs : list Z) (rows : list (list Z)) (acc : list Z) : result (list Z) :=
  match ms, hats, invs, rows with
  | m :: ms', h :: hats', v :: invs', r :: rows' =>
      do! acc <- crt_row K q (pm_p m) h v r acc;
      crt_rows K q ms' hats' invs' rows' acc
  | _, _, _, _ => Ok acc
  end.

(** rns/crt_interpolation.h lines 68-116: CrtInterpolation. *)
Definition crt_interpolation (K : Z) (rows : list (list Z)) (ms : list pmod) (hats invs : list Z) : result (list Z) :=
  match rows with
  | [] => Err InvalidArgument
  | r0 :: _ =>
      if negb (same_len ms rows) then Err InvalidArgument
      else if negb (same_len hats rows) then Err InvalidArgument
      else if negb (same_len invs rows) then Err InvalidArgument
      else crt_rows K (big_product K ms) ms hats invs rows (repeat 0 (length r0))
  end.

(** ** error_correction.h lines 37-54: RemoveErrorOnMsb over K bits. *)
Definition remove_error_on_msb (K : Z) (v : list Z) (q t : Z) : result (list Z) :=
  if t =? 0 then Err InvalidArgument
  else
    let r := q mod t in
    Ok (map (fun x => (if shr q 1 <? x then wrap K (x - r) else x) mod t) v).
