(** Model of the in-place methods as they act on the object they are called on,
    including when they fail part way. The other model files return a new object
    on success and none on failure; InPlaceProofs.v shows that the methods here
    have the same status, and the same object on success, as those.

    An effect is the status of the call and the object afterwards; after
    undefined behaviour the object means nothing. *)
From Verif Require Import Base Montgomery MontBatch Ntt Poly PolyExt SymEnc RnsPoly RnsCtx RnsCt RnsBfv.

(** what a call that returns absl::Status leaves: the status and the object; status_macros.h lines 44-53 *)
Definition effect (A : Type) : Type := (result unit * A)%type.

(** a method that does all its checks before it writes *)
Definition checked {A} (old : A) (r : result A) : effect A :=
  match r with Ok x => (Ok tt, x) | Err e => (Err e, old) | UB => (UB, old) end.

(** RLWE_RETURN_IF_ERROR (status_macros.h lines 44-52) after a call on the object *)
Definition andthen {A} (r : effect A) (f : A -> effect A) : effect A :=
  match fst r with Ok _ => f (snd r) | Err e => (Err e, snd r) | UB => (UB, snd r) end.

(** RLWE_ASSIGN_OR_RETURN (status_macros.h lines 27-37) of a call that does not touch the object x *)
Definition reading {A B} (r : result B) (x : A) (f : B -> effect A) : effect A :=
  match r with Ok b => f b | Err e => (Err e, x) | UB => (UB, x) end.

(** refuse the call: "return absl::InvalidArgumentError(...)", as in rns/rns_ciphertext.h lines 112-114 *)
Definition refuse {A} (x : A) : effect A := (Err InvalidArgument, x).

(** a loop over the elements of a vector that is left at the first failure, as in rns/rns_ciphertext.h lines 102-104 *)
Fixpoint walk {A} (f : A -> effect A) (l : list A) : effect (list A) :=
  match l with
  | [] => (Ok tt, [])
  | x :: l' => match f x with
    | (Ok _, y) => let (r, m) := walk f l' in (r, y :: m)
    | (r, y) => (r, y :: l')
    end
  end.

(** the loop [for i < m.size(): l[i] = f(l[i], m[i])]; l[i] is not checked; as in symmetric_encryption.h lines 129-131 *)
Fixpoint walk2 {A B} (f : A -> B -> effect A) (l : list A) (m : list B) {struct m} : effect (list A) :=
  match m with
  | [] => (Ok tt, l)
  | b :: m' => match l with
    | [] => (UB, l)
    | x :: l' => match f x b with
      | (Ok _, y) => let (r, k) := walk2 f l' m' in (r, y :: k)
      | (r, y) => (r, y :: l')
      end
    end
  end.

(** ** RNS polynomials (rns_polynomial.h, rns_polynomial.cc) *)

(** a loop over the coefficient vectors of a (rns/rns_polynomial.h line 621) *)
Definition on_rows (a : rpoly) (e : effect (list (list Z))) : effect rpoly := (fst e, with_vs a (snd e)).

(** rns/rns_polynomial.h lines 153-167: NegateInPlace. *)
Definition ip_rns_neg (a : rpoly) (ms : list pmod) : effect rpoly :=
  if negb (same_len ms (rp_vs a)) then refuse a
  else on_rows a (walk2 (fun v m => (Ok tt, map (mneg (pm_p m)) v)) (rp_vs a) ms).

(** rns/rns_polynomial.h lines 188-205: AddInPlace. *)
Definition ip_rns_add (a b : rpoly) (ms : list pmod) : effect rpoly :=
  if negb (same_len (rp_vs b) (rp_vs a)) then refuse a
  else if negb (same_len ms (rp_vs a)) then refuse a
  else on_rows a (walk2 (fun v mw => checked v (batch_add (pm_p (fst mw)) v (snd mw))) (rp_vs a) (combine ms (rp_vs b))).

(** rns/rns_polynomial.h lines 208-225: SubInPlace. *)
Definition ip_rns_sub (a b : rpoly) (ms : list pmod) : effect rpoly :=
  if negb (same_len (rp_vs b) (rp_vs a)) then refuse a
  else if negb (same_len ms (rp_vs a)) then refuse a
  else on_rows a (walk2 (fun v mw => checked v (batch_sub (pm_p (fst mw)) v (snd mw))) (rp_vs a) (combine ms (rp_vs b))).

(** rns/rns_polynomial.h lines 237-253: MulInPlace by an Int. *)
Definition ip_rns_mul_scalar (a : rpoly) (s : Z) (ms : list pmod) : effect rpoly :=
  if negb (same_len ms (rp_vs a)) then refuse a
  else on_rows a (walk2 (fun v m => checked v (batch_mul_scalar (pm_p m) v (import_int (pm_p m) s))) (rp_vs a) ms).

(** rns/rns_polynomial.h lines 256-280: MulInPlace by a scalar given by its residues. *)
Definition ip_rns_mul_rnsint (a : rpoly) (zs : rnsint) (ms : list pmod) : effect rpoly :=
  if negb (same_len zs (rp_vs a)) then refuse a
  else if negb (same_len ms (rp_vs a)) then refuse a
  else on_rows a (walk2 (fun v mz => checked v (batch_mul_scalar (pm_p (fst mz)) v (snd mz))) (rp_vs a) (combine ms zs)).

(** rns/rns_polynomial.h lines 294-320: MulInPlace of polynomials. *)
Definition ip_rns_mul (a b : rpoly) (ms : list pmod) : effect rpoly :=
  if negb (same_len (rp_vs b) (rp_vs a)) then refuse a
  else if negb (same_len ms (rp_vs a)) then refuse a
  else if negb (rp_ntt a) then refuse a
  else if negb (rp_ntt b) then refuse a
  else on_rows a (walk2 (fun v mw => checked v (batch_mul (pm_p (fst mw)) v (snd mw))) (rp_vs a) (combine ms (rp_vs b))).

(** rns/rns_polynomial.h lines 324-359: FusedMulAddInPlace. *)
Definition ip_rns_fused (x a b : rpoly) (ms : list pmod) : effect rpoly :=
  if negb (same_len (rp_vs a) (rp_vs x)) then refuse x
  else if negb (same_len (rp_vs b) (rp_vs x)) then refuse x
  else if negb (same_len ms (rp_vs x)) then refuse x
  else if negb (rp_ntt x) then refuse x
  else if negb (rp_ntt a) then refuse x
  else if negb (rp_ntt b) then refuse x
  else on_rows x (walk2 (fun v mab => checked v (batch_fused_mul_add (pm_p (fst mab)) v (fst (snd mab)) (snd (snd mab))))
                    (rp_vs x) (combine ms (combine (rp_vs a) (rp_vs b)))).

(** rns/rns_polynomial.cc lines 163-180: ConvertToNttForm. The transform checks the length first and
    cannot fail later. *)
Definition ip_rns_to_ntt (a : rpoly) (ms : list pmod) : effect rpoly :=
  if rp_ntt a then refuse a
  else if negb (same_len ms (rp_vs a)) then refuse a
  else
    let (r, b) := on_rows a (walk2 (fun v m => checked v (forward_ntt (pm_p m) (pm_np m) v)) (rp_vs a) ms) in
    match r with Ok _ => (r, {| rp_logn := rp_logn b; rp_vs := rp_vs b; rp_ntt := true |}) | _ => (r, b) end.

(** dft_transformations.h lines 126-149: the blocks of one layer; the test for a
    missing root leaves the blocks before it transformed. gs_block, whose test of
    the length cannot fail for a power of two, is taken as a whole. *)
Fixpoint ip_gs_blocks (p : mparams) (np : nttp) (half : nat) (ks : list nat) (v : list Z) (index_psi_inv : nat)
  : effect (list Z * nat) :=
  match ks with
  | [] => (Ok tt, (v, index_psi_inv))
  | k :: ks' =>
      match nth_error (np_psis_inv_c np) index_psi_inv with
      | None => (Err InvalidArgument, (v, index_psi_inv))
      | Some c => match gs_block p c half k (seq 0 half) v with
        | Ok v => ip_gs_blocks p np half ks' v (S index_psi_inv)
        | Err e => (Err e, (v, index_psi_inv))
        | UB => (UB, (v, index_psi_inv))
        end
      end
  end.

(** dft_transformations.h lines 123-150 *)
Fixpoint ip_gs_layers (p : mparams) (np : nttp) (fuel i : nat) (v : list Z) (index_psi_inv : nat) : effect (list Z) :=
  match fuel with
  | O => (Ok tt, v)
  | S f => match ip_gs_blocks p np (2 ^ i) (steps (length v) (2 * 2 ^ i)) v index_psi_inv with
    | (Ok _, (v, index_psi_inv)) => ip_gs_layers p np f (S i) v index_psi_inv
    | (r, (v, _)) => (r, v)
    end
  end.

(** dft_transformations.h lines 180-200: InverseNumberTheoreticTransform. *)
Definition ip_inverse_ntt (p : mparams) (np : nttp) (v : list Z) : effect (list Z) :=
  if (length v =? 0)%nat then (UB, v)
  else
    let log_len := Nat.log2 (length v) in
    if negb (length v =? 2 ^ log_len)%nat then refuse v
    else andthen (ip_gs_layers p np log_len 0 v 0) (fun v => (Ok tt, map (fun x => mmul p x (np_ninv np)) v)).

(** rns/rns_polynomial.cc lines 182-199: ConvertToCoeffForm. *)
Definition ip_rns_to_coeff (a : rpoly) (ms : list pmod) : effect rpoly :=
  if negb (rp_ntt a) then refuse a
  else if negb (same_len ms (rp_vs a)) then refuse a
  else
    let (r, b) := on_rows a (walk2 (fun v m => ip_inverse_ntt (pm_p m) (pm_np m) v) (rp_vs a) ms) in
    match r with Ok _ => (r, {| rp_logn := rp_logn b; rp_vs := rp_vs b; rp_ntt := false |}) | _ => (r, b) end.

(** rns/rns_polynomial.cc lines 254-336: ModReduceLsb. The last coefficient vector is removed from
    the polynomial before the work starts. *)
Definition ip_rns_mod_reduce_lsb (a : rpoly) (t : Z) (ql_inv : rnsint) (ms : list pmod) : effect rpoly :=
  if negb (same_len ms (rp_vs a)) then refuse a
  else if (length (rp_vs a) <=? 1)%nat then refuse a
  else if negb (length ql_inv =? length (rp_vs a) - 1)%nat then refuse a
  else
    reading (rns_detach a) a (fun da => let (dl, a) := da in
    reading (last_modulus ms) a (fun ml =>
    let pl := pm_p ml in
    if t =? 0 then (UB, a)
    else
      let r := p_m pl mod t in
      let k := (p_m pl - r) / t in
      reading (batch_mul_scalar pl dl (import_int pl k)) a (fun dl =>
      let ms := firstn (length ms - 1) ms in
      andthen (ip_rns_mul_scalar a r ms) (fun a =>
      if rp_ntt a then
        reading (inverse_ntt pl (pm_np ml) dl) a (fun dl =>
        let delta := {| rp_logn := rp_logn a; rp_vs := map (fun m => convert_balanced pl (pm_p m) dl) ms; rp_ntt := false |} in
        reading (rns_to_ntt delta ms) a (fun delta =>
        reading (rns_mul_scalar delta t ms) a (fun delta =>
        andthen (ip_rns_add a delta ms) (fun a => ip_rns_mul_rnsint a ql_inv ms))))
      else
        on_rows a (walk2 (fun v mz =>
          let p := pm_p (fst mz) in
          let d := convert_balanced pl p dl in
          reading (batch_mul_scalar p d (import_int p t)) v (fun d =>
          andthen (checked v (batch_add p v d)) (fun v => checked v (batch_mul_scalar p v (snd mz)))))
          (rp_vs a) (combine ms ql_inv)))))).

(** rns/rns_polynomial.cc lines 341-409: ModReduceMsb. *)
Definition ip_rns_mod_reduce_msb (a : rpoly) (ql_inv : rnsint) (ms : list pmod) : effect rpoly :=
  if negb (same_len ms (rp_vs a)) then refuse a
  else if (length (rp_vs a) <=? 1)%nat then refuse a
  else if negb (length ql_inv =? length (rp_vs a) - 1)%nat then refuse a
  else
    reading (rns_detach a) a (fun da => let (dl, a) := da in
    reading (last_modulus ms) a (fun ml =>
    let pl := pm_p ml in
    let ms := firstn (length ms - 1) ms in
    if rp_ntt a then
      reading (inverse_ntt pl (pm_np ml) dl) a (fun dl =>
      let delta := {| rp_logn := rp_logn a; rp_vs := map (fun m => convert_balanced pl (pm_p m) dl) ms; rp_ntt := false |} in
      reading (rns_to_ntt delta ms) a (fun delta =>
      andthen (ip_rns_sub a delta ms) (fun a => ip_rns_mul_rnsint a ql_inv ms)))
    else
      on_rows a (walk2 (fun v mz =>
        let p := pm_p (fst mz) in
        let d := convert_balanced pl p dl in
        andthen (checked v (batch_sub p v d)) (fun v => checked v (batch_mul_scalar p v (snd mz))))
        (rp_vs a) (combine ms ql_inv)))).

(** rns/rns_polynomial.h lines 452-484: ScaleAndReduceRnsBasisInPlace; polynomial_aux is a copy. *)
Definition ip_rns_scale_and_reduce (D : dops) (a aux : rpoly) (t : Z) (qs ps : list pmod) (p_hat_inv : list Z)
  (p_hat_mod_qs : list rnsint) (p_mod_qs p_inv_mod_qs : list Z) : effect rpoly :=
  andthen (ip_rns_mul_scalar a t qs) (fun a =>
  reading (rns_mul_scalar aux t ps) a (fun aux =>
  reading (if rp_ntt aux then rns_to_coeff aux ps else Ok aux) a (fun aux =>
  reading (rns_switch_basis D aux ps qs p_hat_inv p_hat_mod_qs p_mod_qs) a (fun delta =>
  reading (if rp_ntt a then rns_to_ntt delta qs else Ok delta) a (fun delta =>
  andthen (ip_rns_sub a delta qs) (fun a => ip_rns_mul_rnsint a p_inv_mod_qs qs)))))).

(** ** RNS ciphertexts (rns_ciphertext.h) *)

(** a loop over the components of x (rns/rns_ciphertext.h line 496) *)
Definition on_c (x : rct) (e : effect (list rpoly)) : effect rct := (fst e, rct_with_c x (snd e)).

(** rns/rns_ciphertext.h lines 101-106: NegateInPlace. *)
Definition ip_rct_neg (x : rct) : effect rct := on_c x (walk (fun c => ip_rns_neg c (rt_ms x)) (rt_c x)).

(** rns/rns_ciphertext.h lines 111-128, 143-160: AddInPlace and SubInPlace of a ciphertext. *)
Definition ip_rct_add (x y : rct) : effect rct :=
  if negb (rct_compatible x y) then refuse x
  else on_c x (walk2 (fun a b => ip_rns_add a b (rt_ms x)) (rt_c x) (rt_c y)).
Definition ip_rct_sub (x y : rct) : effect rct :=
  if negb (rct_compatible x y) then refuse x
  else on_c x (walk2 (fun a b => ip_rns_sub a b (rt_ms x)) (rt_c x) (rt_c y)).

(** rns/rns_ciphertext.h lines 132-138, 164-170: AddInPlace and SubInPlace of a plaintext. *)
Definition ip_rct_add_plain (x : rct) (b : rpoly) : effect rct :=
  if negb (same_len (rt_ms x) (rp_vs b)) then refuse x
  else on_c x (walk2 (fun a b => ip_rns_add a b (rt_ms x)) (rt_c x) [b]).
Definition ip_rct_sub_plain (x : rct) (b : rpoly) : effect rct :=
  if negb (same_len (rt_ms x) (rp_vs b)) then refuse x
  else on_c x (walk2 (fun a b => ip_rns_sub a b (rt_ms x)) (rt_c x) [b]).

(** rns/rns_ciphertext.h lines 175-192: AbsorbInPlace and AbsorbMonomialInPlace. *)
Definition ip_rct_absorb (x : rct) (b : rpoly) : effect rct := on_c x (walk (fun c => ip_rns_mul c b (rt_ms x)) (rt_c x)).

(** rns/rns_ciphertext.h lines 205-216, 227-234: AbsorbInPlace of a scalar. *)
Definition ip_rct_absorb_rns (x : rct) (zs : rnsint) : effect rct :=
  if negb (same_len zs (rt_ms x)) then refuse x
  else on_c x (walk (fun c => ip_rns_mul_rnsint c zs (rt_ms x)) (rt_c x)).
Definition ip_rct_absorb_scalar (x : rct) (s : Z) : effect rct :=
  on_c x (walk (fun c => ip_rns_mul_scalar c s (rt_ms x)) (rt_c x)).

(** rns/rns_ciphertext.h lines 237-258: FusedAbsorbAddInPlace. *)
Definition ip_rct_fused (x a : rct) (b : rpoly) : effect rct :=
  if negb (rct_compatible x a) then refuse x
  else on_c x (walk2 (fun u y => ip_rns_fused u y b (rt_ms x)) (rt_c x) (rt_c a)).

(** rns/rns_ciphertext.h lines 269-290: FusedAbsorbAddInPlaceWithoutPad. *)
Definition ip_rct_fused_nopad (x a : rct) (b : rpoly) : effect rct :=
  match rt_c x, rt_c a with
  | [_; _], [a0; _] =>
      if negb (same_len (rt_ms x) (rt_ms a)) then refuse x
      else if negb (rt_pow x =? rt_pow a) then refuse x
      else on_c x (walk2 (fun u y => ip_rns_fused u y b (rt_ms x)) (rt_c x) [a0])
  | _, _ => refuse x
  end.

(** rns/rns_ciphertext.h lines 344-358: the loops of MergeLazyOperations; new components are appended
    one by one. *)
Fixpoint ip_rct_merge_into (ms : list pmod) (c : list rpoly) (z : list rlazy) : effect (list rpoly) :=
  match z with
  | [] => (Ok tt, c)
  | y :: z' => match c with
    | [] => match rlazy_export y ms with
      | Ok e => let (r, l) := ip_rct_merge_into ms [] z' in (r, e :: l)
      | Err e => (Err e, [])
      | UB => (UB, [])
      end
    | x :: c' => match reading (rlazy_export y ms) x (fun e => ip_rns_add x e ms) with
      | (Ok _, s) => let (r, l) := ip_rct_merge_into ms c' z' in (r, s :: l)
      | (r, s) => (r, s :: c')
      end
    end
  end.

(** rns/rns_ciphertext.h lines 334-361: MergeLazyOperations. *)
Definition ip_rct_merge (x : rct) : effect rct :=
  match rt_lazy x with
  | [] => (Err FailedPrecondition, x)
  | _ => andthen (on_c x (ip_rct_merge_into (rt_ms x) (rt_c x) (rt_lazy x))) (fun x => (Ok tt, rct_with_lazy x []))
  end.

(** rns/rns_ciphertext.h lines 409-422: ConvertToNttForm and ConvertToCoeffForm. *)
Definition ip_rct_to_ntt (x : rct) : effect rct := on_c x (walk (fun c => ip_rns_to_ntt c (rt_ms x)) (rt_c x)).
Definition ip_rct_to_coeff (x : rct) : effect rct := on_c x (walk (fun c => ip_rns_to_coeff c (rt_ms x)) (rt_c x)).

(** a modulus reduction that has succeeded drops the last modulus (rns/rns_bgv_ciphertext.h lines 146-157) *)
Definition drop_modulus (e : effect rct) : effect rct :=
  andthen e (fun x => (Ok tt, {| rt_c := rt_c x; rt_lazy := rt_lazy x; rt_ms := firstn (length (rt_ms x) - 1) (rt_ms x); rt_pow := rt_pow x |})).

(** rns_bgv_ciphertext.h lines 146-157: ModReduce. *)
Definition ip_rbgv_mod_reduce (x : rct) (t : Z) (ql_inv : rnsint) : effect rct :=
  if (length (rt_ms x) <=? 1)%nat then (Err FailedPrecondition, x)
  else drop_modulus (on_c x (walk (fun a => ip_rns_mod_reduce_lsb a t ql_inv (rt_ms x)) (rt_c x))).

Section Bfv.
Variable D : dops.
Variable c : rctx.

(** rns_bfv_ciphertext.cc lines 61-93: one component of AbsorbInPlace. Only the
    conversion to coefficient form and the final assignment write to it. *)
Definition ip_bfv_absorb_one (ms : list pmod) (hat_inv : list Z) (plain plain_aux : rpoly) (ci : rpoly) : effect rpoly :=
  andthen (if rp_ntt ci then ip_rns_to_coeff ci ms else (Ok tt, ci)) (fun ci =>
  checked ci (
    do! ' (aux, main) <- bfv_scale D c ms hat_inv ci;
    do! main <- rns_to_ntt main ms;
    do! main <- rns_mul main plain ms;
    do! aux <- rns_to_ntt aux (rc_ps c);
    do! aux <- rns_mul aux plain_aux (rc_ps c);
    bfv_reduce D c ms main aux)).

(** rns/rns_bfv_ciphertext.cc lines 33-97: AbsorbInPlace. *)
Definition ip_bfv_absorb (x : rct) (plain : rpoly) : effect rct :=
  let ms := rt_ms x in
  if negb (rp_ntt plain) then refuse x
  else
    reading (main_crt_factors c (level_of ms)) x (fun hat_inv =>
    reading (main_complement_residues c (level_of ms)) x (fun hat_mod =>
    reading (main_leveled_aux_residues c (level_of ms)) x (fun q_mod =>
    reading (rns_to_coeff plain ms) x (fun pc =>
    reading (rns_switch_basis D pc ms (rc_ps c) hat_inv hat_mod q_mod) x (fun pa =>
    reading (rns_to_ntt pa (rc_ps c)) x (fun pa =>
    on_c x (walk (ip_bfv_absorb_one ms hat_inv plain pa) (rt_c x)))))))).

(** rns/rns_bfv_ciphertext.cc lines 207-222: AbsorbInPlaceSimple. *)
Definition ip_bfv_absorb_simple (x : rct) (plain : rpoly) : effect rct :=
  if negb (level_of (rt_ms x) + 1 =? Z.of_nat (length (rp_vs plain))) then refuse x
  else if negb (rp_ntt plain) then refuse x
  else on_c x (walk (fun ci => ip_rns_mul ci plain (rt_ms x)) (rt_c x)).

(** rns/rns_bfv_ciphertext.h lines 171-186: ModReduce. *)
Definition ip_bfv_mod_reduce (x : rct) : effect rct :=
  let ms := rt_ms x in
  if (length ms <=? 1)%nat then (Err FailedPrecondition, x)
  else
    let level := (length ms - 1)%nat in
    reading (get (rc_prime_q_invs c) level) x (fun ql_inv =>
    drop_modulus (on_c x (walk (fun a => reading (rnsint_prefix ql_inv level) a (fun z => ip_rns_mod_reduce_msb a z ms)) (rt_c x)))).
End Bfv.

(** ** Ciphertexts with one modulus (symmetric_encryption.h). The methods of
    Polynomial check the lengths before they write (montgomery.cc lines 202-443). *)

Definition on_parts (x : ct) (e : effect (list poly)) : effect ct := (fst e, with_c x (snd e)).

(** symmetric_encryption.h lines 118-135, 162-179: AddInPlace and SubInPlace; the vector is padded with
    zero polynomials before the loop. *)
Definition ip_ct_add (x y : ct) : effect ct :=
  if negb (ct_pow x =? ct_pow y) then refuse x
  else reading (pad_to (ct_p x) (ct_c x) (ct_c y)) x (fun c =>
       on_parts x (walk2 (fun a b => checked a (poly_add (ct_p x) a b)) c (ct_c y))).
Definition ip_ct_sub (x y : ct) : effect ct :=
  if negb (ct_pow x =? ct_pow y) then refuse x
  else reading (pad_to (ct_p x) (ct_c x) (ct_c y)) x (fun c =>
       on_parts x (walk2 (fun a b => checked a (poly_sub (ct_p x) a b)) c (ct_c y))).

(** symmetric_encryption.h lines 221-244: AbsorbInPlace. *)
Definition ip_ct_absorb (x : ct) (b : poly) : effect ct :=
  on_parts x (walk (fun a => checked a (poly_mul (ct_p x) a b)) (ct_c x)).
Definition ip_ct_absorb_scalar (x : ct) (s : Z) : effect ct :=
  on_parts x (walk (fun a => checked a (poly_mul_scalar (ct_p x) a s)) (ct_c x)).

(** symmetric_encryption.h lines 258-271: the products of the components that x does not have are
    appended one by one. *)
Fixpoint ip_fused_into (f : poly -> poly -> result poly) (g : poly -> result poly) (c a : list poly) : effect (list poly) :=
  match c, a with
  | c, [] => (Ok tt, c)
  | [], y :: a' => match g y with
    | Ok z => let (r, l) := ip_fused_into f g [] a' in (r, z :: l)
    | Err e => (Err e, [])
    | UB => (UB, [])
    end
  | x :: c', y :: a' => match f x y with
    | Ok z => let (r, l) := ip_fused_into f g c' a' in (r, z :: l)
    | Err e => (Err e, x :: c')
    | UB => (UB, x :: c')
    end
  end.

(** symmetric_encryption.h lines 250-275, 364-391: FusedAbsorbAddInPlace and FusedAbsorbConstantAddInPlace. *)
Definition ip_ct_fused (x a : ct) (b : poly) : effect ct :=
  if negb (ct_pow x =? ct_pow a) then refuse x
  else on_parts x (ip_fused_into (fun u y => poly_fused_mul_add (ct_p x) u y b) (fun y => poly_mul (ct_p a) y b) (ct_c x) (ct_c a)).
Definition ip_ct_fused_constant (x a : ct) (b : const_poly) : effect ct :=
  if negb (ct_pow x =? ct_pow a) then refuse x
  else on_parts x (ip_fused_into (fun u y => poly_fused_mul_constant_add (ct_p x) u y b) (fun y => poly_mul_constant (ct_p a) y b)
                     (ct_c x) (ct_c a)).

(** symmetric_encryption.h lines 307-312: the first call appends the new lazy polynomials one by one. *)
Fixpoint ip_lazy_create (p : mparams) (a : list poly) (b : poly) : effect (list lazy) :=
  match a with
  | [] => (Ok tt, [])
  | y :: a' => match lazy_create p y b with
    | Ok z => let (r, l) := ip_lazy_create p a' b in (r, z :: l)
    | Err e => (Err e, [])
    | UB => (UB, [])
    end
  end.

(** symmetric_encryption.h lines 329-332: the loop over lazy_, reading a.c_[j] without a check. *)
Fixpoint ip_lazy_into (p : mparams) (z : list lazy) (a : list poly) (b : poly) : effect (list lazy) :=
  match z with
  | [] => (Ok tt, [])
  | x :: z' => match a with
    | [] => (UB, z)
    | y :: a' => match lazy_fused p x y b with
      | Ok x' => let (r, l) := ip_lazy_into p z' a' b in (r, x' :: l)
      | Err e => (Err e, z)
      | UB => (UB, z)
      end
    end
  end.

(** symmetric_encryption.h lines 285-335: FusedAbsorbAddInPlaceLazily. *)
Definition ip_ct_fused_lazily (x a : ct) (b : poly) : effect ct :=
  if negb (ct_pow x =? ct_pow a) then refuse x
  else match ct_c a with
  | [] => (Ok tt, x)
  | a0 :: _ =>
    match ct_lazy x with
    | [] => let (r, z) := ip_lazy_create (ct_p x) (ct_c a) b in (r, with_lazy x z)
    | _ =>
      reading (if (length (ct_lazy x) <? length (ct_c a))%nat then
                 do! e <- lazy_create_empty (ct_p x) (length a0);
                 Ok (ct_lazy x ++ repeat e (length (ct_c a) - length (ct_lazy x)))
               else Ok (ct_lazy x)) x (fun z =>
      let (r, z) := ip_lazy_into (ct_p x) z (ct_c a) b in (r, with_lazy x z))
    end
  end.

(** symmetric_encryption.h lines 349-360: the loops of MergeLazyOperations; Export cannot fail. *)
Fixpoint ip_merge_into (p : mparams) (c : list poly) (z : list lazy) : effect (list poly) :=
  match z with
  | [] => (Ok tt, c)
  | y :: z' => match c with
    | [] => match lazy_export p y with
      | Ok e => let (r, l) := ip_merge_into p [] z' in (r, e :: l)
      | Err e => (Err e, [])
      | UB => (UB, [])
      end
    | x :: c' => match reading (lazy_export p y) x (fun e => checked x (poly_add p x e)) with
      | (Ok _, s) => let (r, l) := ip_merge_into p c' z' in (r, s :: l)
      | (r, s) => (r, s :: c')
      end
    end
  end.

(** symmetric_encryption.h lines 340-362: MergeLazyOperations. *)
Definition ip_ct_merge (x : ct) : effect ct :=
  match ct_lazy x with
  | [] => (Err FailedPrecondition, x)
  | _ => andthen (on_parts x (ip_merge_into (ct_p x) (ct_c x) (ct_lazy x))) (fun x => (Ok tt, with_lazy x []))
  end.
