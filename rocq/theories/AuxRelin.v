(** Model of /repo/shell_encryption/aux_relinearization_key.{h,cc} and
    aux_galois_key.h.

    Simplifications: null pointers are not modelled; seeds are arguments (see
    Relin.v); error estimates are omitted. Both parameter sets belong to the
    same ModularInt type, i.e. p_k is the same. *)
From Verif Require Import Base Montgomery MontBatch Ntt Poly PolyExt Prng Sampling SymEnc Relin.

(** aux_relinearization_key.h lines 137-164: KeyComponent, and lines 198-220:
    members of AuxModRelinearizationKey. *)
Record auxcomp := { ac_b : poly; ac_a : poly; ac_baux : poly; ac_aaux : poly }.
Record auxkey := { ak_p : mparams; ak_np : nttp; ak_px : mparams; ak_npx : nttp; ak_seed : list Z; ak_type : Z;
                   ak_keys : list auxcomp; ak_t : Z; ak_pow : Z }.

(** aux_relinearization_key.cc lines 34-86: KeyComponent::Create. *)
Definition auxcomp_create (R E : prng) (fuel : nat) (s_main s_aux source : poly) (p : mparams) (np : nttp)
  (px : mparams) (npx : nttp) (t_main t_aux : Z) (num : nat) (var : Z) (s : pr_st R) (e : pr_st E)
  : result (auxcomp * (pr_st R * pr_st E)) :=
  do! ' (a, s) <- sample_polynomial R fuel (Z.of_nat num) p s;
  do! ' (ax, s) <- sample_polynomial R fuel (Z.of_nat num) px s;
  do! ' (err, e) <- sample_error E p num var e;
  let errx := convert_balanced p px err in
  do! b <- convert_to_ntt p np err;
  do! bx <- convert_to_ntt px npx errx;
  do! b <- poly_mul_scalar p b t_main;
  do! bx <- poly_mul_scalar px bx t_aux;
  do! b <- poly_fused_mul_add p b a s_main;
  do! bx <- poly_fused_mul_add px bx ax s_aux;
  do! b <- poly_add p b source;
  Ok ({| ac_b := b; ac_a := poly_neg p a; ac_baux := bx; ac_aaux := poly_neg px ax |}, (s, e)).

(** aux_relinearization_key.cc lines 176-189: the loop of Create. [first] is whether i = 0. *)
Fixpoint aux_create_loop (R E : prng) (fuel : nat) (key : skey) (s_aux base power_main : poly)
  (px : mparams) (npx : nttp) (t_aux : Z) (same first : bool) (count : nat) (s : pr_st R) (e : pr_st E)
  : result (list auxcomp) :=
  match count with
  | O => Ok []
  | S count' =>
    do! pw <- (if same || negb first then poly_mul (sk_p key) power_main base else Ok power_main);
    do! ' (c, se) <- auxcomp_create R E fuel (sk_key key) s_aux pw (sk_p key) (sk_np key) px npx
                       (sk_t key) t_aux (length (sk_key key)) (sk_var key) s e;
    do! r <- aux_create_loop R E fuel key s_aux base pw px npx t_aux same false count' (fst se) (snd se);
    Ok (c :: r)
  end.

(** aux_relinearization_key.cc lines 90-193: Create. *)
Definition aux_create (F : genfam) (fuel : nat) (key : skey) (ty degree : Z) (px : mparams) (npx : nttp)
  (power : Z) (seed seed_e : list Z) : result auxkey :=
  if degree <=? 0 then Err InvalidArgument
  else if power <=? 0 then Err InvalidArgument
  else if negb (known_type ty) then Err InvalidArgument
  else
    do! s <- gf_start F ty seed;
    do! e <- gf_start F ty seed_e;
    let p := sk_p key in
    let p_main := import_int p (p_m px) in
    let t := export_int p (sk_t key) in
    let t_aux := import_int px t in
    do! s_aux <- convert_balanced_ntt p (sk_np key) px npx (sk_key key);
    do! base <- poly_substitute (sk_np key) (sk_key key) power;
    do! pw <- poly_mul_scalar p base p_main;
    let same := power =? 1 in
    let len := if same then degree - 1 else degree in
    do! keys <- aux_create_loop (gf_prng F ty) (gf_prng F ty) fuel key s_aux base pw px npx t_aux same true
                  (Z.to_nat len) s e;
    Ok {| ak_p := p; ak_np := sk_np key; ak_px := px; ak_npx := npx; ak_seed := seed; ak_type := ty;
          ak_keys := keys; ak_t := t; ak_pow := power |}.

(** aux_relinearization_key.cc lines 281-318: ConvertToMainModulus, for one component. *)
Definition aux_to_main (ak : auxkey) (p_main : Z) (cx c : poly) : result poly :=
  let p := ak_p ak in
  let px := ak_px ak in
  let t_inv := mult_inverse px (import_int px (ak_t ak)) in
  do! cx <- poly_mul_scalar px cx t_inv;
  do! cq <- convert_balanced_ntt px (ak_npx ak) p (ak_np ak) cx;
  do! cq <- poly_mul_scalar p cq (import_int p (ak_t ak));
  do! c <- poly_sub p c cq;
  poly_mul_scalar p c (mult_inverse p p_main).

(** aux_relinearization_key.cc lines 244-264: the loop of ApplyTo over the components of the ciphertext
    from position [i] on. *)
Fixpoint aux_apply_loop (ak : auxkey) (keys : list auxcomp) (x : ct) (i : Z) (c0 c1 x0 x1 : poly)
  : result ((poly * poly) * (poly * poly)) :=
  match keys with
  | [] => Ok ((c0, c1), (x0, x1))
  | kc :: keys' =>
    let p := ak_p ak in
    let px := ak_px ak in
    do! ci <- ct_component x i;
    do! c0 <- poly_fused_mul_add p c0 (ac_b kc) ci;
    do! c1 <- poly_fused_mul_add p c1 (ac_a kc) ci;
    do! cx <- convert_balanced_ntt p (ak_np ak) px (ak_npx ak) ci;
    do! x0 <- poly_fused_mul_add px x0 (ac_baux kc) cx;
    do! x1 <- poly_fused_mul_add px x1 (ac_aaux kc) cx;
    aux_apply_loop ak keys' x (i + 1) c0 c1 x0 x1
  end.

(** aux_relinearization_key.cc lines 197-278: ApplyTo. The loop bound ciphertext.Len() is
    first_key_power + keys_.size() by the check in lines 207-212. *)
Definition aux_apply (ak : auxkey) (x : ct) : result ct :=
  let p := ak_p ak in
  let px := ak_px ak in
  if negb (p_m (ct_p x) =? p_m p) then Err InvalidArgument
  else
    let same := ak_pow ak =? 1 in
    let first := if same then 2 else 1 in
    if negb (Z.of_nat (length (ct_c x)) =? Z.of_nat (length (ak_keys ak)) + first) then Err InvalidArgument
    else
      let p_main := import_int p (p_m px) in
      do! c0 <- ct_component x 0;
      do! c1 <- poly_zero p (np_n (ak_np ak));
      do! c1 <- (if same then do! c <- ct_component x 1; poly_add p c1 c else Ok c1);
      do! c0 <- poly_mul_scalar p c0 p_main;
      do! c1 <- poly_mul_scalar p c1 p_main;
      do! x0 <- poly_zero px (np_n (ak_np ak));
      do! ' ((c0, c1), (x0, x1)) <- aux_apply_loop ak (ak_keys ak) x first c0 c1 x0 x0;
      do! r0 <- aux_to_main ak p_main x0 c0;
      do! r1 <- aux_to_main ak p_main x1 c1;
      Ok (ct_make p [r0; r1] 1).

(** serialization.proto lines 91-115 *)
Record ser_aux := { sa_b : list ser_poly; sa_num : Z; sa_seed : list Z; sa_type : Z; sa_pow : Z }.

(** aux_relinearization_key.cc lines 322-334: Serialize. *)
Definition aux_serialize (ak : auxkey) : result ser_aux :=
  do! b <- seqr (flat_map (fun kc => [poly_serialize (ak_p ak) (ac_b kc); poly_serialize (ak_px ak) (ac_baux kc)]) (ak_keys ak));
  Ok {| sa_b := b; sa_num := Z.of_nat (length (ak_keys ak)); sa_seed := ak_seed ak; sa_type := ak_type ak;
        sa_pow := ak_pow ak |}.

(** aux_relinearization_key.cc lines 389-406: the loop of Deserialize; [i] advances by two and is compared
    with num_components. [fuel'] bounds the number of rounds. *)
Fixpoint aux_deser_loop (R : prng) (fuel : nat) (p : mparams) (np : nttp) (px : mparams) (npx : nttp)
  (polys : list ser_poly) (num i : Z) (fuel' : nat) (s : pr_st R) : result (list auxcomp) :=
  if negb (i <? num) then Ok []
  else
    match fuel' with
    | O => UB
    | S f =>
      do! sb <- get polys (Z.to_nat i);
      do! b <- poly_deserialize p sb;
      do! sbx <- get polys (Z.to_nat (i + 1));
      do! bx <- poly_deserialize px sbx;
      do! ' (a, s) <- sample_polynomial R fuel (Z.of_nat (np_n np)) p s;
      do! ' (ax, s) <- sample_polynomial R fuel (Z.of_nat (np_n npx)) px s;
      do! r <- aux_deser_loop R fuel p np px npx polys num (i + 2) f s;
      Ok ({| ac_b := b; ac_a := poly_neg p a; ac_baux := bx; ac_aaux := poly_neg px ax |} :: r)
    end.

(** aux_relinearization_key.cc lines 338-412: Deserialize. num_components is int32; 2 * num_components
    may overflow. *)
Definition aux_deserialize (F : genfam) (fuel : nat) (sa : ser_aux) (p : mparams) (np : nttp) (px : mparams)
  (npx : nttp) (t : Z) : result auxkey :=
  if sa_num sa <=? 0 then Err InvalidArgument
  else
    if 2 ^ 31 <=? 2 * sa_num sa then UB
    else if negb (Z.of_nat (length (sa_b sa)) =? 2 * sa_num sa) then Err InvalidArgument
    else if negb (known_type (sa_type sa)) then Err InvalidArgument
    else
      do! s <- gf_start F (sa_type sa) (sa_seed sa);
      do! keys <- aux_deser_loop (gf_prng F (sa_type sa)) fuel p np px npx (sa_b sa) (sa_num sa) 0
                    (length (sa_b sa)) s;
      Ok {| ak_p := p; ak_np := np; ak_px := px; ak_npx := npx; ak_seed := sa_seed sa; ak_type := sa_type sa;
            ak_keys := keys; ak_t := t; ak_pow := sa_pow sa |}.

(** ** aux_galois_key.h *)

(** aux_galois_key.h lines 57-74: Create *)
Definition auxgalois_create (F : genfam) (fuel : nat) (key : skey) (ty power : Z) (px : mparams) (npx : nttp)
  (seed seed_e : list Z) : result auxkey := aux_create F fuel key ty 1 px npx power seed seed_e.
(** aux_galois_key.h lines 80-88: ApplyTo *)
Definition auxgalois_apply (ak : auxkey) (x : ct) : result ct :=
  if negb (ct_pow x =? ak_pow ak) then Err InvalidArgument else aux_apply ak x.
(** aux_galois_key.h lines 92-127: Serialize, Deserialize *)
Definition auxgalois_serialize := aux_serialize.
Definition auxgalois_deserialize := aux_deserialize.
