(** Models of opt/lazy_polynomial.h, modulus_conversion.h and gadget.h. *)
From Verif Require Import Base Montgomery MontBatch Ntt Poly.

(** ** opt/lazy_polynomial.h *)

(** opt/lazy_polynomial.h lines 149-151: members. BigInt is the double-width type of Int, so the
    accumulators are 2k-bit words. *)
Record lazy := { lz_coeffs : list Z; lz_level : Z; lz_max : Z }.

(** opt/lazy_polynomial.h lines 129-147: ComputeLogMaximalLevel. *)
Definition lazy_log_max (p : mparams) : result Z :=
  let l := 2 * p_k p - 1 - 2 * p_logm p in
  if l <? 1 then Err InvalidArgument else Ok l.

(** opt/lazy_polynomial.h lines 59-60: the product of two Montgomery representations as a BigInt *)
Definition big_mul (p : mparams) (x y : Z) : Z := wrap (2 * p_k p) (x * y).

(** opt/lazy_polynomial.h lines 45-65: Create. *)
Definition lazy_create (p : mparams) (a b : list Z) : result lazy :=
  if negb (same_len a b) then Err InvalidArgument
  else
    do! l <- lazy_log_max p;
    Ok {| lz_coeffs := map2 (big_mul p) a b; lz_level := 1; lz_max := wrap (2 * p_k p) (2 ^ l) |}.

(** opt/lazy_polynomial.h lines 68-76: CreateEmpty. *)
Definition lazy_create_empty (p : mparams) (len : nat) : result lazy :=
  do! l <- lazy_log_max p;
  Ok {| lz_coeffs := repeat 0 len; lz_level := 0; lz_max := wrap (2 * p_k p) (2 ^ l) |}.

(** opt/lazy_polynomial.h lines 79-89: Export. *)
Definition lazy_export (p : mparams) (z : lazy) : result poly :=
  poly_of (map (fun c => export_int p (barrett_reduce_bigint p c)) (lz_coeffs z)).

(** opt/lazy_polynomial.h lines 122-127: Refresh. *)
Definition lazy_refresh (p : mparams) (z : lazy) : lazy :=
  {| lz_coeffs := map (barrett_reduce_bigint p) (lz_coeffs z); lz_level := 1; lz_max := lz_max z |}.

(** opt/lazy_polynomial.h lines 91-111: FusedMulAddInPlace. *)
Definition lazy_fused (p : mparams) (z : lazy) (a b : list Z) : result lazy :=
  if negb (same_len a b) || negb (same_len a (lz_coeffs z)) then Err InvalidArgument
  else
    let z := if lz_level z =? lz_max z then lazy_refresh p z else z in
    Ok {| lz_coeffs := map2 (fun c xy => wrap (2 * p_k p) (c + big_mul p (fst xy) (snd xy)))
                            (lz_coeffs z) (combine a b);
          lz_level := wrap (2 * p_k p) (lz_level z + 1);
          lz_max := lz_max z |}.

(** ** modulus_conversion.h. Both parameter sets belong to the same ModularInt
    type, i.e. p_k pq = p_k pp. *)

(** modulus_conversion.h lines 30-80: ConvertModulusBalanced. *)
Definition convert_balanced1 (pq pp : mparams) (x_mont : Z) : Z :=
  let q := p_m pq in
  let mp := p_m pp in
  let diff := if q >? mp then q - mp else mp - q in
  let diff_p := import_int pp diff in
  let x := export_int pq x_mont in
  let x_p := import_int pp x in
  if x >? shr q 1 then (if mp >? q then madd pp x_p diff_p else msub pp x_p diff_p) else x_p.

Definition convert_balanced (pq pp : mparams) (v : list Z) : list Z :=
  if p_m pq =? p_m pp then v else map (convert_balanced1 pq pp) v.

(** modulus_conversion.h lines 88-114: ImportBalancedModularInt ([v % 0] is undefined). *)
Definition import_balanced1 (t : Z) (pp : mparams) (v : Z) : Z :=
  let vv := v mod t in
  if vv >? shr t 1 then mneg pp (import_int pp (t - vv)) else import_int pp vv.

Definition import_balanced (t : Z) (pp : mparams) (vs : list Z) : result (list Z) :=
  match vs with
  | [] => Ok []
  | _ => if t =? 0 then UB else Ok (map (import_balanced1 t pp) vs)
  end.

(** modulus_conversion.h lines 121-137: ConvertModulusBalancedOnNttPolynomial. *)
Definition convert_balanced_ntt (pq : mparams) (npq : nttp) (pp : mparams) (npp : nttp) (a : poly)
  : result poly :=
  do! v <- inverse_ntt_poly pq npq a;
  convert_to_ntt pp npp (convert_balanced pq pp v).

(** modulus_conversion.h lines 141-158: ConvertModulus. *)
Definition convert_modulus (pq pp : mparams) (v : list Z) : list Z :=
  if p_m pq =? p_m pp then v else map (fun x => import_int pp (export_int pq x)) v.

(** ** gadget.h *)

(** gadget.h lines 43-47: GadgetSize. *)
Definition gadget_size (p : mparams) (log_base : Z) : Z := (p_logm p + (log_base - 1)) / log_base.

(** gadget.h lines 52-79: BaseDecompose. [1 << log_base] is undefined when log_base
    reaches the width of the (promoted) type. *)
Fixpoint decompose_loop (p : mparams) (log_base mask : Z) (digits : list Z) (dim : nat)
  : list (list Z) :=
  match dim with
  | O => []
  | S d => map (fun x => import_int p (Z.land x mask)) digits ::
           decompose_loop p log_base mask (map (fun x => shr x log_base) digits) d
  end.

Definition base_decompose (p : mparams) (coeffs : list Z) (log_base : Z) (dim : nat)
  : result (list (list Z)) :=
  if (if p_k p =? 16 then 31 else p_k p) <=? log_base then UB
  else
    let mask := wrap (p_k p) (wrap (p_k p) (2 ^ log_base) - 1) in
    Ok (decompose_loop p log_base mask (map (export_int p) coeffs) dim).
