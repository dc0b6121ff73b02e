(** Model of the error_ member during sums of products: the fused, lazy and
    constant-polynomial versions of x += a * b. Errors are real numbers, as in
    ErrorEst.v and RnsErrorEst.v. *)
From Coq Require Import Reals.
From Verif Require Import Base Poly PolyExt SymEnc ErrorEst RnsPoly RnsCt RnsErrorEst.
Local Open Scope R_scope.

(** symmetric_encryption.h lines 250-275: FusedAbsorbAddInPlace; line 273 is the
    error *)
Definition t_fused (e : err_params) (x a : tct) (b : poly) : result tct :=
  do! z <- ct_fused_absorb (fst x) (fst a) b; Ok (z, snd x + snd a * b_plaintext e).
(** symmetric_encryption.h lines 364-391: FusedAbsorbConstantAddInPlace; line 389
    is the error *)
Definition t_fused_constant (e : err_params) (x a : tct) (b : const_poly) : result tct :=
  do! z <- ct_fused_absorb_constant (fst x) (fst a) b; Ok (z, snd x + snd a * b_plaintext e).
(** symmetric_encryption.h lines 285-335: FusedAbsorbAddInPlaceLazily; lines
    292-294 return before line 297, the error. An operation that fails after
    line 297 returns a status only, so its error_ is left out. *)
Definition t_fused_lazily (e : err_params) (x a : tct) (b : poly) : result tct :=
  do! z <- ct_fused_lazily (fst x) (fst a) b;
  Ok (z, match ct_c (fst a) with [] => snd x | _ => snd x + snd a * b_plaintext e end).
(** symmetric_encryption.h lines 340-362: MergeLazyOperations leaves error_ *)
Definition t_merge (x : tct) : result tct := do! z <- ct_merge (fst x); Ok (z, snd x).

(** rns/rns_ciphertext.h lines 269-290: FusedAbsorbAddInPlaceWithoutPad; line 288
    is the error *)
Definition re_fused_nopad (e : rns_err) (x a : rtct) (b : rpoly) : result rtct :=
  do! z <- rct_fused_nopad (fst x) (fst a) b; Ok (z, snd x + snd a * re_plaintext e).
(** rns/rns_ciphertext.h lines 298-331: FusedAbsorbAddInPlaceWithoutPadLazily;
    lines 315-322 (the first call) return before line 329, the error *)
Definition re_fused_lazily (e : rns_err) (x a : rtct) (b : rpoly) : result rtct :=
  do! z <- rct_fused_lazily (fst x) (fst a) b;
  Ok (z, match rt_lazy (fst x) with [] => snd x | _ => snd x + snd a * re_plaintext e end).
(** rns/rns_ciphertext.h lines 334-361 and 365-377: MergeLazyOperations and
    SetPadComponent leave error_ *)
Definition re_merge (x : rtct) : result rtct := do! z <- rct_merge (fst x); Ok (z, snd x).
Definition re_set_pad (x : rtct) (a : rpoly) : result rtct := do! z <- rct_set_pad (fst x) a; Ok (z, snd x).
