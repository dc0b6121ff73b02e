(** Specification vocabulary for the finite field encoder. *)
From Coq Require Import Znumtheory.
From Verif Require Import Base FinSum PolySpec Spec NttFacts RnsPoly RnsCtx RnsCtxSpec RnsEncode.

(** The exponent of slot i, for n a power of two: 5^i in the first half of the
    slots and -5^(i - n/2) in the second, modulo 2n. *)
Definition slot_power (n i : nat) : Z :=
  (if (i <? n / 2)%nat then 5 ^ Z.of_nat i else - 5 ^ Z.of_nat (i - n / 2)) mod (2 * Z.of_nat n).

(** The value of the polynomial f in slot i: f at psi to the exponent of the
    slot, modulo t; psi is a root of X^n + 1 modulo t. *)
Definition slot_value (t psi : Z) (n : nat) (f : nat -> Z) (i : nat) : Z :=
  peval n f (psi ^ slot_power n i) mod t.

(** the slot r places further in the same half, cyclically *)
Definition rotated_slot (n r i : nat) : nat :=
  if (i <? n / 2)%nat then ((i + r) mod (n / 2))%nat else (n / 2 + (i - n / 2 + r) mod (n / 2))%nat.

(** the same slot of the other half *)
Definition swapped_slot (n i : nat) : nat := if (i <? n / 2)%nat then (i + n / 2)%nat else (i - n / 2)%nat.

(** c was returned by one of the two factories for finite field encoding *)
Definition ctx_made_ff (k log_n : Z) (qs ps : list Z) (t : Z) (c : rctx) : Prop :=
  ctx_create_bgv_ff k log_n qs ps t = Ok c \/ ctx_create_bfv_ff k log_n qs ps t = Ok c.

(** the root of X^n + 1 modulo t that the encoder e uses *)
Definition field_root (e : ffenc) : Z := ntt_root (fe_pt e) (fe_nt e).

(** e is the encoder of a context for finite field encoding with the prime t *)
Definition encoder_for (k log_n : Z) (qs ps : list Z) (t : Z) (c : rctx) (e : ffenc) : Prop :=
  ctx_args k qs ps t /\ ctx_made_ff k log_n qs ps t c /\ prime t /\ ff_create c = Ok e.
