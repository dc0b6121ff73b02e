(** Vocabulary for C88. *)
From Verif Require Import Base RnsPoly.

(** the call returns the error InvalidArgument and nothing else *)
Definition refused {A} (r : result A) : Prop := r = Err InvalidArgument.

(** number of moduli a polynomial is stored for *)
Definition parts (a : rpoly) : nat := length (rp_vs a).
Definition in_ntt (a : rpoly) : Prop := rp_ntt a = true.

Definition power_of_two (n : nat) : Prop := exists l, n = (2 ^ l)%nat.
