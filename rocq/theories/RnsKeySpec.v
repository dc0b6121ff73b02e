(** Specification vocabulary for RNS keys and encryptions. *)
From Verif Require Import Base FinSum PolySpec NegRing SymSpec Montgomery Spec RnsPoly RnsSpec RnsCt RnsCtSpec RnsEncode RnsKey.

(** key is the secret polynomial s over the moduli ms, in degree 2^L *)
Definition key_is (ms : list pmod) (L : nat) (key : rskey) (s : nat -> Z) : Prop :=
  rsk_ms key = ms /\ rns_is ms L true (rsk_key key) s.

(** x has the two components (c_0, -a) for the pad a, and phase h under s *)
Definition masked (ms : list pmod) (L : nat) (s : nat -> Z) (x : rct) (a : rpoly) (h : nat -> Z) : Prop :=
  ciphertext ms L s 2 1 x h /\
  exists f c1, rns_is ms L true a f /\ nth_error (rt_c x) 1 = Some c1 /\ rns_is ms L true c1 (fun i => - f i).

(** coefficients of absolute value at most B *)
Definition bounded (n : nat) (B : Z) (e : nat -> Z) : Prop := forall i, (i < n)%nat -> Z.abs (e i) <= B.

(** an error of the given variance fits the first modulus *)
Definition variance_fits (v : Z) (ms : list pmod) : Prop := match ms with [] => True | m :: _ => 2 * v <= modulus m end.
