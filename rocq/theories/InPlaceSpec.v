(** Specification vocabulary for calls that change the object they are made on. *)
From Verif Require Import Base Montgomery Poly PolyExt SymEnc RnsPoly RnsCt.

(** The outcome of a call (its status and the object afterwards) against the
    result of the method that returns a new object: the same status, and on
    success the same object. *)
Definition agrees {A} (call : result unit * A) (r : result A) : Prop :=
  match r with
  | Ok y => call = (Ok tt, y)
  | Err e => fst call = Err e
  | UB => fst call = UB
  end.

(** a call that reports an error leaves the object x as it was *)
Definition all_or_nothing {A} (call : result unit * A) (x : A) : Prop :=
  forall e, fst call = Err e -> snd call = x.

(** an RNS polynomial with l vectors of 2^d coefficients each, as every
    constructor makes them, in NTT form or not *)
Definition shaped (d l : nat) (ntt : bool) (a : rpoly) : Prop :=
  length (rp_vs a) = l /\ Forall (fun v => length v = 2 ^ d)%nat (rp_vs a) /\ rp_ntt a = ntt.

(** an RNS polynomial of whatever shape *)
Definition regular (a : rpoly) : Prop := exists d l ntt, (0 < l)%nat /\ shaped d l ntt a.

(** a ciphertext whose components are of one shape *)
Definition uniform (x : rct) : Prop := exists d l ntt, (0 < l)%nat /\ Forall (shaped d l ntt) (rt_c x).

(** ... and of a degree that the parameters for 2^L coefficients can transform *)
Definition uniform_upto (L : nat) (x : rct) : Prop :=
  exists d l ntt, (d <= L)%nat /\ (0 < l)%nat /\ Forall (shaped d l ntt) (rt_c x).

(** a ciphertext with one modulus whose components all have n coefficients *)
Definition of_degree (n : nat) (x : ct) : Prop := Forall (fun a : poly => length a = n) (ct_c x).
