(** Specification vocabulary for C97: averages over error polynomials. *)
From Verif Require Import Base FinSum PolySpec Montgomery RnsPoly RnsSpec RnsCt DistSpec.

(** The sum of F over all vectors of n integers between -2v and 2v, each
    weighted with the number of byte strings that give it as n centred binomials. *)
Fixpoint over_errors (v : Z) (n : nat) (F : list Z -> Z) : Z :=
  match n with
  | O => F []
  | S n' => zsum (Z.to_nat (4 * v + 1)) (fun i => error_count v (Z.of_nat i - 2 * v) * over_errors v n' (fun e => F (Z.of_nat i - 2 * v :: e)))
  end.

Definition errors (v : Z) (n : nat) (e : list Z) : Prop := length e = n /\ Forall (fun x => Z.abs x <= 2 * v) e.

(** the call succeeded and its ciphertext passes the test *)
Definition passes (test : rct -> bool) (res : result (rct * list Z)) : bool :=
  match res with Ok (x, _) => test x | _ => false end.

(** x is the public-key encryption (b r + t e0 + m, a r + t e1) *)
Definition pub_encryption (ms : list pmod) (L : nat) (a b m : nat -> Z) (t : Z) (r e0 e1 : list Z) (x : rct) : Prop :=
  exists c0 c1, rt_c x = [c0; c1] /\
    rns_is ms L true c0 (fun i => negacyclic (2 ^ L) b (fun j => nth j r 0) i + t * nth i e0 0 + m i) /\
    rns_is ms L true c1 (fun i => negacyclic (2 ^ L) a (fun j => nth j r 0) i + t * nth i e1 0).
