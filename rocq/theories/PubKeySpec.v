(** Specification vocabulary for public-key encryption. *)
From Verif Require Import Base FinSum PolySpec Montgomery Ntt Poly PolyView Spec SymEnc SymSpec NttFacts PolyExt PubKey.

(** [pk] is a public key for the secret key [key]: its pair (b, a), read as a
    ciphertext, encrypts 0 with the error polynomial e, |e| <= be *)
Record pub_ok (L : nat) (t be : Z) (key : skey) (pk : pkey) : Prop := {
  po_p : pk_p pk = sk_p key;
  po_np : pk_np pk = sk_np key;
  po_t : export_int (sk_p key) (pk_t pk) = t;
  po_stored : stored (sk_p key) (pk_t pk);
  po_ab : ct_ok L key (ct_make (sk_p key) [pk_b pk; pk_a pk] 1);
  po_zero : exists e, (forall i, (i < 2 ^ L)%nat -> Z.abs (e i) <= be) /\
    carries L key (ct_make (sk_p key) [pk_b pk; pk_a pk] 1) (fun i => t * e i)
}.

(** bound on |v e + e0 + s e1| when |v|, |e0|, |e1| <= b and |e| <= be *)
Definition pub_noise (L : nat) (key : skey) (be b : Z) : Z :=
  2 ^ Z.of_nat L * (b * be) + b + b * l1 (2 ^ L) (signed_secret key).
