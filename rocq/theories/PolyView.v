(** How the statements about polynomials read them: through InverseNtt and
    ExportInt, the public way to observe a polynomial. *)
From Verif Require Import Base Montgomery Ntt Poly Spec.

(** [a] is a polynomial of n = 2^L stored words (in NTT form). *)
Definition ntt_poly (p : mparams) (L : nat) (a : poly) : Prop :=
  length a = (2 ^ L)%nat /\ Forall (stored p) a.

(** coefficient i of [a], read with InverseNtt and ExportInt *)
Definition coeff (p : mparams) (np : nttp) (a : poly) (i : nat) : Z :=
  match inverse_ntt_poly p np a with
  | Ok v => export_int p (nth i v 0)
  | _ => 0
  end.
