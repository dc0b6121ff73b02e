(** Specification vocabulary: adding a plaintext to a ciphertext, and a run of
    encryptions drawing from one generator. *)
From Verif Require Import Base Montgomery MontBatch Poly SymEnc Prng RnsPoly RnsCt.

(** the ciphertext x with the plaintext pt added to its first component *)
Definition plus_message (x : ct) (pt : poly) : result ct :=
  match ct_c x with
  | [] => UB
  | c0 :: cs => do! c <- poly_add (ct_p x) c0 pt; Ok (with_c x (c :: cs))
  end.

(** the polynomial with all coefficients zero *)
Definition zero_poly (L : nat) : poly := repeat 0 (2 ^ L).
Definition zero_rns (L : nat) (ms : list pmod) : rpoly :=
  {| rp_logn := L; rp_vs := map (fun _ => repeat 0 (2 ^ L)) ms; rp_ntt := true |}.

(** encrypting one plaintext after the other, handing the generator on *)
Fixpoint in_turn {P C S : Type} (enc : P -> S -> result (C * S)) (pts : list P) (s : S) : result (list C * S) :=
  match pts with
  | [] => Ok ([], s)
  | pt :: pts =>
      do! ' (x, s) <- enc pt s;
      do! ' (xs, s) <- in_turn enc pts s;
      Ok (x :: xs, s)
  end.
