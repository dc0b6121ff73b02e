(** Specification vocabulary: the distribution of sampled vectors and of fresh
    ciphertexts, by counting the random words that lead to an outcome. *)
From Verif Require Import Base FinSum PolySpec Montgomery Poly Prng Sampling SampleSpec SampleProofs SampleErrProofs SymEnc SymSpec.

(** the random words (their widths in bits) of r attempts at a uniform residue,
    and of n error coefficients *)
Definition attempts (p : mparams) (r : nat) : list Z := concat (repeat (attempt_widths (p_logm p)) r).
Definition errors (v : Z) (n : nat) : list Z := concat (repeat (error_widths 24 (2 * v)) n).

(** the call used up all random words and returned w *)
Definition returned (w : list Z) (res : result (list Z * list Z)) : bool :=
  match res with Ok (x, []) => if list_eq_dec Z.eq_dec x w then true else false | _ => false end.

(** out of the words of one attempt: how many give a particular residue, and how
    many are rejected *)
Definition accept (p : mparams) : Z := 2 ^ (total (attempt_widths (p_logm p)) - p_logm p).
Definition reject (p : mparams) : Z := 2 ^ total (attempt_widths (p_logm p)) - p_m p * accept p.

(** the number of ways to see n particular residues accepted, in order, in r
    attempts, the last of which is accepted: the rejected ones are anywhere
    before *)
Definition mask_count (p : mparams) (n r : nat) : Z :=
  binom (r - 1) (Z.of_nat n - 1) * accept p ^ Z.of_nat n * reject p ^ Z.of_nat (r - n).

(** the number of ways to get the error d: the difference of two numbers of
    heads in 2v tosses; the words have more bits than the 4v that are used *)
Definition error_count (v d : Z) : Z := 2 ^ (total (error_widths 24 (2 * v)) - 4 * v) * binom (Z.to_nat (4 * v)) (2 * v + d).

Definition product (l : list Z) : Z := fold_right Z.mul 1 l.

(** the integers a list of stored residues stands for, and the test that a call
    used up all random words and returned residues for e *)
Definition signed (p : mparams) (l : list Z) : list Z := map (fun x => centered (p_m p) (export_int p x)) l.
Definition returned_signed (p : mparams) (e : list Z) (res : result (list Z * list Z)) : bool :=
  match res with Ok (l, []) => if list_eq_dec Z.eq_dec (signed p l) e then true else false | _ => false end.

(** the test that an encryption used up all random words and returned the
    components cs *)
Definition encrypted_as (cs : list poly) (res : result (ct * list Z)) : bool :=
  match res with Ok (x, []) => if list_eq_dec (list_eq_dec Z.eq_dec) (ct_c x) cs then true else false | _ => false end.
(** ... and returned a second component b, whatever the first *)
Definition pad_is (b : poly) (res : result (ct * list Z)) : bool :=
  match res with Ok (x, []) => if list_eq_dec (list_eq_dec Z.eq_dec) (tl (ct_c x)) [b] then true else false | _ => false end.

(** the test that key generation used up all random words and returned a key
    with the n coefficients e *)
Definition key_is (n : nat) (e : list Z) (res : result (skey * list Z)) : bool :=
  match res with Ok (key, []) => if list_eq_dec Z.eq_dec (tabulate n (signed_secret key)) e then true else false | _ => false end.
