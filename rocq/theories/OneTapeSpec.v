(** Specification vocabulary for C99: the distribution of public-key
    encryptions, public keys and key switching keys over one modulus. *)
From Verif Require Import Base FinSum PolySpec Montgomery MontBatch Ntt Poly PolyView Spec Prng Sampling SymEnc SymSpec Relin RelinSpec DistSpec TapeSpec PubTapeSpec KeyTapeSpec.

(** the polynomial b has the coefficients f modulo q *)
Definition poly_is (p : mparams) (np : nttp) (L : nat) (b : poly) (f : nat -> Z) : Prop :=
  ntt_poly p L b /\ forall i, (i < 2 ^ L)%nat -> coeff p np b i = f i mod p_m p.

(** d uniform polynomials of n coefficients, one after the other *)
Fixpoint uniform_polys (fuel : nat) (p : mparams) (n d : nat) (s : list Z) : result (list poly * list Z) :=
  match d with
  | O => Ok ([], s)
  | S d' =>
      do! ' (r, s) <- sample_polynomial tape fuel (Z.of_nat n) p s;
      do! ' (rs, s) <- uniform_polys fuel p n d' s;
      Ok (r :: rs, s)
  end.

(** the call succeeded and returned these polynomials *)
Definition gave_polys (vs : list (list Z)) (res : result (list poly * list Z)) : bool :=
  match res with Ok (rs, _) => if list_eq_dec (list_eq_dec Z.eq_dec) rs vs then true else false | _ => false end.

(** the call succeeded and its ciphertext passes the test *)
Definition passes_one (test : ct -> bool) (res : result (ct * list Z)) : bool :=
  match res with Ok (x, _) => test x | _ => false end.

(** the gadget 1, T, T^2, ... of the base T = 2^logT *)
Definition powers_of (logT : Z) (dim : nat) : list Z := map (fun c => 2 ^ (Z.of_nat c * logT)) (seq 0 dim).

(** bs are the polynomials t e_j + h_j - r_j s: with r_j, encryptions of h_j under s *)
Definition encryptions_one (L : nat) (t : Z) (key : skey) (hs : list (nat -> Z)) (rs : list poly) (es : list (list Z)) (bs : list poly) : Prop :=
  length bs = length hs /\ forall j b h r e, nth_error bs j = Some b -> nth_error hs j = Some h -> nth_error rs j = Some r -> nth_error es j = Some e ->
    poly_is (sk_p key) (sk_np key) L b (fun i => t * nth i e 0 + h i - negacyclic (2 ^ L) (coeff (sk_p key) (sk_np key) r) (secret key) i).
