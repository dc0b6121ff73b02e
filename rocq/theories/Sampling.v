(** Models of the samplers: MontgomeryInt::ImportRandom,
    SamplePolynomialFromPrng, SampleFromErrorDistribution,
    SampleFromUniformTernary. All take the generator R as a parameter.

    Rejection loops take fuel; running out of it is the outcome UB and means
    "still running". *)
From Verif Require Import Base BitsUtil Montgomery Ntt Poly Prng.

Section Sampling.
Variable R : prng.
Local Notation S := (pr_st R).

(** montgomery.h lines 626-657: GenerateRandomInt. Two rounds suffice for
    every supported size, the loop gets fuel for more. *)
Fixpoint gen_loop (k : Z) (fuel : nat) (bits rand : Z) (s : S) : result (Z * S) :=
  match fuel with
  | O => UB
  | Datatypes.S f =>
    if bits <=? 0 then Ok (rand, s)
    else if bits <=? 8 then
      do! ' (r, s) <- pr_rand8 R s;
      let needed := Z.land (wrap k r) (wrap k (2 ^ bits) - 1) in
      Ok (wrap k (wrap k (rand * 2 ^ bits) + needed), s)
    else
      do! ' (r, s) <- pr_rand64 R s;
      let b := Z.min bits (Z.min k 64) in
      let needed := Z.land (wrap k r) (wrap k (wrap k (2 ^ b) - 1)) in
      gen_loop k f (bits - b) (wrap k (wrap k (rand * 2 ^ b) + needed)) s
  end.

Definition generate_random_int (k logm : Z) (s : S) : result (Z * S) := gen_loop k 16 logm 0 s.

(** montgomery.h lines 254-267: ImportRandom. *)
Fixpoint import_random (fuel : nat) (p : mparams) (s : S) : result (Z * S) :=
  match fuel with
  | O => UB
  | Datatypes.S f =>
    do! ' (r, s) <- generate_random_int (p_k p) (p_logm p) s;
    if p_m p <=? r then import_random f p s else Ok (r, s)
  end.

(** n samples in a row *)
Fixpoint sample_n (fuel n : nat) (p : mparams) (s : S) : result (list Z * S) :=
  match n with
  | O => Ok ([], s)
  | Datatypes.S n' =>
    do! ' (x, s) <- import_random fuel p s;
    do! ' (xs, s) <- sample_n fuel n' p s;
    Ok (x :: xs, s)
  end.

(** polynomial.h lines 351-371: SamplePolynomialFromPrng. *)
Definition sample_polynomial (fuel : nat) (num_coeffs : Z) (p : mparams) (s : S) : result (poly * S) :=
  if num_coeffs <? 1 then Err InvalidArgument
  else
    do! ' (xs, s) <- sample_n fuel (Z.to_nat num_coeffs) p s;
    do! a <- poly_of xs; Ok (a, s).

(** sample_error.h lines 62-85: one coefficient. [coefficient] is an Int of k
    bits; k here is called w. *)
Fixpoint binomial_loop (w : Z) (fuel : nat) (k coefficient : Z) (s : S) : result (Z * S) :=
  match fuel with
  | O => UB
  | Datatypes.S f =>
    if k <=? 0 then Ok (coefficient, s)
    else if 64 <=? k then
      do! ' (r, s) <- pr_rand64 R s;
      let c := wrap w (coefficient + count_ones_64 r) in
      do! ' (r, s) <- pr_rand64 R s;
      let c := wrap w (c - count_ones_64 r) in
      binomial_loop w f (k - 64) c s
    else if 8 <=? k then
      do! ' (r, s) <- pr_rand8 R s;
      let c := wrap w (coefficient + count_ones_in_byte r) in
      do! ' (r, s) <- pr_rand8 R s;
      let c := wrap w (c - count_ones_in_byte r) in
      binomial_loop w f (k - 8) c s
    else
      let mask := wrap 8 (2 ^ k - 1) in
      do! ' (r, s) <- pr_rand8 R s;
      let c := wrap w (coefficient + count_ones_in_byte (Z.land r mask)) in
      do! ' (r, s) <- pr_rand8 R s;
      let c := wrap w (c - count_ones_in_byte (Z.land r mask)) in
      Ok (c, s)
  end.

(** sample_error.h lines 58-97: the loop body of SampleFromErrorDistribution. *)
Definition sample_error1 (p : mparams) (variance : Z) (s : S) : result (Z * S) :=
  do! ' (c, s) <- binomial_loop (p_k p) 24 (2 * variance) (p_m p) s;
  let c := if p_m p <=? c then wrap (p_k p) (c - p_m p) else c in
  Ok (import_int p c, s).

Fixpoint sample_error_n (p : mparams) (variance : Z) (n : nat) (s : S) : result (list Z * S) :=
  match n with
  | O => Ok ([], s)
  | Datatypes.S n' =>
    do! ' (x, s) <- sample_error1 p variance s;
    do! ' (xs, s) <- sample_error_n p variance n' s;
    Ok (x :: xs, s)
  end.

(** sample_error.h lines 44-100: SampleFromErrorDistribution. kMaxVariance is
    256 (constants.h). *)
Definition sample_error (p : mparams) (n : nat) (variance : Z) (s : S) : result (list Z * S) :=
  if 256 <? variance then Err InvalidArgument else sample_error_n p variance n s.

(** sampler/uniform_ternary.h lines 67-73: the rejection loop for one batch. *)
Fixpoint ternary_loop (fuel : nat) (missing e0 e1 : Z) (s : S) : result (Z * Z * S) :=
  if missing =? 0 then Ok (e0, e1, s)
  else match fuel with
  | O => UB
  | Datatypes.S f =>
    do! ' (r0, s) <- pr_rand8 R s;
    do! ' (r1, s) <- pr_rand8 R s;
    let e0 := Z.lxor e0 (Z.land r0 missing) in
    let e1 := Z.lxor e1 (Z.land r1 missing) in
    ternary_loop f (Z.land (wrap 8 (Z.lnot e0)) e1) e0 e1 s
  end.

(** sampler/uniform_ternary.h lines 75-85: decoding bit i. *)
Definition ternary_value (p : mparams) (e0 e1 : Z) (i : nat) : Z :=
  let bit0 := 0 <? Z.land e0 (2 ^ Z.of_nat i) in
  let bit1 := 0 <? Z.land e1 (2 ^ Z.of_nat i) in
  let is_plus := wrap (p_k p) (- Z.b2z (bit0 && negb bit1)) in
  let is_minus := wrap (p_k p) (- Z.b2z (bit0 && bit1)) in
  import_int p (Z.lor (Z.land is_plus 1) (Z.land is_minus (p_m p - 1))).

(** sampler/uniform_ternary.h lines 59-88: all batches; [n] coefficients remain, at most 8 per batch. *)
Fixpoint ternary_batches (fuel batches : nat) (p : mparams) (n : nat) (s : S) : result (list Z * S) :=
  match n, batches with
  | O, _ => Ok ([], s)
  | _, O => UB
  | _, Datatypes.S b =>
    let filled := Nat.min n 8 in
    let missing := if (filled <? 8)%nat then 2 ^ Z.of_nat filled - 1 else 255 in
    do! ' (e0, e1, s) <- ternary_loop fuel missing 0 0 s;
    do! ' (rest, s) <- ternary_batches fuel b p (n - filled) s;
    Ok (map (ternary_value p e0 e1) (seq 0 filled) ++ rest, s)
  end.

(** sampler/uniform_ternary.h lines 33-90: SampleFromUniformTernary (null pointers are not modelled). *)
Definition sample_ternary (fuel : nat) (p : mparams) (num_coeffs : Z) (s : S) : result (list Z * S) :=
  if num_coeffs <=? 0 then Err InvalidArgument
  else let n := Z.to_nat num_coeffs in ternary_batches fuel n p n s.
End Sampling.

(** The generator that replays a given script of values, used to count. *)
Definition scripted : prng :=
  let pop b (l : list Z) := match l with
    | x :: t => if (0 <=? x) && (x <? 2 ^ b) then Ok (x, t) else Err Internal
    | [] => Err Internal end in
  {| pr_st := list Z; pr_rand8 := pop 8; pr_rand64 := pop 64 |}.
