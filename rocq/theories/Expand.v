(** Model of /repo/shell_encryption/oblivious_expand.h.

    Simplifications: error estimates are omitted as in SymEnc.v. The vectors
    result of ExpandCiphertext is preallocated with empty ciphertexts; here it
    is the list of the entries written so far. *)
From Verif Require Import Base BitsUtil Montgomery MontBatch Ntt Poly PolyExt SymEnc Relin.

(** [1 << levels] for an int, 0 <= levels < 32 (1 << 31 is INT_MIN) *)
Definition shl1 (levels : Z) : Z := int32 (2 ^ levels).

(** oblivious_expand.h lines 71-76, 159-172: an ObliviousExpander: its parameters and the virtual
    SubstitutionWithKeys. *)
Record expander := { ex_p : mparams; ex_np : nttp; ex_subst : ct -> Z -> result ct }.

(** oblivious_expand.h lines 43-51: AbsorbNttMonomialInPlace is AbsorbInPlace up to the estimate. *)
Definition absorb_monomial (x : ct) (a : poly) : result ct := ct_absorb x a.

(** oblivious_expand.h lines 203-223: one pass of the inner loop over the ciphertexts of a level;
    returns the new result[k] and result[k + 2^j]. *)
Fixpoint expand_row (ex : expander) (to_absorb : poly) (power : Z) (xs : list ct)
  : result (list ct * list ct) :=
  match xs with
  | [] => Ok ([], [])
  | x :: xs' =>
    do! sub <- ex_subst ex x power;
    do! d <- ct_sub x sub;
    do! hi <- absorb_monomial d to_absorb;
    do! lo <- ct_add x sub;
    do! ' (los, his) <- expand_row ex to_absorb power xs';
    Ok (lo :: los, hi :: his)
  end.

(** oblivious_expand.h lines 197-201: the monomial -x^(N - 2^j). An index out of range is
    undefined. *)
Definition expand_monomial (ex : expander) (num_coeffs j : Z) : result poly :=
  let p := ex_p ex in
  let i := num_coeffs - 2 ^ j in
  if (i <? 0) || (num_coeffs <=? i) then UB
  else convert_to_ntt p (ex_np ex)
         (upd (repeat (import_zero p) (Z.to_nat num_coeffs)) (Z.to_nat i) (mneg p (import_one p))).

(** oblivious_expand.h lines 194-224: the loop over j. *)
Fixpoint expand_loop (ex : expander) (num_coeffs j : Z) (levels : nat) (xs : list ct) : result (list ct) :=
  match levels with
  | O => Ok xs
  | S levels' =>
    do! to_absorb <- expand_monomial ex num_coeffs j;
    let power := shr num_coeffs j + 1 in
    do! ' (los, his) <- expand_row ex to_absorb power xs;
    expand_loop ex num_coeffs (j + 1) levels' (los ++ his)
  end.

(** oblivious_expand.h lines 173-227: ExpandCiphertext. A negative output_size makes the vector
    constructor throw, modelled as UB. *)
Definition expand_ciphertext (ex : expander) (x : ct) (levels : Z) : result (list ct) :=
  let output_size := shl1 levels in
  do! comp0 <- ct_component x 0;
  let num_coeffs := Z.of_nat (length comp0) in
  if negb (num_coeffs =? Z.of_nat (np_n (ex_np ex))) then Err InvalidArgument
  else if output_size <? 0 then UB
  else expand_loop ex num_coeffs 0 (Z.to_nat levels) [x].

(** oblivious_expand.h lines 122-129: all ciphertexts in turn. *)
Fixpoint expand_all (ex : expander) (levels : Z) (xs : list ct) : result (list ct) :=
  match xs with
  | [] => Ok []
  | x :: xs' =>
    do! e <- expand_ciphertext ex x levels;
    do! r <- expand_all ex levels xs';
    Ok (e ++ r)
  end.

(** oblivious_expand.h lines 95-138: ObliviousExpand. max_length is a size_t product converted to
    int. *)
Definition oblivious_expand (ex : expander) (xs : list ct) (levels output_length : Z) : result (list ct) :=
  if output_length <? 0 then Err InvalidArgument
  else if (levels <? 0) || (32 <=? levels) then Err InvalidArgument
  else if Z.of_nat (length xs) =? output_length then Ok xs
  else
    let max_length := int32 (wrap 64 (Z.of_nat (length xs) * wrap 64 (shl1 levels))) in
    if output_length >? max_length then Err InvalidArgument
    else
      do! r <- expand_all ex levels xs;
      if Z.of_nat (length r) >? output_length then Ok (firstn (Z.to_nat output_length) r)
      else if Z.of_nat (length r) <? output_length then Err InvalidArgument
      else Ok r.

(** oblivious_expand.h lines 143-157: ComputeNormalizer; % and / truncate, a shift by 64 or more
    or by a negative amount is undefined. *)
Definition compute_normalizer (k log_t : Z) : result Z :=
  if log_t =? 0 then UB
  else
    let e := log_t - Z.rem k log_t in
    let pow := Z.quot k log_t in
    if (log_t <? 0) || (64 <=? log_t) || (e <? 0) || (64 <=? e) then UB
    else if Z.rem pow 2 =? 0 then Ok (wrap 64 (wrap 64 (2 ^ log_t + 1) - 2 ^ e))
    else Ok (2 ^ e).

(** ** GaloisKeysObliviousExpander *)

(** oblivious_expand.h lines 237-258: the map key_index_for_substitution; the key of the largest
    index wins. *)
Fixpoint keys_valid (num_coeffs : Z) (i : Z) (gks : list relin) : bool :=
  match gks with
  | [] => true
  | gk :: gks' => (rk_pow gk =? shr num_coeffs i + 1) && keys_valid num_coeffs (i + 1) gks'
  end.

(** oblivious_expand.h lines 279-281: the key for a substitution power; [find] returning [end()]
    is dereferenced, hence UB. *)
Fixpoint find_key (gks : list relin) (power : Z) : result relin :=
  match gks with
  | [] => UB
  | gk :: gks' => match find_key gks' power with
                  | Ok r => Ok r
                  | e => if rk_pow gk =? power then Ok gk else e
                  end
  end.

(** oblivious_expand.h lines 273-282: SubstitutionWithKeys. *)
Definition galois_subst (np : nttp) (gks : list relin) (x : ct) (power : Z) : result ct :=
  do! sub <- ct_substitute np power x;
  do! gk <- find_key gks power;
  galois_apply gk sub.

(** oblivious_expand.h lines 237-258: Create. *)
Definition galois_expander (gks : list relin) (p : mparams) (np : nttp) : result expander :=
  if negb (keys_valid (Z.of_nat (np_n np)) 0 gks) then Err InvalidArgument
  else Ok {| ex_p := p; ex_np := np; ex_subst := galois_subst np gks |}.

(** ** GaloisGeneratorObliviousExpander *)

(** oblivious_expand.h lines 371-377: the loop of ComputeNumberSubstitutionsWithGenerator. *)
Fixpoint generator_loop (two_n target : Z) (fuel : nat) (b power : Z) : result Z :=
  match fuel with
  | O => Err InvalidArgument
  | S f => let power := power * 5 mod two_n in
           if power =? target then Ok b else generator_loop two_n target f (b + 1) power
  end.

(** oblivious_expand.h lines 355-385: ComputeNumberSubstitutionsWithGenerator. *)
Definition num_substitutions (num_coeffs power : Z) : result Z :=
  if (power <? 5) || (power >=? 2 * num_coeffs) || negb (count_ones_64 (power - 1) =? 1)
  then Err InvalidArgument
  else generator_loop (2 * num_coeffs) power (Z.to_nat (2 * num_coeffs - 1)) 1 1.

(** oblivious_expand.h lines 338-342 *)
Fixpoint generator_iter (np : nttp) (gk : relin) (count : nat) (x : ct) : result ct :=
  match count with
  | O => Ok x
  | S c => do! sub <- ct_substitute np 5 x; do! y <- galois_apply gk sub; generator_iter np gk c y
  end.

(** oblivious_expand.h lines 328-344: SubstitutionWithKeys. *)
Definition generator_subst (np : nttp) (gk : relin) (x : ct) (power : Z) : result ct :=
  do! _ <- ct_component x 0;
  do! b <- num_substitutions (Z.of_nat (np_n np)) power;
  generator_iter np gk (Z.to_nat b) x.

(** oblivious_expand.h lines 299-313: Create. *)
Definition generator_expander (gk : relin) (p : mparams) (np : nttp) : result expander :=
  if negb (rk_pow gk =? 5) then Err InvalidArgument
  else Ok {| ex_p := p; ex_np := np; ex_subst := generator_subst np gk |}.

(** ** DefaultObliviousExpander, oblivious_expand.h lines 408-419 *)
Definition default_expand (xs : list ct) (levels output_length : Z) : result (list ct) :=
  if negb (wrap 64 output_length =? Z.of_nat (length xs)) then Err InvalidArgument else Ok xs.

(** ** MakeCompressedVector *)

(** oblivious_expand.h lines 471-481: the loop over the indices. *)
Fixpoint compress_loop (p : mparams) (total log_cf cf : Z) (indices : list Z) (vecs : list (list Z))
  : result (list (list Z)) :=
  match indices with
  | [] => Ok vecs
  | i :: indices' =>
    if (i <? 0) || (i >=? total) then Err InvalidArgument
    else
      let pi := Z.to_nat (shr i log_cf) in
      do! v <- get vecs pi;
      if (length v <=? Z.to_nat (i mod cf))%nat then UB
      else compress_loop p total log_cf cf indices' (upd vecs pi (upd v (Z.to_nat (i mod cf)) (import_one p)))
  end.

(** oblivious_expand.h lines 437-491. The quotient by a power of two is exact in a double, so
    ceil is the integer one. Null pointers are not modelled. *)
Definition make_compressed_vector (total : Z) (indices : list Z) (log_cf : Z) (p : mparams) (np : nttp)
  : result (list poly) :=
  if total <=? 0 then Err InvalidArgument
  else if (log_cf <? 0) || (32 <=? log_cf) then Err InvalidArgument
  else
    let cf := shl1 log_cf in
    if (cf <=? 0) || (cf >? Z.of_nat (np_n np)) then Err InvalidArgument
    else
      let zero_vec := repeat (import_zero p) (np_n np) in
      let size := (total + cf - 1) / cf in
      do! vecs <- compress_loop p total log_cf cf indices (repeat zero_vec (Z.to_nat size));
      seqr (map (convert_to_ntt p np) vecs).
