{
 "claims": [
  {
   "property": "C01",
   "status": "proved",
   "theorems": [
    "C01_count_ones_in_byte",
    "C01_count_ones_64",
    "C01_count_leading_zeros_64",
    "C01_bit_length"
   ],
   "note": "count_ones_64, count_ones_in_byte, count_leading_zeros_64, bit_length for all words."
  },
  {
   "property": "C02",
   "status": "proved",
   "theorems": [
    "C02_create_accepts",
    "C02_create_consistent"
   ],
   "note": "Create accepts exactly the odd moduli with two free bits; every derived constant equals its defining formula (modulus > 1)."
  },
  {
   "property": "C03",
   "status": "proved",
   "theorems": [
    "C03_import_export",
    "C03_import_zero_one"
   ],
   "note": "ExportInt(ImportInt(n)) = n mod m for all words; zero and one."
  },
  {
   "property": "C04",
   "status": "proved",
   "theorems": [
    "C04_api_values_stored",
    "C04_ring_operations",
    "C04_add_lazy_operands",
    "C04_sub_lazy_operands"
   ],
   "note": "Add/Sub/Mul/Negate compute in Z/m for every stored representative [0,m], including lazy operands."
  },
  {
   "property": "C05",
   "status": "partial",
   "theorems": [
    "C05_equality_refuted",
    "C05_equality_reduced_partial",
    "C05_operations_reduced",
    "C05_equality_exact"
   ],
   "note": "False in general: Negate(0) compares different from 0 (C05_equality_refuted). Exact boundary proved: two stored words export the same value iff they compare equal or are the two spellings 0 and m of zero (C05_equality_exact). Every operation but Negate(0) gives reduced representatives."
  },
  {
   "property": "C06",
   "status": "partial",
   "theorems": [
    "C06_mul_constant",
    "C06_fused_mul_add",
    "C06_fused_mul_add_uint16_refuted",
    "C06_fused_mul_constant_add",
    "C06_uint16_exact"
   ],
   "note": "Proved for all word sizes for constants; FusedMulAdd proved for all sizes but 16 bits, where it has undefined behaviour (refuted theorem). C06_uint16_exact gives the exact set of operands for which that happens, and shows it never does when -1/m mod 2^16 is at most 2^15."
  },
  {
   "property": "C07",
   "status": "proved",
   "theorems": [
    "C07_mod_exp",
    "C07_multiplicative_inverse_prime",
    "C07_multiplicative_inverse_fast"
   ],
   "note": "ModExp for all exponents; MultiplicativeInverse for prime moduli; MultiplicativeInverseFast exactly when coprime."
  },
  {
   "property": "C08",
   "status": "proved",
   "theorems": [
    "C08_batch_binary",
    "C08_batch_scalar",
    "C08_batch_mul_constant",
    "C08_batch_fused_mul_add",
    "C08_batch_fused_mul_constant_add"
   ],
   "note": "Batch operations are the pointwise scalar operations and reject mismatched lengths."
  },
  {
   "property": "C09",
   "status": "proved",
   "theorems": [
    "C09_transcribe",
    "C09_transcribe_rejects",
    "C09_transcribe_roundtrip"
   ],
   "note": "Bit-exact specification of TranscribeBits, exact rejection condition, round trip."
  },
  {
   "property": "C10",
   "status": "proved",
   "theorems": [
    "C10_serialize",
    "C10_serialize_vector",
    "C10_deserialize_short"
   ],
   "note": "Serialize/Deserialize round trips for single elements and vectors, with output length."
  },
  {
   "property": "C11",
   "status": "partial",
   "theorems": [
    "C11_deserialize_range_refuted",
    "C11_deserialize_vector_range_partial",
    "C11_deserialize_exact"
   ],
   "note": "False: out-of-range representatives are accepted (C11_deserialize_range_refuted). Proved: no undefined behaviour, count bounds, elements below 2^log_modulus, and for every such element which additions, subtractions and negations are right (C11_deserialize_exact)."
  },
  {
   "property": "C12",
   "status": "proved",
   "theorems": [
    "C12_construct",
    "C12_add_sub",
    "C12_mul",
    "C12_bitwise",
    "C12_shift",
    "C12_compare",
    "C12_div_mod"
   ],
   "note": "All operators for all operand pairs and non-negative shift amounts; conversions to floating point not modelled."
  },
  {
   "property": "C13",
   "status": "proved",
   "theorems": [
    "C13_print",
    "C13_digits_unique"
   ],
   "note": "All three bases, showbase, uppercase, width and fill; printing of a 128-bit chunk (absl) is modelled by its digits."
  },
  {
   "property": "C14",
   "status": "proved",
   "theorems": [
    "C14_import_random",
    "C14_uniform",
    "C14_polynomial"
   ],
   "note": "ImportRandom and SamplePolynomialFromPrng: results are exactly those of the rejection process for any generator; counting theorem: every residue has the same number of scripts, acceptance at least 1/2. The fuel of the rejection loop is existentially quantified."
  },
  {
   "property": "C15",
   "status": "proved",
   "theorems": [
    "C15_init_succeeds",
    "C15_init_rejects",
    "C15_init_wellformed"
   ],
   "note": "For prime moduli: success exactly when 1 <= log_n <= 15 and m = 1 mod 2n; psi has order exactly 2n; tables, constants and n_inv as documented. (Primality is a hypothesis: the code does not check it.)"
  },
  {
   "property": "C16",
   "status": "proved",
   "theorems": [
    "C16_forward_evaluates",
    "C16_bad_length",
    "C16_forward_longer_vector_refuted"
   ],
   "note": "Evaluation at psi^(2 bitrev(j)+1), no overflow in lazy layers, for vectors of the parameters' length. Longer power-of-two vectors read the table out of bounds (C16_forward_longer_vector_refuted)."
  },
  {
   "property": "C17",
   "status": "proved",
   "theorems": [
    "C17_inverse_inverts"
   ],
   "note": "Both compositions are the identity (up to reduction of stored representatives)."
  },
  {
   "property": "C18",
   "status": "proved",
   "theorems": [
    "C18_convert_to_ntt",
    "C18_mul",
    "C18_add_sub_neg",
    "C18_mul_scalar",
    "C18_fused_mul_add",
    "C18_coefficients_determine",
    "C18_length_mismatch"
   ],
   "note": "Products through Mul and MulConstant are negacyclic convolutions; Add/Sub/Negate/scalar/fused are coefficientwise, read through InverseNtt and ExportInt; mismatched lengths rejected. FusedMulAdd excludes 16-bit words (see C06)."
  },
  {
   "property": "C19",
   "status": "proved",
   "theorems": [
    "C19_substitute",
    "C19_substitute_rejects",
    "C19_substituted_is_composition"
   ],
   "note": "Every odd power in (0,2n), every polynomial; all other powers rejected. The specification of f(X^power) is itself proved to be composition at every root of X^n+1."
  },
  {
   "property": "C20",
   "status": "proved",
   "theorems": [
    "C20_serialize",
    "C20_deserialize_total",
    "C20_serialize_rejects"
   ],
   "note": "Round trip for 1..2^15 stored words; exact acceptance condition for every message. Elements of a deserialized message are only below 2^log_modulus (see C11)."
  },
  {
   "property": "C21",
   "status": "proved",
   "theorems": [
    "C21_lazy_exact",
    "C21_lazy_create_exact",
    "C21_lazy_eq_eager",
    "C21_lazy_rejects"
   ],
   "note": "Any sequence of FusedMulAddInPlace from CreateEmpty or Create: Export is the exact sum of products; equals the eager accumulation word for word; length mismatches rejected."
  },
  {
   "property": "C22",
   "status": "proved",
   "theorems": [
    "C22_convert_balanced",
    "C22_convert_modulus",
    "C22_import_balanced",
    "C22_convert_ntt_polynomial"
   ],
   "note": "ConvertModulusBalanced, ConvertModulus, ImportBalancedModularInt, ConvertModulusBalancedOnNttPolynomial for all pairs of odd moduli of one word size."
  },
  {
   "property": "C23",
   "status": "proved",
   "theorems": [
    "C23_gadget_recomposes",
    "C23_gadget_size"
   ],
   "note": "Digits are in range and recompose exactly; GadgetSize is the least sufficient number of digits."
  },
  {
   "property": "C24",
   "status": "proved",
   "theorems": [
    "C24_error_bounded",
    "C24_error_distribution",
    "C24_error_variance",
    "C24_error_sequential",
    "C24_small_modulus_refuted"
   ],
   "note": "Bound for any generator, exact centred binomial counts, mean 0 and variance v. C24_small_modulus_refuted shows the distribution is wrong when 2*variance exceeds the modulus."
  },
  {
   "property": "C25",
   "status": "proved",
   "theorems": [
    "C25_remove_error",
    "C25_remove_error_value",
    "C25_measure_error"
   ],
   "note": "RemoveError and MeasureError for every t with 0 < t <= q; any noise that fits is removed exactly."
  },
  {
   "property": "C26",
   "status": "proved",
   "theorems": [
    "C26_decrypt",
    "C26_decrypt_total",
    "C26_zero_plaintext_modulus",
    "C26_encrypt",
    "C26_decrypt_encrypt",
    "C26_encrypt_succeeds",
    "C26_sampled_key",
    "C26_sample_encrypt_decrypt"
   ],
   "note": "Every key, plaintext, generator and stream; noise bound |e| <= 2*variance for any generator, so decryption is exact under 2*(t*2v+t-1) < q. Also the exact value of Decrypt for every ciphertext, success of Encrypt for word sizes other than 16, and that sampled keys qualify."
  },
  {
   "property": "C27",
   "status": "proved",
   "theorems": [
    "C27_add_sub",
    "C27_decrypts",
    "C27_key_mismatch"
   ],
   "note": "Any numbers of components, any noise; different key powers rejected."
  },
  {
   "property": "C28",
   "status": "proved",
   "theorems": [
    "C28_absorb",
    "C28_absorb_scalar",
    "C28_multiply",
    "C28_fused_absorb",
    "C28_decrypts"
   ],
   "note": "Absorb by polynomial and scalar, ciphertext product, fused absorb (eager and constant form) for any numbers of components. For 16-bit words the ciphertext product and fused absorb inherit the undefined behaviour of C06; any result they return is right."
  },
  {
   "property": "C29",
   "status": "partial",
   "theorems": [
    "C29_exact",
    "C29_lazy_equals_eager_partial",
    "C29_shorter_refuted",
    "C29_edge_cases"
   ],
   "note": "Equality word for word for all sequences in which no non-empty ciphertext is shorter than an earlier one; C29_exact: every other sequence, and only those, reads a.c_[j] out of bounds."
  },
  {
   "property": "C30",
   "status": "proved",
   "theorems": [
    "C30_coefficient",
    "C30_switch_modulus",
    "C30_decrypts",
    "C30_key_switch_modulus",
    "C30_mismatch"
   ],
   "note": "Per coefficient and per ciphertext, for all p >= q with p = q mod t; key SwitchModulus keeps the signed coefficients; mismatches rejected."
  },
  {
   "property": "C31",
   "status": "proved",
   "theorems": [
    "C31_create",
    "C31_create_rejects",
    "C31_create_bad_power",
    "C31_apply",
    "C31_decrypts",
    "C31_too_long",
    "C31_shorter_refuted"
   ],
   "note": "Create yields columns encrypting 2^(logT i) s^a; ApplyTo keeps the plaintext up to t times a bounded error (relin_noise), decryption unchanged; longer ciphertexts rejected. C31_shorter_refuted: the header promises ciphertexts with at most num_parts components, shorter ones are always refused."
  },
  {
   "property": "C32",
   "status": "proved",
   "theorems": [
    "C32_substitute",
    "C32_substitute_overflow_refuted",
    "C32_substitute_rejects",
    "C32_create",
    "C32_power_mismatch",
    "C32_apply",
    "C32_galois"
   ],
   "note": "Substitute composes powers; GaloisKey::ApplyTo refuses other powers and returns to the original key. C32_substitute_overflow_refuted: degree 2^15 and two large powers overflow the int product."
  },
  {
   "property": "C33",
   "status": "partial",
   "theorems": [
    "C33_expand_ciphertext",
    "C33_oblivious_expand",
    "C33_selection",
    "C33_selection_normalized",
    "C33_rejects",
    "C33_same_length",
    "C33_create",
    "C33_default",
    "C33_missing_keys_refuted",
    "C33_generator_last_level",
    "C33_same_length_refuted"
   ],
   "note": "Galois-key and generator expanders, whole requests and the selection vector proved. Documented behaviour refuted in two cases: as many outputs as inputs returns the inputs unexpanded; more levels than Galois keys dereferences end(). 16-bit ciphertexts may hit the undefined multiplication of C06."
  },
  {
   "property": "C34",
   "status": "proved",
   "theorems": [
    "C34_normalizer"
   ],
   "note": "k >= 0, 1 <= log_t <= 63"
  },
  {
   "property": "C35",
   "status": "proved",
   "theorems": [
    "C35_compressed",
    "C35_rejects",
    "C35_single_index"
   ],
   "note": "null pointers not modelled"
  },
  {
   "property": "C36",
   "status": "proved",
   "theorems": [
    "C36_create",
    "C36_encrypt",
    "C36_decrypt_encrypt",
    "C36_correct",
    "C36_encrypt_succeeds",
    "C36_rejects",
    "C36_round_trip"
   ],
   "note": "Key generation, encryption, decryption under the stated noise bound, rejections and serialization round trip."
  },
  {
   "property": "C37",
   "status": "proved",
   "theorems": [
    "C37_chacha_stream",
    "C37_hkdf_stream",
    "C37_seed_size",
    "C37_blocks_distinct",
    "C37_linearizable",
    "C37_interface",
    "C37_unbounded_refuted"
   ],
   "note": "Both generator families, any call sequence within the capacity of the int block counter; linearizability of the mutex-protected classes over all interleavings; C37_unbounded_refuted shows undefined behaviour past 2^31-1 blocks although the header promises no bound."
  },
  {
   "property": "C38",
   "status": "proved",
   "theorems": [
    "C38_expand",
    "C38_decrypts"
   ],
   "note": "Any number of plaintexts, in order, same start state."
  },
  {
   "property": "C39",
   "status": "partial",
   "theorems": [
    "C39_aux_round_trip",
    "C39_aux_round_trip_refuted",
    "C39_aux_empty_refuted",
    "C39_aux_rejects",
    "C39_relinearization_round_trip",
    "C39_galois_round_trip",
    "C39_rejects",
    "C39_accepted_shape"
   ],
   "note": "Relinearization and Galois keys round-trip word for word for every length; auxiliary-modulus keys round-trip when they have exactly one component. The statement is false for auxiliary-modulus keys of other lengths: Deserialize rebuilds only the first half of the components (C39_aux_round_trip_refuted) and refuses a key without components (C39_aux_empty_refuted). Malformed sizes are rejected."
  },
  {
   "property": "C40",
   "status": "proved",
   "theorems": [
    "C40_create",
    "C40_create_rejects",
    "C40_apply",
    "C40_decrypts",
    "C40_rejects",
    "C40_galois_mismatch",
    "C40_galois"
   ],
   "note": "Phase modulo q is preserved up to t*E with |E| bounded by aux_noise; needs distinct primes P, q with P not dividing t."
  },
  {
   "property": "C41",
   "status": "proved",
   "theorems": [
    "C41_ternary_values",
    "C41_ternary_uniform",
    "C41_ternary_batches"
   ],
   "note": "Range and length for any generator; equal counts for every vector of up to 8 trits after any number of rounds; longer vectors are independent batches."
  },
  {
   "property": "C42",
   "status": "proved",
   "theorems": [
    "C42_lookup",
    "C42_recursion",
    "C42_range",
    "C42_signed",
    "C42_sample",
    "C42_iterations",
    "C42_create"
   ],
   "note": "For every interpretation of the double operations. 16-bit products may overflow int, so there the result is characterised when the call is defined."
  },
  {
   "property": "C43",
   "status": "proved",
   "theorems": [
    "C43_interpolation",
    "C43_complements",
    "C43_interpolation_square",
    "C43_errors"
   ],
   "note": "CRT interpolation when Q*q_i fits the big integer; errors on mismatched sizes"
  },
  {
   "property": "C44",
   "status": "proved",
   "theorems": [
    "C44_round_trip",
    "C44_decrypts",
    "C44_deserialize_total",
    "C44_rejects"
   ],
   "note": ""
  },
  {
   "property": "C45",
   "status": "proved",
   "theorems": [
    "C45_round_trip",
    "C45_rejects"
   ],
   "note": "Round trip of sampled keys; log_t check."
  },
  {
   "property": "C46",
   "status": "proved",
   "theorems": [
    "C46_add_sub",
    "C46_key_homomorphic",
    "C46_null_key"
   ],
   "note": ""
  },
  {
   "property": "C47",
   "status": "partial",
   "theorems": [
    "C47_equality_exact",
    "C47_equality_words",
    "C47_equality_reduced_partial",
    "C47_equality_refuted"
   ],
   "note": "False in general (Negate(0) stores the modulus): refuted by C47_equality_refuted; C47_equality_exact: two polynomials have equal coefficients iff their words are equal up to 0 and q."
  },
  {
   "property": "C48",
   "status": "partial",
   "theorems": [
    "C48_exact",
    "C48_key_substitute",
    "C48_plaintext_params_refuted"
   ],
   "note": "Proved when the plaintext modulus parameters equal the ciphertext parameters; refuted otherwise (C48_plaintext_params_refuted): Substitute imports t with the wrong parameters. C48_exact: the substituted key is right for every key, but decrypts modulo the t read back through the wrong parameters."
  },
  {
   "property": "C49",
   "status": "proved",
   "theorems": [
    "C49_constants",
    "C49_levels",
    "C49_bad_level",
    "C49_bfv_constants",
    "C49_rejects",
    "C49_rejects_even",
    "C49_repeated_prime_accepted"
   ],
   "note": "all four factories; repeated primes are accepted (C49_repeated_prime_accepted)"
  },
  {
   "property": "C50",
   "status": "proved",
   "theorems": [
    "C50_representation",
    "C50_add_sub_neg",
    "C50_scalar_mul",
    "C50_mul",
    "C50_fused_mul_add",
    "C50_errors",
    "C50_negate_reports_errors_refuted",
    "C50_mixed_forms_accepted"
   ],
   "note": "Negate drops error statuses (C50_negate_reports_errors_refuted) and mixed forms are accepted by Add (C50_mixed_forms_accepted)"
  },
  {
   "property": "C51",
   "status": "proved",
   "theorems": [
    "C51_forms",
    "C51_substitute",
    "C51_zero_one",
    "C51_convert",
    "C51_create",
    "C51_sample_uniform"
   ],
   "note": ""
  },
  {
   "property": "C52",
   "status": "proved",
   "theorems": [
    "C52_round_trip",
    "C52_deserialize_shape",
    "C52_errors",
    "C52_deserialize_total_refuted"
   ],
   "note": "log_n >= 31 in a message is undefined behaviour (C52_deserialize_total_refuted)"
  },
  {
   "property": "C53",
   "status": "proved",
   "theorems": [
    "C53_mod_reduce_lsb",
    "C53_mod_reduce_msb",
    "C53_errors"
   ],
   "note": ""
  },
  {
   "property": "C54",
   "status": "proved",
   "theorems": [
    "C54_approx_switch"
   ],
   "note": ""
  },
  {
   "property": "C55",
   "status": "proved",
   "theorems": [
    "C55_switch",
    "C55_switch_with_context",
    "C55_rounding"
   ],
   "note": "floating point abstracted by operations with bounded relative error"
  },
  {
   "property": "C56",
   "status": "proved",
   "theorems": [
    "C56_extend",
    "C56_scale_and_reduce",
    "C56_scale_and_switch",
    "C56_approx_mod_reduce_msb",
    "C56_approx_mod_reduce_lsb"
   ],
   "note": "floating point as in C55"
  },
  {
   "property": "C57",
   "status": "proved",
   "theorems": [
    "C57_remove_error",
    "C57_recovers_message",
    "C57_zero_plaintext_modulus",
    "C57_plaintext_modulus_above_q_refuted"
   ],
   "note": "false for t > q (C57_plaintext_modulus_above_q_refuted)"
  },
  {
   "property": "C58",
   "status": "proved",
   "theorems": [
    "C58_linear",
    "C58_plaintext",
    "C58_scalar",
    "C58_fused_absorb_add",
    "C58_mul",
    "C58_substitute",
    "C58_substitute_int_overflow_refuted",
    "C58_mismatch"
   ],
   "note": "Phase algebra of every RNS ciphertext operation; Substitute has an int overflow at n = 32768, recorded as a refuted theorem."
  },
  {
   "property": "C60",
   "status": "proved",
   "theorems": [
    "C60_mod_reduce",
    "C60_last_modulus"
   ],
   "note": "Exact phase identity and error bound for BGV modulus reduction."
  },
  {
   "property": "C68",
   "status": "proved",
   "theorems": [
    "C68_lazy_exact",
    "C68_lazy_absorb",
    "C68_errors"
   ],
   "note": "Any number of lazily accumulated products."
  },
  {
   "property": "C59",
   "status": "proved",
   "theorems": [
    "C59_sample",
    "C59_sample_errors",
    "C59_encrypt_polynomial_bgv",
    "C59_encrypt_bgv",
    "C59_encrypt_bfv",
    "C59_encrypt_bfv_one_generator",
    "C59_decrypt",
    "C59_decrypt_errors",
    "C59_mod_reduce",
    "C59_mod_reduce_last"
   ],
   "note": "16-bit words are excluded for encryption because of the FusedMulAdd overflow shown in C06."
  },
  {
   "property": "C61",
   "status": "proved",
   "theorems": [
    "C61_encode",
    "C61_encode_errors",
    "C61_decode",
    "C61_decode_errors",
    "C61_decrypt",
    "C61_encrypt_decrypt",
    "C61_below_half_Q_refuted"
   ],
   "note": "C61_below_half_Q_refuted shows that the bound cannot be relaxed to half of the product of the primes."
  },
  {
   "property": "C70",
   "status": "proved",
   "theorems": [
    "C70_error",
    "C70_ternary",
    "C70_gaussian",
    "C70_errors",
    "C70_variance"
   ],
   "note": ""
  },
  {
   "property": "C62",
   "status": "proved",
   "theorems": [
    "C62_encode",
    "C62_encode_unscaled",
    "C62_encode_lower_level",
    "C62_encode_errors",
    "C62_decode",
    "C62_decode_errors",
    "C62_decrypt",
    "C62_encrypt_decrypt"
   ],
   "note": "Floating-point arithmetic enters through float_model: operations with relative error at most eps (2^-53 for doubles)."
  },
  {
   "property": "C63",
   "status": "proved",
   "theorems": [
    "C63_mul",
    "C63_absorb",
    "C63_absorb_simple",
    "C63_mod_reduce",
    "C63_mul_decrypt",
    "C63_absorb_decrypt",
    "C63_absorb_simple_decrypt",
    "C63_mod_reduce_decrypt",
    "C63_errors",
    "C63_lower_level_refuted"
   ],
   "note": "Floating point enters through float_model (relative error of each operation); Mul excludes 16-bit moduli. C63_lower_level_refuted: below the top level Mul and AbsorbInPlace always return InvalidArgument, because the residues of the auxiliary modulus are not cut to the level."
  },
  {
   "property": "C69",
   "status": "proved",
   "theorems": [
    "C69_create",
    "C69_create_errors",
    "C69_create_degree_32768_refuted",
    "C69_encode_bgv",
    "C69_encode_errors",
    "C69_decode_bgv",
    "C69_decode_bgv_crt",
    "C69_encode_bfv",
    "C69_encode_bfv_unscaled",
    "C69_decode_bfv",
    "C69_slots",
    "C69_decrypt_bgv",
    "C69_multiply_bgv",
    "C69_add_bgv",
    "C69_encrypt_decrypt_bgv",
    "C69_encrypt_decrypt_bfv"
   ],
   "note": "Slot semantics of the finite field encoder for BGV and BFV, end to end with encryption, addition and multiplication. C69_create_degree_32768_refuted: with degree 2^15 Create multiplies two ints beyond 2^31-1 for every context, which is undefined."
  },
  {
   "property": "C67",
   "status": "proved",
   "theorems": [
    "C67_create",
    "C67_create_errors",
    "C67_encrypt_bgv",
    "C67_encrypt_bfv",
    "C67_encrypt_errors",
    "C67_encrypt_decrypt_bgv",
    "C67_encrypt_decrypt_bgv_slots",
    "C67_encrypt_decrypt_bfv"
   ],
   "note": "Key generation, encryption and decryption of RNS public keys, for BGV with both encoders and BFV with coefficient encoding, under an explicit noise bound."
  },
  {
   "property": "C64",
   "status": "proved",
   "theorems": [
    "C64_create",
    "C64_create_for_level",
    "C64_components",
    "C64_create_errors",
    "C64_decompose_errors",
    "C64_log_base_refuted"
   ],
   "note": "Create and Decompose of RnsGadget, for all moduli, levels and log bases in [1,30]. C64_log_base_refuted records that Create shifts an int by, and divides by, an unchecked log base."
  },
  {
   "property": "C65",
   "status": "proved",
   "theorems": [
    "C65_create",
    "C65_create_errors",
    "C65_apply",
    "C65_apply_errors",
    "C65_precomputed",
    "C65_round_trip",
    "C65_deserialize_dimension_accepted",
    "C65_substitute_and_switch",
    "C65_rotate_bgv",
    "C65_rotate_bfv"
   ],
   "note": "All of RnsGaloisKey for every gadget, level, key and ciphertext. C65_deserialize_dimension_accepted: Deserialize accepts a key with fewer components than the gadget, which ApplyTo then reads past the end of."
  },
  {
   "property": "C66",
   "status": "proved",
   "theorems": [
    "C66_create",
    "C66_create_errors",
    "C66_apply",
    "C66_index_out_of_range_refuted",
    "C66_apply_errors",
    "C66_multiply_relinearize_bgv",
    "C66_relinearize_bfv",
    "C66_index_wrong_result_refuted"
   ],
   "note": "Proved for ciphertexts with up to three components, or with degree equal to the gadget dimension, as the statement says. The code indexes the key with the degree of the ciphertext: C66_index_out_of_range_refuted and C66_index_wrong_result_refuted show that longer ciphertexts are read out of range or decrypt wrongly."
  },
  {
   "property": "C71",
   "status": "proved",
   "theorems": [
    "C71_multiply_add",
    "C71_multiply_add_64",
    "C71_lazy",
    "C71_two_lanes_refuted"
   ],
   "note": "holds for every multiple of four lanes; for two 64-bit lanes it is refuted (C71_two_lanes_refuted)"
  },
  {
   "property": "C72",
   "status": "proved",
   "theorems": [
    "C72_round_trip",
    "C72_pending_operations_kept_refuted",
    "C72_forms",
    "C72_fused_without_pad",
    "C72_comparisons",
    "C72_equality_refuted",
    "C72_sub_polynomials"
   ],
   "note": "with the negative results C72_pending_operations_kept_refuted and C72_equality_refuted"
  },
  {
   "property": "C73",
   "status": "proved",
   "theorems": [
    "C73_create",
    "C73_end_to_end",
    "C73_can_switch",
    "C73_fermat_accepted",
    "C73_narrowing_accepted",
    "C73_create_low_bits"
   ],
   "note": "Also proved: with a Fermat prime q = 2^log_t+1 the context is accepted with t = q, so fresh ciphertexts carry no noise and decryption always fails (C73_fermat_accepted); log_n and log_t above 2^32 are narrowed to int and accepted, after which GetN/GetT are undefined (C73_narrowing_accepted)."
  },
  {
   "property": "C74",
   "status": "proved",
   "theorems": [
    "C74_reported_error",
    "C74_public_key",
    "C74_switch_modulus",
    "C74_absorb_refuted",
    "C74_multiply_refuted",
    "C74_large_base_refuted",
    "C74_rns_fresh_refuted",
    "C74_rns_scalar_refuted"
   ],
   "note": "Proved for the operations the statement names; C74_absorb_refuted, C74_multiply_refuted, C74_large_base_refuted, C74_rns_fresh_refuted and C74_rns_scalar_refuted prove the negative half. Double rounding is left out."
  },
  {
   "property": "C75",
   "status": "proved",
   "theorems": [
    "C75_circuit",
    "C75_defined",
    "C75_chain"
   ],
   "note": "Composition theorem over C26-C28, C30-C32, C36, C40 and C44; C75_chain shows that keys made by SwitchModulus form such a chain."
  },
  {
   "property": "C76",
   "status": "proved",
   "theorems": [
    "C76_bgv_polynomials",
    "C76_bgv_slots",
    "C76_keys"
   ],
   "note": "BGV over RNS, both encoders; conditions: word size other than 16 bits, primes coprime to t. ex_hypotheses and C76_example discharge the hypotheses for a concrete circuit and run it."
  },
  {
   "property": "C77",
   "status": "proved",
   "theorems": [
    "C77_bfv_polynomials",
    "C77_bfv_slots"
   ],
   "note": "Structural induction over expressions with both encoders. Plaintext additions, fresh ciphertexts and products are restricted to the top level because EncodeBfv with scaling, Mul and AbsorbInPlace refuse lower levels (C62_encode_lower_level, C63_lower_level_refuted). C69_encode_bfv_unscaled, used for unscaled slot plaintexts, is new in ThmField.v."
  },
  {
   "property": "C78",
   "status": "proved",
   "theorems": [
    "C78_relinearization_key",
    "C78_public_key",
    "C78_secret_key",
    "C78_auxiliary_key",
    "C78_auxiliary_key_refuted",
    "C78_arithmetic",
    "C78_decrypt",
    "C78_key_switching",
    "C78_key_switching_oversized_refuted",
    "C78_switch_modulus",
    "C78_substitute",
    "C78_substitute_oversized_refuted",
    "C78_substitute_power_refuted",
    "C78_rns_decrypt",
    "C78_rns_empty_refuted"
   ],
   "note": "Auxiliary-modulus keys are read and their shape is proved; applying them to received ciphertexts is not covered. The five undefined cases are proved as refuted theorems."
  },
  {
   "property": "C79",
   "status": "proved",
   "theorems": [
    "C79_rns_agrees",
    "C79_poly_agrees",
    "C79_single_agrees",
    "C79_rns_unchanged",
    "C79_reduce_unchanged",
    "C79_single_unchanged",
    "C79_add_refuted",
    "C79_lazily_refuted",
    "C79_bfv_absorb_refuted",
    "C79_mixed_refuted",
    "C79_scale_and_reduce_refuted"
   ],
   "note": "The calls that do change the object although they fail are C79_add_refuted, C79_lazily_refuted, C79_bfv_absorb_refuted, C79_mixed_refuted and C79_scale_and_reduce_refuted, and the computed C79_example_to_coeff."
  },
  {
   "property": "C80",
   "status": "proved",
   "theorems": [
    "C80_vectors",
    "C80_polynomials",
    "C80_rns_ciphertexts",
    "C80_single_ciphertexts",
    "C80_self",
    "C80_scalar",
    "C80_scalar_refuted"
   ],
   "note": "The case that goes wrong is C80_scalar_refuted. C80_single_ciphertexts states the fused methods for operands with no more components than the ciphertext, which includes the ciphertext itself."
  },
  {
   "property": "C81",
   "status": "proved",
   "theorems": [
    "C81_create",
    "C81_create_bfv",
    "C81_create_finite_field",
    "C81_plaintext_modulus_equal_to_prime_accepted",
    "C81_composite_accepted"
   ],
   "note": "The two missing checks are C81_composite_accepted and C81_plaintext_modulus_equal_to_prime_accepted. An empty list of moduli together with a degree above 2^15 is left out of C81_create."
  },
  {
   "property": "C82",
   "status": "proved",
   "theorems": [
    "C82_prime",
    "C82_largest_degree",
    "C82_documented_degree",
    "C82_inverse",
    "C82_comments",
    "C82_sixty_bits_refuted",
    "C82_rns_contexts"
   ],
   "note": "The comment that is off by one bit is C82_sixty_bits_refuted."
  },
  {
   "property": "C83",
   "status": "proved",
   "theorems": [
    "C83_polynomials",
    "C83_slots",
    "C83_create",
    "C83_add_plain_refuted"
   ],
   "note": "Doubles are taken as real numbers. C83_add_plain_refuted shows why the slack is needed; C74_rns_fresh_refuted shows why the square of log_plaintext_modulus must be at least the plaintext modulus. The errors BFV ciphertexts report are not covered."
  },
  {
   "property": "C84",
   "status": "proved",
   "theorems": [
    "C84_lookup",
    "C84_single"
   ],
   "note": "Two theorems: a list of indices gives the sum of the records, one index gives the record. Databases with one record are excluded because expansion to as many outputs as inputs is wrong (C33_same_length_refuted); 16-bit integers are excluded because the compressed vector and the normalizer do not fit them. The protocol is the use documented in oblivious_expand.h; the code has no function that runs all of it."
  },
  {
   "property": "C85",
   "status": "proved",
   "theorems": [
    "C85_linearizable",
    "C85_exclusive",
    "C85_disjoint",
    "C85_progress",
    "C85_in_range",
    "C85_single_thread_refuted"
   ],
   "note": "The block function (ChaCha20, HKDF) is a deterministic argument. Incrementing the salt counter past INT_MAX and reading outside the buffer have no step in the machine. C85_single_thread_refuted: the SingleThread classes give two threads the same byte."
  },
  {
   "property": "C86",
   "status": "proved",
   "theorems": [
    "C86_ring",
    "C86_ring_rejects",
    "C86_equality",
    "C86_serialize",
    "C86_ntt_agrees",
    "C86_ciphertext",
    "C86_convert",
    "C86_substitute_refuted",
    "C86_edges_refuted"
   ],
   "note": "Full statement for the words and the operations; the error estimate of the coefficient ciphertexts (an uninitialised double) is not modelled."
  },
  {
   "property": "C87",
   "status": "proved",
   "theorems": [
    "C87_create",
    "C87_base",
    "C87_iterations",
    "C87_sample",
    "C87_deviation_refuted"
   ],
   "note": "with exact real arithmetic; rounding of doubles is not modelled. That the sum of all tabulated densities is at most 1 is not proved (only below 2); C87_deviation_refuted: deviations between s_base and sqrt 2 s_base are not honoured"
  },
  {
   "property": "C88",
   "status": "proved",
   "theorems": [
    "C88_rns_polynomial",
    "C88_rns_basis",
    "C88_rns_ciphertext",
    "C88_single",
    "C88_balanced_refuted",
    "C88_set_pad_accepted",
    "C88_rns_setup",
    "C88_rns_keys",
    "C88_single_2",
    "C88_is_valid"
   ],
   "note": "the counterpart, that fit arguments are accepted, is part of the correctness theorems (C50-C66)"
  },
  {
   "property": "C89",
   "status": "proved",
   "theorems": [
    "C89_wrap",
    "C89_unwrap",
    "C89_round_trip",
    "C89_bgv",
    "C89_bfv",
    "C89_wrap_circuit",
    "C89_narrow_refuted",
    "C89_minus_one_refuted",
    "C89_below_accepted"
   ],
   "note": "The signed conversions of the finite-field encoder, with C++ integer conversions; whole computations through C76 and C77. Two false expectations are recorded as _refuted and one missing check as _accepted."
  },
  {
   "property": "C90",
   "status": "proved",
   "theorems": [
    "C90_encrypt",
    "C90_same_randomness",
    "C90_pad",
    "C90_history",
    "C90_public",
    "C90_rns_polynomial_bgv",
    "C90_rns_bgv",
    "C90_rns_bfv",
    "C90_rns_bfv_one_generator",
    "C90_rns_public_bgv",
    "C90_rns_public_bfv"
   ],
   "note": "Equations between runs, for success, failure and generator state alike. 16-bit words are excluded because the fused multiply-add can overflow there (C06). For the RNS BFV and public-key functions the encryption of zero is an existentially quantified function of the generator state that mentions neither encoder nor messages."
  },
  {
   "property": "C91",
   "status": "proved",
   "theorems": [
    "C91_error",
    "C91_double",
    "C91_exact",
    "C91_exact_small",
    "C91_nearest_below",
    "C91_monotone",
    "C91_float",
    "C91_nearest_refuted"
   ],
   "note": "Conversions of uint256 to float, double and long double over IEEE 754 round-to-nearest. C91_nearest_refuted: from 2^128 on the double is not always the nearest."
  },
  {
   "property": "C92",
   "status": "proved",
   "theorems": [
    "C92_power",
    "C92_decrypts",
    "C92_back",
    "C92_mismatch",
    "C92_galois_mismatch",
    "C92_defined",
    "C92_relinearize_refuted"
   ],
   "note": "C92_relinearize_refuted: RelinearizationKey::ApplyTo does not compare powers, so wf demands it of the caller; keys for another power are accepted and the result decrypts wrongly under both keys."
  },
  {
   "property": "C93",
   "status": "proved",
   "theorems": [
    "C93_mask",
    "C93_error",
    "C93_key",
    "C93_encrypt",
    "C93_outcomes",
    "C93_pad_uniform"
   ],
   "note": "Ring elements exactly uniform, errors and keys exactly independent centred binomials, fresh ciphertexts determined by independent mask and error. RNS ciphertexts, public-key encryptions and 16-bit words are not covered (C26 gives the range of the error for 16-bit words)."
  },
  {
   "property": "C94",
   "status": "proved",
   "theorems": [
    "C94_uniform",
    "C94_error",
    "C94_key",
    "C94_encrypt_bgv",
    "C94_encrypt_bfv",
    "C94_pad_uniform"
   ],
   "note": "Exact counts over all byte tapes; public-key and two-generator BFV encryption are not counted."
  },
  {
   "property": "C95",
   "status": "proved",
   "theorems": [
    "C95_report",
    "C95_lazy_equals_eager",
    "C95_rns_report",
    "C95_rns_lazy_report",
    "C95_rns_lazy_refuted"
   ],
   "note": "All eager versions and the one-modulus lazy version follow the rule; C95_rns_lazy_report gives the exact report of the RNS lazy version, which leaves out the first operand, and C95_rns_lazy_refuted shows the sum is nevertheless complete."
  },
  {
   "property": "C96",
   "status": "proved",
   "theorems": [
    "C96_residues",
    "C96_uniform",
    "C96_ternary",
    "C96_encrypt_bgv",
    "C96_encrypt_bfv",
    "C96_almost_surely",
    "C96_more_attempts"
   ],
   "note": "Finished means the call returned a value within the given attempts. The generator is an ideal tape of bytes; what the generators of the code do with a seed is C37."
  },
  {
   "property": "C97",
   "status": "proved",
   "theorems": [
    "C97_encrypt_bgv",
    "C97_encrypt_bfv",
    "C97_never_fails",
    "C97_second_component"
   ],
   "note": "Pairs of triples that give the same ciphertext are not excluded, which is why the distribution is stated through tests. The tape is ideal randomness."
  },
  {
   "property": "C98",
   "status": "proved",
   "theorems": [
    "C98_pads",
    "C98_public",
    "C98_galois",
    "C98_relin",
    "C98_never_fails"
   ],
   "note": "The seeds are the tapes here: the expansion of a seed by HKDF or ChaCha is not treated as randomness. The fact that b alone looks uniform is the RLWE assumption and not claimed."
  },
  {
   "property": "C99",
   "status": "proved",
   "theorems": [
    "C99_pads",
    "C99_encrypt",
    "C99_public",
    "C99_relin",
    "C99_never_fails"
   ],
   "note": "the two tapes of a key (pads and errors) are counted separately: the errors given the pads, the pads by themselves"
  },
  {
   "property": "C100",
   "status": "proved",
   "theorems": [
    "C100_encrypt",
    "C100_never_fails"
   ],
   "note": "For every test on the whole list of first components, given the masks; expansion from the same seed included. The masks are uniform by C99_pads. 16-bit moduli are excluded because fused multiply-add has undefined behaviour there (C06)."
  },
  {
   "property": "C101",
   "status": "proved",
   "theorems": [
    "C101_forward_shorter",
    "C101_round_trip_shorter",
    "C101_round_trip_shorter_refuted",
    "C101_longer",
    "C101_tiny"
   ],
   "note": "Every power-of-two length. That shorter vectors round trip is refuted (C101_round_trip_shorter_refuted, for all parameters and all vectors with non-zero constant coefficient); other lengths are C16_bad_length."
  },
  {
   "property": "C102",
   "status": "proved",
   "theorems": [
    "C102_history"
   ],
   "note": "The joint distribution of any number of Encrypt calls on one generator; C93 is the single call."
  },
  {
   "property": "C103",
   "status": "proved",
   "theorems": [
    "C103_history"
   ],
   "note": "Sequences of BGV and BFV secret-key encryptions with one generator; BFV with the same generator for mask and error."
  }
 ]
}