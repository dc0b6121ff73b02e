{"id": "C01", "title": "Bit utilities compute the true bit count and bit length", "statement": "CountOnes64(x) is the number of 1 bits of x, CountLeadingZeros64(x) is the number of zero bits above the top set bit (64 for 0), and BitLength(x) is the unique b with 2^(b-1) <= x < 2^b (0 for x=0), for every 64-bit and 128-bit value.", "quantifier": "all 64-bit and all 128-bit unsigned values", "why_tests_cant": "2^64 and 2^128 inputs; the SWAR/byte-table code paths differ per byte pattern", "anchors": ["shell_encryption/bits_util.h:CountOnesInByte,CountOnes64,CountLeadingZeros64,BitLength"]}
{"id": "C02", "title": "Montgomery parameter creation accepts exactly the supported moduli and derives consistent constants", "statement": "MontgomeryIntParams<T>::Create(m) succeeds exactly when m is odd and m < 2^(bits-2); and then log_modulus is the bit length of m, and r*inv_r - m*inv_modulus = 1 with r = 2^bits, and all Barrett constants are the exact floor quotients.", "quantifier": "all moduli of each word size 16, 32, 64, 128", "why_tests_cant": "the number of moduli is astronomically large; the inverse loop is iterative and its invariant depends on the modulus", "anchors": ["shell_encryption/montgomery.cc:MontgomeryIntParams::Create,Inverses", "shell_encryption/montgomery.h:MontgomeryIntParams"]}
{"id": "C03", "title": "Import then export is reduction modulo the modulus", "statement": "For every accepted modulus m and every machine word n, ImportInt(n).ExportInt() = n mod m, and the stored representation is fully reduced; ImportZero and ImportOne export to 0 mod m and 1 mod m.", "quantifier": "all moduli accepted by Create, all machine words n", "why_tests_cant": "cross product of all moduli and all words; Barrett quotient error depends on both", "anchors": ["shell_encryption/montgomery.cc:ImportInt,ImportZero,ImportOne", "shell_encryption/montgomery.h:ExportInt"]}
{"id": "C04", "title": "Modular arithmetic on Montgomery integers is arithmetic modulo the modulus", "statement": "For all Montgomery integers produced by the API, ExportInt of Add, Sub, Negate, Mul is the sum, difference, negation, product of the exported values modulo m, with no internal overflow affecting the result.", "quantifier": "all accepted moduli, all pairs of reachable representations", "why_tests_cant": "carry/overflow corner cases exist only for particular modulus/operand combinations", "anchors": ["shell_encryption/montgomery.h:AddInPlace,SubInPlace,NegateInPlace,MulInPlace,BarrettReduce"]}
{"id": "C05", "title": "Equality of Montgomery integers is equality of the numbers they represent", "statement": "operator== on two Montgomery integers obtained through the API returns true iff their exported values are equal.", "quantifier": "all accepted moduli and all pairs of API-reachable values", "why_tests_cant": "the failing representations are not produced by random testing except with probability about 1/m", "anchors": ["shell_encryption/montgomery.h:operator==,Negate,NegateInPlace"]}
{"id": "C06", "title": "Precomputed-constant and fused multiplication agree with plain multiplication and addition", "statement": "MulConstant with GetConstant(b) equals Mul by b even for lazily reduced operands in [0,4m]; FusedMulAddInPlace(a,b) equals Mul then Add; FusedMulConstantAddInPlace equals the same; all without undefined behaviour, for every supported word size.", "quantifier": "all accepted moduli, all operands in the documented ranges, word sizes 16, 32, 64, 128", "why_tests_cant": "rounding error of the precomputed quotient and integer promotion issues occur only for specific operand magnitudes", "anchors": ["shell_encryption/montgomery.h:MulConstantInPlace,FusedMulAddInPlace,FusedMulConstantAddInPlace,LazyAddInPlace,LazySubInPlace", "shell_encryption/montgomery.cc:GetConstant"]}
{"id": "C07", "title": "Exponentiation and inversion are correct", "statement": "ModExp(e) exports to a^e mod m for every word e. MultiplicativeInverse returns a^-1 for every prime m and a not divisible by m. MultiplicativeInverseFast returns an inverse iff gcd(a,m)=1, returns an error otherwise, always terminates, never overflows.", "quantifier": "all accepted moduli, all elements, all exponents", "why_tests_cant": "termination and overflow freedom of the Euclidean loop for all operands cannot be enumerated", "anchors": ["shell_encryption/montgomery.cc:ModExp,MultiplicativeInverse,MultiplicativeInverseFast"]}
{"id": "C08", "title": "Batch operations are elementwise and reject mismatched lengths", "statement": "Every Batch* operation on vectors of equal length returns the vector of elementwise results; on mismatched lengths it returns InvalidArgument and leaves its in-place argument unchanged.", "quantifier": "all vectors of all lengths", "why_tests_cant": "unbounded vector lengths", "anchors": ["shell_encryption/montgomery.cc:BatchAdd,BatchSub,BatchMul,BatchMulConstant,BatchFusedMulAdd,BatchFusedMulConstantAdd"]}
{"id": "C09", "title": "TranscribeBits preserves the bit stream", "statement": "When TranscribeBits succeeds, the first input_bit_length bits of the input (least-significant-first within each chunk) equal the first input_bit_length bits of the output, remaining output bits are zero, output length is ceil(bits/output_chunk), and transcribing back recovers the input. It fails exactly on the documented bad arguments.", "quantifier": "all inputs, all bit lengths and all input/output chunk sizes that fit the element types", "why_tests_cant": "product of unbounded lengths with all chunk-size pairs and alignments", "anchors": ["shell_encryption/transcription.h:TranscribeBits"]}
{"id": "C10", "title": "Serialization of Montgomery integers and vectors round-trips", "statement": "Deserialize(Serialize(x)) = x and DeserializeVector(n, SerializeVector(v)) = v for every valid element / vector of 1..2^15 elements; the serialized size is ceil(n*log_modulus/8) bytes; too short input is rejected.", "quantifier": "all accepted moduli, all vectors", "why_tests_cant": "unbounded vectors and all bit alignments", "anchors": ["shell_encryption/montgomery.cc:Serialize,SerializeVector,Deserialize,DeserializeVector"]}
{"id": "C11", "title": "Deserialization never yields an out-of-range Montgomery integer", "statement": "Deserialize/DeserializeVector either fail or return elements on which all modular operations behave as arithmetic mod m.", "quantifier": "all byte strings", "why_tests_cant": "all byte strings cannot be enumerated", "anchors": ["shell_encryption/montgomery.cc:Deserialize,DeserializeVector"]}
{"id": "C12", "title": "uint256 arithmetic is arithmetic modulo 2^256", "statement": "+,-,*,unary minus,++,--,&,|,^,~,<<,>>,comparisons on uint256 agree with integer arithmetic modulo 2^256; / and % are exact quotient and remainder; division by zero is the only failure.", "quantifier": "all pairs of 256-bit values, all shift amounts", "why_tests_cant": "2^512 operand pairs; carries between 64/128-bit halves", "anchors": ["shell_encryption/int256.h:uint256", "shell_encryption/int256.cc:DivModImpl,Fls64,Fls128"]}
{"id": "C13", "title": "uint256 printing produces the positional representation", "statement": "Streaming a uint256 in decimal, hex or octal prints exactly the digits of the value without spurious leading zeros (0 prints as 0).", "quantifier": "all 256-bit values, all three bases", "why_tests_cant": "inner zero padding only matters for rare values", "anchors": ["shell_encryption/int256.cc:operator<<"]}
{"id": "C14", "title": "Random sampling modulo m is in range and exactly uniform", "statement": "ImportRandom returns a value in [0,m), and over all equally likely bit strings drawn in one attempt, every value in [0,m) is produced by exactly the same number of strings; it consumes only the bits it needs in a deterministic order.", "quantifier": "all accepted moduli, all PRNG output streams", "why_tests_cant": "uniformity is a counting statement over all streams", "anchors": ["shell_encryption/montgomery.h:ImportRandom,GenerateRandomInt"]}
{"id": "C15", "title": "NTT parameters are well formed", "statement": "When InitializeNttParameters succeeds for a prime modulus, the root psi has order exactly 2n modulo the modulus, the tables hold the bit-reversed powers of psi and of its inverse with their constant-multiplication companions, and n_inv * n = 1 mod m; it fails for unsupported log_n or modulus not 1 mod 2n.", "quantifier": "all prime moduli and all log_n in 1..15 (and all rejected arguments)", "why_tests_cant": "table contents depend on modulus and n; cannot be enumerated", "anchors": ["shell_encryption/ntt_parameters.h:InitializeNttParameters,PrimitiveNthRootOfUnity,NttPsisBitrev,NttPsisInvBitrev", "shell_encryption/ntt_parameters.cc:Bitrev"]}
{"id": "C16", "title": "The forward NTT evaluates the polynomial at the odd powers of psi", "statement": "ConvertToNtt(coeffs) at position i exports to the value of the polynomial at psi^(2*bitrev(i)+1) modulo m, for every coefficient vector, and no intermediate lazy value overflows the machine word.", "quantifier": "all valid parameters, all coefficient vectors of length n = 2^log_n", "why_tests_cant": "all vectors, all n, lazy-reduction overflow", "anchors": ["shell_encryption/dft_transformations.h:IterativeCooleyTukey,ForwardNumberTheoreticTransform", "shell_encryption/polynomial.h:ConvertToNtt"]}
{"id": "C17", "title": "Inverse NTT inverts the NTT", "statement": "InverseNtt(ConvertToNtt(v)) exports the same coefficients as v and ConvertToNtt(InverseNtt(p)) exports the same values as p.", "quantifier": "all valid parameters, all vectors of length n", "why_tests_cant": "all vectors and n", "anchors": ["shell_encryption/dft_transformations.h:IterativeGentlemanSande,InverseNumberTheoreticTransform", "shell_encryption/polynomial.h:InverseNtt"]}
{"id": "C18", "title": "Polynomial multiplication is negacyclic convolution; addition, subtraction and negation are coefficientwise", "statement": "For NTT polynomials, InverseNtt of Mul is the product modulo X^n+1 and m of the operands' coefficient vectors; Add/Sub/Negate/scalar Mul/fused ops are the coefficientwise operations; mismatched lengths are rejected.", "quantifier": "all pairs of polynomials of equal length", "why_tests_cant": "all polynomials", "anchors": ["shell_encryption/polynomial.h:Mul,MulInPlace,Add,Sub,Negate,FusedMulAddInPlace,FusedMulConstantAddInPlace,MulConstant"]}
{"id": "C19", "title": "Substitute computes f(x^k)", "statement": "Substitute(power) on an NTT polynomial yields the NTT form of f(x^power) mod x^n+1 for every odd power in (0,2n), and rejects even or out-of-range powers.", "quantifier": "all polynomials, all powers", "why_tests_cant": "n * 2^.. powers and all polynomials", "anchors": ["shell_encryption/polynomial.h:Substitute"]}
{"id": "C20", "title": "Polynomial serialization round-trips and validates its length", "statement": "Deserialize(Serialize(p)) = p for 1..2^15 coefficients, and malformed coefficient counts are rejected.", "quantifier": "all polynomials", "why_tests_cant": "unbounded", "anchors": ["shell_encryption/polynomial.h:Serialize,Deserialize"]}
{"id": "C21", "title": "Lazy polynomial accumulation is exact for any number of operations", "statement": "After any sequence of FusedMulAddInPlace calls on a LazyPolynomial, Export equals the sum of all products modulo m, with no overflow of the double-width accumulators.", "quantifier": "all sequences of operations of any length, all moduli", "why_tests_cant": "overflow only appears after many operations with extreme operands", "anchors": ["shell_encryption/opt/lazy_polynomial.h:LazyPolynomial"]}
{"id": "C22", "title": "Balanced modulus conversion preserves the signed value", "statement": "ConvertModulusBalanced maps x mod q, read as the signed integer in (-q/2, q/2], to the same signed integer mod p; ConvertModulus maps the non-negative representative.", "quantifier": "all pairs of odd moduli, all coefficient vectors", "why_tests_cant": "all moduli pairs with p<q, p>q", "anchors": ["shell_encryption/modulus_conversion.h:ConvertModulusBalanced,ImportBalancedModularInt,ConvertModulus"]}
{"id": "C23", "title": "Gadget decomposition recomposes", "statement": "BaseDecompose(v, log_base, GadgetSize) gives digits in [0,2^log_base) with sum digit_i * 2^(i*log_base) = v exactly, for every coefficient.", "quantifier": "all moduli, all bases 1..log_modulus, all vectors", "why_tests_cant": "all combinations", "anchors": ["shell_encryption/gadget.h:GadgetSize,BaseDecompose"]}
{"id": "C24", "title": "Error sampling stays within its bound and has the exact centered binomial distribution", "statement": "For every modulus of at least 2*variance, SampleFromErrorDistribution returns num_coeffs coefficients each representing an integer in [-2*variance, 2*variance] equal to the difference of two popcounts of 2*variance fresh random bits, hence (once the modulus exceeds 4*variance) exactly centred binomial with mean 0 and the requested variance; variance > 256 is rejected.", "quantifier": "all moduli, variances, PRNG streams", "why_tests_cant": "distributional claim over all streams; small modulus wrap-around", "anchors": ["shell_encryption/sample_error.h:SampleFromErrorDistribution"]}
{"id": "C25", "title": "Error removal recovers the message exactly when the noise is below q/2", "statement": "RemoveError returns m whenever each coefficient is (m + t*e) mod q with -q/2 < m+t*e <= q/2 and 0 <= m < t; MeasureError returns the infinity norm of the centered vector.", "quantifier": "all odd q, all t <= q, all noise within the bound", "why_tests_cant": "boundary values", "anchors": ["shell_encryption/symmetric_encryption.h:RemoveError,MeasureError"]}
{"id": "C26", "title": "Symmetric encryption decrypts to the plaintext", "statement": "Decrypt(key, Encrypt(key, m)) = m for every key, message with coefficients in [0,t), every randomness, whenever the error bound t/2-ish condition |m + t e| < q/2 holds (in particular whenever t*(2*variance)+t <= q/2).", "quantifier": "all keys, plaintexts, PRNG streams, parameters satisfying the noise condition", "why_tests_cant": "all randomness", "anchors": ["shell_encryption/symmetric_encryption.h:Encrypt,Decrypt,internal::ExtractErrorAndMessage"]}
{"id": "C27", "title": "Homomorphic addition, subtraction decrypt to sum, difference", "statement": "For ciphertexts of any (possibly different) number of components under the same key, Add/Sub decrypt to the sum/difference modulo t as long as the combined noise stays below q/2; ciphertexts with different key powers are rejected.", "quantifier": "all ciphertexts of all lengths", "why_tests_cant": "unbounded ciphertext lengths and histories", "anchors": ["shell_encryption/symmetric_encryption.h:AddInPlace,SubInPlace"]}
{"id": "C28", "title": "Homomorphic absorb and multiplication decrypt to the ring product", "statement": "Multiplying a ciphertext by a plaintext polynomial, a scalar, or another ciphertext yields a ciphertext whose decryption is the product of the plaintexts modulo (x^n+1, t), as long as the product of the noisy plaintexts stays below q/2; empty ciphertexts are rejected.", "quantifier": "all ciphertexts of all lengths, all plaintexts", "why_tests_cant": "unbounded", "anchors": ["shell_encryption/symmetric_encryption.h:AbsorbInPlace,operator*,FusedAbsorbAddInPlace"]}
{"id": "C29", "title": "Lazy fused absorption equals eager fused absorption", "statement": "Any sequence of FusedAbsorbAddInPlaceLazily calls followed by MergeLazyOperations leaves the ciphertext equal to the same sequence of FusedAbsorbAddInPlace calls; never reads out of bounds.", "quantifier": "all sequences of (ciphertext, polynomial) pairs with any component counts", "why_tests_cant": "order/length mix of histories", "anchors": ["shell_encryption/symmetric_encryption.h:FusedAbsorbAddInPlaceLazily,MergeLazyOperations"]}
{"id": "C30", "title": "Modulus switching preserves the plaintext", "statement": "SwitchModulus from p to q on ciphertext components changes each coefficient c to c' with c' = c mod t (as integers in the centred sense used at decryption) and |c' - c*q/p| <= (t+3)/2, and the switched ciphertext decrypts to the same plaintext when the scaled noise plus this rounding stays below q/2; mismatched p,q mod t is rejected. Key SwitchModulus keeps the signed coefficients.", "quantifier": "all ciphertexts, all p >= q with p = q mod t", "why_tests_cant": "rounding boundaries", "anchors": ["shell_encryption/symmetric_encryption.h:SwitchModulus"]}
{"id": "C31", "title": "Relinearization preserves the decryption up to bounded noise", "statement": "RelinearizationKey::ApplyTo maps a k-component ciphertext to a 2-component one with phase equal to the old phase plus t times a sum of digit*error products, so it decrypts to the same message under the noise condition; wrong length ciphertexts are rejected.", "quantifier": "all keys, ciphertexts, decomposition bases, PRNG streams", "why_tests_cant": "unbounded", "anchors": ["shell_encryption/relinearization_key.cc:Create,ApplyTo"]}
{"id": "C32", "title": "Galois key switching maps a substituted ciphertext back to the original key", "statement": "GaloisKey::ApplyTo(ct.Substitute(k)) decrypts under the original key to p(x^k), within the noise bound; the ciphertext's PowerOfS must match or the call is rejected; PowerOfS becomes 1.", "quantifier": "all keys, ciphertexts, odd powers", "why_tests_cant": "unbounded", "anchors": ["shell_encryption/galois_key.h:ApplyTo", "shell_encryption/symmetric_encryption.h:Substitute"]}
{"id": "C33", "title": "Oblivious expansion turns encrypted monomials into a selection vector", "statement": "ExpandCiphertext on a ciphertext whose phase is m(x) yields 2^levels ciphertexts, the j-th having noiseless phase 2^levels * (part of m at exponents = j mod 2^levels shifted to constant positions); with the normalizer this yields 1 at the selected index and 0 elsewhere. Output-length checks reject invalid requests.", "quantifier": "all levels, all plaintexts", "why_tests_cant": "exponential number of index combinations", "anchors": ["shell_encryption/oblivious_expand.h:ObliviousExpand,ExpandCiphertext"]}
{"id": "C34", "title": "ComputeNormalizer returns the inverse of 2^k modulo 2^log_t+1", "statement": "ComputeNormalizer(k, log_t) * 2^k = 1 mod (2^log_t + 1), and the result is in range.", "quantifier": "all k >= 0, all log_t in 1..62", "why_tests_cant": "two unbounded parameters", "anchors": ["shell_encryption/oblivious_expand.h:ComputeNormalizer"]}
{"id": "C35", "title": "MakeCompressedVector places each index at the right coefficient", "statement": "The returned polynomials have coefficient 1 exactly at (index / f, index mod f) for the requested indices and 0 elsewhere; out-of-range arguments are rejected.", "quantifier": "all sizes, index lists, compression factors", "why_tests_cant": "unbounded index lists", "anchors": ["shell_encryption/oblivious_expand.h:MakeCompressedVector"]}
{"id": "C36", "title": "Public-key encryption decrypts to the plaintext", "statement": "Decrypt(sk, pk.Encrypt(m)) = m when the noise |m + t(v e + e0 + s e1)| < q/2; non-positive variance is rejected; pk serialization round-trips.", "quantifier": "all keys, plaintexts, randomness", "why_tests_cant": "all randomness", "anchors": ["shell_encryption/public_key_encryption.cc:Create,Encrypt,Serialize,Deserialize"]}
{"id": "C37", "title": "PRNG outputs are a fixed stream determined by the seed", "statement": "For any sequence of Rand8/Rand64 calls reading at most (2^31-1) blocks of 8160 bytes, the outputs read consecutive non-overlapping bytes of the stream block(0)||block(1)||..., Rand64 being little-endian, so replaying with the same seed gives identical results; no two blocks use the same nonce or salt; wrong seed sizes are rejected; for the thread-safe classes every interleaving of calls is equivalent to a sequential order of the same calls.", "quantifier": "all seeds, all call histories, and for the thread-safe variants all interleavings of calls", "why_tests_cant": "all histories/schedules", "anchors": ["shell_encryption/prng/chacha_prng_util.cc", "shell_encryption/prng/hkdf_prng_util.cc", "shell_encryption/prng/chacha_prng.cc", "shell_encryption/prng/hkdf_prng.cc"]}
{"id": "C38", "title": "Seed-compressed ciphertexts expand to the original ciphertexts", "statement": "ExpandFromPrng(EncryptWithPrng(m_i)) with the same seed produces ciphertexts that decrypt to m_i, for any number of ciphertexts, in order.", "quantifier": "all lists of plaintexts, all seeds", "why_tests_cant": "unbounded list length", "anchors": ["shell_encryption/symmetric_encryption_with_prng.h:EncryptWithPrng,ExpandFromPrng"]}
{"id": "C39", "title": "Key serialization round-trips", "statement": "Deserialize(Serialize(k)) behaves identically to k for relinearization, Galois, auxiliary-modulus relinearization and auxiliary-modulus Galois keys of every supported length; malformed sizes are rejected.", "quantifier": "all keys, all numbers of parts", "why_tests_cant": "number of parts unbounded", "anchors": ["shell_encryption/relinearization_key.cc:Serialize,Deserialize", "shell_encryption/aux_relinearization_key.cc:Serialize,Deserialize", "shell_encryption/galois_key.h", "shell_encryption/aux_galois_key.h"]}
{"id": "C40", "title": "Auxiliary-modulus relinearization preserves the decryption up to bounded noise", "statement": "AuxModRelinearizationKey::ApplyTo yields (c0',c1') with p*(phase' ) = p*phase + t*(errors) + rounding multiples of t, so it decrypts to the same message under the noise condition.", "quantifier": "all keys, ciphertexts, auxiliary moduli", "why_tests_cant": "unbounded", "anchors": ["shell_encryption/aux_relinearization_key.cc:ApplyTo,ConvertToMainModulus"]}
{"id": "C41", "title": "Uniform ternary sampling is in range and exactly uniform", "statement": "SampleFromUniformTernary returns num_coeffs values each representing -1, 0 or 1; conditioned on acceptance each value has the same number of generating bit patterns in every round.", "quantifier": "all PRNG streams, all lengths", "why_tests_cant": "counting over all streams", "anchors": ["shell_encryption/sampler/uniform_ternary.h:SampleFromUniformTernary"]}
{"id": "C42", "title": "Discrete Gaussian sampling combines base samples by the documented recursion", "statement": "SampleIIterative equals the recursive SampleI definition; base samples lie in [-b, b+1]; the table lookup returns the unique CDT index.", "quantifier": "all CDTs, PRNG streams, iteration counts", "why_tests_cant": "unbounded tables and streams", "anchors": ["shell_encryption/sampler/discrete_gaussian.cc:FindInCdt,SampleBase,SampleIIterative,SampleWithIterations"]}
{"id": "C43", "title": "CRT interpolation reconstructs the unique residue", "statement": "CrtInterpolation returns for each coefficient the unique x in [0,Q) congruent to every residue, with modulus complements Q/q_i.", "quantifier": "all lists of pairwise coprime moduli, all residue vectors, with Q^2 fitting the big integer type", "why_tests_cant": "all moduli lists", "anchors": ["shell_encryption/rns/crt_interpolation.h:RnsModulusComplements,CrtInterpolation"]}
{"id": "C44", "title": "Ciphertext serialization round-trips", "statement": "Deserialize(Serialize(ct)) has the same components and power of s and decrypts identically, for 1..2^15 components of 1..2^15 coefficients; a message without components or with more than 2^15 is rejected and no message leads to undefined behaviour.", "quantifier": "all ciphertexts, all messages", "why_tests_cant": "The claim ranges over all keys, ciphertexts, randomness and messages; tests only sample a few.", "anchors": ["shell_encryption/symmetric_encryption.h:SymmetricRlweCiphertext::Serialize,Deserialize"]}
{"id": "C45", "title": "Secret key serialization round-trips", "statement": "Deserialize(variance, log_t, Serialize(key), params) is the key that was sampled; log_t above log_modulus - 1 is rejected.", "quantifier": "all sampled keys and parameters", "why_tests_cant": "The claim ranges over all keys, ciphertexts, randomness and messages; tests only sample a few.", "anchors": ["shell_encryption/symmetric_encryption.h:SymmetricRlweKey::Serialize,Deserialize"]}
{"id": "C46", "title": "Arithmetic on secret keys", "statement": "key.Add / key.Sub yield the key whose secret polynomial is the sum / difference modulo q and reject keys with another variance, log_t or plaintext modulus; encryptions that share their second component add to an encryption under the sum of the keys; NullKey has the zero secret, so its decryption returns the first component.", "quantifier": "all pairs of keys, all ciphertexts", "why_tests_cant": "The claim ranges over all keys, ciphertexts, randomness and messages; tests only sample a few.", "anchors": ["shell_encryption/symmetric_encryption.h:SymmetricRlweKey::Add,Sub,NullKey"]}
{"id": "C47", "title": "Equality of polynomials is equality of their coefficients", "statement": "operator== on two polynomials returns true exactly when they have the same length and the same coefficients modulo q.", "quantifier": "all polynomials obtained through the API", "why_tests_cant": "The claim ranges over all keys, ciphertexts, randomness and messages; tests only sample a few.", "anchors": ["shell_encryption/polynomial.h:operator==,operator!="]}
{"id": "C48", "title": "Substitution in the secret key matches substitution in the ciphertext", "statement": "key.Substitute(k) keeps the plaintext modulus and has secret s(x^k); ct.Substitute(k) decrypts under it to m(x^k) when the noise fits.", "quantifier": "all keys, odd powers in (0, 2n), ciphertexts", "why_tests_cant": "The claim ranges over all keys, ciphertexts, randomness and messages; tests only sample a few.", "anchors": ["shell_encryption/symmetric_encryption.h:SymmetricRlweKey::Substitute,SymmetricRlweCiphertext::Substitute"]}
{"id": "C49", "title": "An RNS context holds the CRT constants it documents", "statement": "RnsContext::Create, CreateForBgvFiniteFieldEncoding, CreateForBfv and CreateForBfvFiniteFieldEncoding, given distinct NTT-friendly primes, succeed only with tables where each stored constant has the documented value: inverses of each prime modulo the others, of P modulo each q_i, P mod q_i, the complements P/p_j modulo q_i and their inverses, and at every level l the residues of Q_l modulo the auxiliary primes, the complements Q_l/q_i and their inverses; the BFV factories add the values modulo the plaintext modulus. Levels out of range are an InvalidArgument error. A log dimension that is not positive and a zero plaintext modulus are rejected, and the finite-field factories reject an even plaintext modulus.", "quantifier": "all word sizes, dimensions, lists of distinct main and auxiliary primes, plaintext moduli, levels", "why_tests_cant": "The claim ranges over every list of primes, every ring dimension and every polynomial; tests fix one or two parameter sets and random samples.", "anchors": ["shell_encryption/rns/rns_context.h:RnsContext", "shell_encryption/rns/rns_context.cc:RnsContext::Create,GenerateRnsConstants"]}
{"id": "C50", "title": "RNS polynomial arithmetic is arithmetic in Z_Q[X]/(X^N+1)", "statement": "For pairwise distinct primes q_i with product Q, a tuple of residue polynomials represents exactly one polynomial with coefficients modulo Q, and every such polynomial is represented. Negate, Add, Sub, Mul by a scalar or an RNS integer, Mul and FusedMulAdd return the representation of the corresponding operation in Z_Q[X]/(X^N+1). Wrong numbers of components and coefficient-form inputs to Mul are errors.", "quantifier": "all lists of NTT-friendly moduli, dimensions, polynomials in either form, scalars", "why_tests_cant": "The claim ranges over every list of primes, every ring dimension and every polynomial; tests fix one or two parameter sets and random samples.", "anchors": ["shell_encryption/rns/rns_polynomial.h:RnsPolynomial::Add,Sub,Mul,Negate,FusedMulAddInPlace"]}
{"id": "C51", "title": "RNS polynomials: forms, substitution, constants, conversions and sampling", "statement": "ConvertToNttForm and ConvertToCoeffForm are mutually inverse and keep the represented polynomial; Substitute(p) with odd p in (0,2N) represents f(X^p) and rejects other powers; CreateZero and CreateOne represent 0 and 1; ConvertFromPolynomialCoeffs and its balanced variant represent the given coefficients (as residues, or as centred representatives); Create accepts exactly nonempty lists of equal power-of-two length; SampleUniform yields reduced residues.", "quantifier": "all moduli, dimensions, polynomials, powers, coefficient vectors, pseudo-random streams", "why_tests_cant": "The claim ranges over every list of primes, every ring dimension and every polynomial; tests fix one or two parameter sets and random samples.", "anchors": ["shell_encryption/rns/rns_polynomial.h:RnsPolynomial::ConvertToNttForm,ConvertToCoeffForm,Substitute,Create,CreateZero,CreateOne,ConvertFromPolynomialCoeffs,ConvertBalancedFromPolynomialCoeffs,SampleUniform"]}
{"id": "C52", "title": "RNS polynomial serialization round-trips", "statement": "Deserialize(Serialize(a)) equals a for every polynomial; a successful Deserialize yields one vector of 2^log_n coefficients per modulus; a nonpositive log_n and a wrong number of vectors are errors.", "quantifier": "all moduli, polynomials, serialized messages", "why_tests_cant": "The claim ranges over every list of primes, every ring dimension and every polynomial; tests fix one or two parameter sets and random samples.", "anchors": ["shell_encryption/rns/rns_polynomial.h:RnsPolynomial::Serialize,Deserialize"]}
{"id": "C53", "title": "RNS modulus reduction divides by the last prime with the documented rounding", "statement": "ModReduceLsb(t) drops the last prime q and returns g with g congruent to f modulo t (t coprime to q) and |q g - (q mod t) f| at most t q / 2; ModReduceMsb returns f/q rounded to a nearest integer. Reducing with a single modulus or mismatched constants is an error.", "quantifier": "all moduli, dimensions, polynomials, plaintext moduli", "why_tests_cant": "The claim ranges over every list of primes, every ring dimension and every polynomial; tests fix one or two parameter sets and random samples.", "anchors": ["shell_encryption/rns/rns_polynomial.h:RnsPolynomial::ModReduceLsb,ModReduceMsb"]}
{"id": "C54", "title": "Approximate RNS basis switch is off by a bounded multiple of Q", "statement": "ApproxSwitchRnsBasis returns, modulo the output primes, an integer polynomial congruent to f modulo Q whose coefficients lie in [0, kQ), or in [-kQ/2, kQ/2] when balanced, where k is the number of input primes.", "quantifier": "all lists of input and output primes, dimensions, polynomials", "why_tests_cant": "The claim ranges over every list of primes, every ring dimension and every polynomial; tests fix one or two parameter sets and random samples.", "anchors": ["shell_encryption/rns/rns_polynomial.h:RnsPolynomial::ApproxSwitchRnsBasis"]}
{"id": "C55", "title": "Exact RNS basis switch", "statement": "SwitchRnsBasis returns, modulo the output primes, the centred representative of f modulo Q, provided each floating-point quotient rounds to a nearest integer; with floating-point relative error eps this holds for every coefficient whose centred representative is at most (1/2 - eps k (k+6)) Q in absolute value, k the number of primes. With the constants of an RnsContext this holds at every level.", "quantifier": "all lists of primes, dimensions, polynomials, floating-point arithmetics with bounded relative error", "why_tests_cant": "The claim ranges over every list of primes, every ring dimension and every polynomial; tests fix one or two parameter sets and random samples.", "anchors": ["shell_encryption/rns/rns_polynomial.h:RnsPolynomial::SwitchRnsBasis"]}
{"id": "C56", "title": "Extended and scaled RNS basis operations", "statement": "ExtendRnsBasis returns the centred representative of f over both prime sets; ScaleAndReduceRnsBasis(t) returns t f / P rounded to a nearest integer; ScaleAndSwitchRnsBasis returns P f / Q rounded to a nearest integer (both under the rounding condition of C55); ApproxModReduceMsb returns g with 0 <= f - P g < k P; ApproxModReduceLsb returns g congruent to f modulo t with |P g - (P mod t) f| at most t k P / 2.", "quantifier": "all lists of primes, dimensions, polynomials, plaintext moduli", "why_tests_cant": "The claim ranges over every list of primes, every ring dimension and every polynomial; tests fix one or two parameter sets and random samples.", "anchors": ["shell_encryption/rns/rns_polynomial.h:RnsPolynomial::ExtendRnsBasis,ScaleAndReduceRnsBasis,ScaleAndSwitchRnsBasis,ApproxModReduceMsb,ApproxModReduceLsb"]}
{"id": "C57", "title": "RNS error removal recovers the message", "statement": "RemoveErrorOnMsb(v, q, t) with 0 < t <= q maps every coefficient to its centred representative modulo q, reduced modulo t; hence it recovers m from m + t e modulo q whenever |m + t e| < q/2. A zero plaintext modulus is rejected.", "quantifier": "all word sizes, coefficient vectors, moduli 0 < t <= q, messages and errors", "why_tests_cant": "The claim ranges over every list of primes, every ring dimension and every polynomial; tests fix one or two parameter sets and random samples.", "anchors": ["shell_encryption/rns/error_correction.h:RemoveErrorOnMsb"]}
{"id": "C58", "title": "RNS ciphertext operations act on the decryption phase", "statement": "Write the phase of an RNS RLWE ciphertext (c_0,...,c_k) under key s as sum_i c_i s^i modulo Q, the product of its primes. Add and Sub of two ciphertexts (of possibly different lengths), Negate, AddPlaintext/SubPlaintext, Absorb of a plaintext, AbsorbScalar, FusedAbsorbAdd and BGV Mul produce ciphertexts whose phase is respectively the sum, difference, negation, sum/difference with the plaintext, product with the plaintext or scalar, the fused combination, and the ring product of the phases. Substitute(p) produces a ciphertext with power_of_s multiplied by p whose phase under s(X^p) is the phase with X replaced by X^p. Operands with different power_of_s or different moduli are rejected.", "quantifier": "all word sizes, RNS bases, ring dimensions, ciphertext lengths, secret keys, ciphertexts and plaintexts", "why_tests_cant": "The claim ranges over every list of primes, every ring dimension, every ciphertext length and every polynomial; tests fix one or two parameter sets and random samples.", "anchors": ["shell_encryption/rns/rns_ciphertext.h:RnsRlweCiphertext", "shell_encryption/rns/rns_bgv_ciphertext.h:RnsBgvCiphertext"]}
{"id": "C60", "title": "BGV modulus reduction keeps the message and shrinks the error", "statement": "RnsBgvCiphertext::ModReduce on a ciphertext with at least two primes, last prime q, and phase w gives a ciphertext over the remaining primes whose phase w' satisfies q w' = (q mod t) w + t d with 2|d| <= (q-1) (1 + |s| + ... + |s|^(len-1)), |s| being the l1 norm of the secret key. With a single prime it returns an error and changes nothing.", "quantifier": "all word sizes, RNS bases, ring dimensions, plaintext moduli invertible modulo every prime, ciphertext lengths, keys and ciphertexts", "why_tests_cant": "The claim ranges over every list of primes, every ring dimension, every ciphertext length and every polynomial; tests fix one or two parameter sets and random samples.", "anchors": ["shell_encryption/rns/rns_bgv_ciphertext.h:ModReduce", "shell_encryption/rns/rns_polynomial.h:ModReduceLsb"]}
{"id": "C68", "title": "Lazy accumulation equals eager accumulation", "statement": "Accumulating any number of products of polynomials in a lazy RNS polynomial and exporting gives exactly the sum of the ring products, however many products are accumulated: the big-integer accumulators never overflow because they are reduced in time. The same holds for FusedAbsorbAddInPlaceLazily on ciphertexts followed by a merge. Products with mismatched moduli or not in NTT form are rejected.", "quantifier": "all word sizes, RNS bases, ring dimensions, numbers of accumulated products and operands", "why_tests_cant": "Overflow of the accumulator depends on the number of accumulated products and on the largest residues; tests accumulate a few random products.", "anchors": ["shell_encryption/rns/lazy_rns_polynomial.h:LazyRnsPolynomial", "shell_encryption/rns/rns_ciphertext.h:FusedAbsorbAddInPlaceLazily"]}
{"id": "C59", "title": "RNS secret-key encryption and decryption", "statement": "RnsRlweSecretKey::Sample gives a key that is one small integer polynomial s, with coefficients at most 2*variance in absolute value, represented over every prime. EncryptBgv returns the pair (m + t e + a s, -a) where a is the uniform pad and e an error with coefficients at most 2*variance; EncryptBfv returns (m + e + a s, -a). Decryption of a ciphertext with any number of components hands the decoder its phase c_0 + c_1 s + c_2 s^2 + ... ; ciphertexts for a substituted key, another degree or another number of primes are rejected. ModReduce on the key keeps s and drops the last prime, and is an error with one prime.", "quantifier": "all word sizes except 16 bits for encryption, RNS bases, ring dimensions, plaintext moduli, encoders, random generators, keys, messages, ciphertexts and ciphertext lengths", "why_tests_cant": "The claim ranges over every list of primes, every ring dimension, every generator output and every polynomial; tests fix one or two parameter sets and random samples.", "anchors": ["shell_encryption/rns/rns_secret_key.h:RnsRlweSecretKey", "shell_encryption/rns/rns_secret_key.cc:RnsRlweSecretKey"]}
{"id": "C61", "title": "BGV coefficient encoding, decoding and decryption", "statement": "CoefficientEncoder::EncodeBgv gives the polynomial whose coefficient i is the centred representative modulo t of message i; more messages than coefficients are rejected. DecodeBgv of a polynomial w at any level returns w_i mod t for every i, provided the bound that remains after dropping the primes one by one is below half of the first prime; the stronger claim that |w_i| below half of the product of the primes suffices is false. Hence decrypting a fresh encryption returns the messages followed by zeros.", "quantifier": "all word sizes, RNS contexts, levels, ring dimensions, plaintext moduli coprime to the primes, polynomials, keys, messages and random generators", "why_tests_cant": "The claim ranges over every list of primes, every ring dimension, every generator output and every polynomial; tests fix one or two parameter sets and random samples.", "anchors": ["shell_encryption/rns/coefficient_encoder.h:EncodeBgv", "shell_encryption/rns/coefficient_encoder.h:DecodeBgv", "shell_encryption/rns/rns_secret_key.h:DecryptBgv"]}
{"id": "C70", "title": "RNS sampling represents one small polynomial", "statement": "SampleError, SampleUniformTernary and SampleDiscreteGaussian return, for every generator output, RNS polynomials whose residues modulo all primes are those of one polynomial over the integers: with coefficients at most 2*variance in absolute value, in {-1,0,1}, and equal to the sampled signed integers, respectively. A non-positive log n or variance, or an empty list of primes, is an error.", "quantifier": "all word sizes, RNS bases, ring dimensions, variances, standard deviations and generator outputs", "why_tests_cant": "The claim ranges over every list of primes, every ring dimension, every generator output and every polynomial; tests fix one or two parameter sets and random samples.", "anchors": ["shell_encryption/rns/error_distribution.h:SampleError", "shell_encryption/rns/error_distribution.h:SampleUniformTernary", "shell_encryption/rns/error_distribution.h:SampleDiscreteGaussian"]}
{"id": "C62", "title": "BFV coefficient encoding, decoding and decryption", "statement": "CoefficientEncoder::EncodeBfv over all main primes gives the polynomial whose coefficient i is Q m_i / t rounded up (Q the product of the primes); without scaling, m_i mod t at any level; scaled encoding at a lower level and too many messages are rejected. DecodeBfv of a polynomial w at any level, in either form, returns m_i mod t whenever |t w_i - Q m_i| is below Q/2 minus the margin that the floating-point rounding errors require. Hence decrypting a ciphertext whose phase is close enough to Q m / t returns m, and decrypting a fresh encryption returns the messages followed by zeros, also for plaintext moduli that are not prime.", "quantifier": "all word sizes, RNS contexts, levels, ring dimensions, plaintext moduli coprime to the primes, floating-point models, polynomials, keys, messages and random generators", "why_tests_cant": "The claim ranges over every list of primes, ring dimension, polynomial and noise up to the bound, and depends on rounding near the boundary; tests use a few parameter sets and small random noise.", "anchors": ["shell_encryption/rns/coefficient_encoder.h:EncodeBfv", "shell_encryption/rns/coefficient_encoder.h:DecodeBfv", "shell_encryption/rns/rns_secret_key.h:DecryptBfv"]}
{"id": "C63", "title": "BFV ciphertext products, plaintext products and modulus reduction are correct", "statement": "Mul of two BFV ciphertexts over all main primes returns a ciphertext with one component less than the two together, and AbsorbInPlace of an encoded plaintext keeps the number of components. If t times each operand's phase is Q times its message up to an explicit noise, then t times the result's phase is Q times a polynomial congruent modulo t to the product of the messages modulo X^n + 1, up to an explicit noise bound that also covers the approximate basis conversions and their floating point. AbsorbInPlaceSimple multiplies by an unscaled plaintext at any level, and ModReduce drops the last prime, keeps the message and divides the noise by the prime up to a term in t and the key. So within the stated noise budget all of them decrypt to the product (or the message). Ciphertexts with other levels or powers of s, plaintexts not in NTT form or of another level, and ModReduce on one prime are refused with an error. Below the full list of main primes, Mul and AbsorbInPlace fail on every input: ModReduce cannot be followed by another product.", "quantifier": "all BFV contexts, levels, secret keys, ciphertexts of any number of components, plaintexts and floating-point operations with a stated relative error", "why_tests_cant": "tests multiply a few random ciphertexts at the top level; the rounding of the basis conversions depends on every coefficient and on the floating-point error", "anchors": ["shell_encryption/rns/rns_bfv_ciphertext.cc:Mul", "shell_encryption/rns/rns_bfv_ciphertext.cc:AbsorbInPlace", "shell_encryption/rns/rns_bfv_ciphertext.cc:AbsorbInPlaceSimple", "shell_encryption/rns/rns_bfv_ciphertext.h:ModReduce"]}
{"id": "C69", "title": "Finite field encoding works slot by slot", "statement": "For a prime plaintext modulus t, FiniteFieldEncoder::Create succeeds on every context made for finite field encoding with degree n up to 2^14. EncodeBgv and EncodeBfv turn at most n messages into a polynomial whose value at psi^(5^i), or psi^(-5^(i - n/2)) in the second half, is message i modulo t (0 beyond the messages). DecodeBgv and DecodeBfv return exactly these slot values whenever the noise is within the decoding bound, and DecodeBgvWithCrt whenever the noisy plaintext is below half the ciphertext modulus. Encryption followed by decryption gives back the messages, sums and products of ciphertexts act slot by slot, X -> X^(5^r) rotates each half of the slots and X -> X^(2n-1) exchanges the halves. Too many messages or no moduli are InvalidArgument. (For n = 2^15 Create overflows an int: refuted.)", "quantifier": "all contexts, prime plaintext moduli, degrees, levels, message vectors, polynomials and ciphertexts within the noise bounds, keys and PRNG outputs", "why_tests_cant": "tests use a few parameter sets and random vectors; the slot semantics must hold for every prime, degree, message vector and noise", "anchors": ["shell_encryption/rns/finite_field_encoder.cc:Create", "shell_encryption/rns/finite_field_encoder.cc:EncodeBgv", "shell_encryption/rns/finite_field_encoder.cc:DecodeBgv", "shell_encryption/rns/finite_field_encoder.h:DecodeBgvWithCrt", "shell_encryption/rns/finite_field_encoder.cc:EncodeBfv", "shell_encryption/rns/finite_field_encoder.cc:DecodeBfv"]}
{"id": "C67", "title": "RNS public-key encryption decrypts to the message", "statement": "A public key made by RnsRlwePublicKey Create from a secret key satisfies b + a s = t e for a small error e (t = 1 for BFV), and -a is exactly the uniform sample that the generator of the public seed gives. Encrypting with the public key and an encoder gives a two-component ciphertext whose phase is the encoded message plus t (e r + e' + e'' s) with fresh r, e', e'' of size at most twice the variance. Decrypting it with the secret key returns exactly the messages, padded with zeros, whenever the resulting explicit noise bound is below the decoding bound, for coefficient and finite field encoding (BGV) and coefficient encoding (BFV). A non-positive variance or an unknown PRNG type is InvalidArgument and encoder failures are passed on.", "quantifier": "all contexts, levels, secret keys, variances, seeds, PRNG outputs and message vectors within the noise bound", "why_tests_cant": "tests sample a few keys and messages; correctness must hold for every sampled error within its support", "anchors": ["shell_encryption/rns/rns_bgv_public_key.h:Create", "shell_encryption/rns/rns_public_key.cc:Create", "shell_encryption/rns/rns_bgv_public_key.h:Encrypt", "shell_encryption/rns/rns_bfv_public_key.h:Encrypt"]}
{"id": "C64", "title": "An RNS gadget decomposes every polynomial into small digits that recombine to it", "statement": "A gadget made by RnsGadget Create for a list of moduli, with log bases between 1 and 30, has a fixed number of components (the sum over the moduli of the number of base-2^b digits of each modulus). Decomposing any polynomial in coefficient form returns exactly that many polynomials in coefficient form, whose coefficients are bounded by the largest digit, and whose sum weighted by the gadget's components is the polynomial modulo the product of the moduli. The component for modulus q_i and digit j is 2^(j b_i) modulo q_i and 0 modulo the other moduli. With the context's own complements and CRT factors, Create succeeds at every level. Wrong lengths, an empty list, a non-positive log_n, and a polynomial in NTT form or with another number of moduli are InvalidArgument. A log base outside [1, 30] is undefined behaviour, not an error.", "quantifier": "all contexts, levels, log bases and polynomials", "why_tests_cant": "tests decompose a few random polynomials for a few bases; recombination must hold for every coefficient, including the boundary between the balanced halves", "anchors": ["shell_encryption/rns/rns_gadget.cc:Create", "shell_encryption/rns/rns_gadget.cc:Decompose", "shell_encryption/gadget.h:GadgetSize", "shell_encryption/gadget.h:BaseDecompose"]}
{"id": "C65", "title": "RNS Galois keys switch substituted ciphertexts back to the secret key and rotate the slots", "statement": "A key made by RnsGaloisKey CreateForBgv or CreateForBfv for an odd power p below 2n encrypts every gadget component times s(X^p) under s with small errors, and its random pads are those that its public seed determines. Applying it to any two-component ciphertext with phase w under s(X^p) gives a ciphertext under s with phase w + t E, where E is bounded by dimension * n * (digit bound) * (error bound) (t = 1 for BFV); the same holds when the digits and the random pad were computed in advance. Substituting X^p and then applying the key turns an encryption of f(X) into one of f(X^p), and for p = 5^r with finite field encoding decryption returns the slots rotated by r, for BGV and BFV, within the noise bound. Serialize followed by Deserialize with the same gadget and moduli returns the key. Even, negative or too large powers, non-positive variances, unknown PRNG types, and ciphertexts with another power, number of moduli or number of components are InvalidArgument. Deserialize does not check the number of components against the gadget.", "quantifier": "all contexts, levels, gadgets, secret keys, powers, seeds, PRNG outputs and ciphertexts", "why_tests_cant": "tests rotate a few random ciphertexts by a few powers; correctness must hold for every key, digit vector and sampled error within its support", "anchors": ["shell_encryption/rns/rns_galois_key.cc:CreateWithRandomPad", "shell_encryption/rns/rns_galois_key.cc:ApplyToRlweCiphertext", "shell_encryption/rns/rns_galois_key.cc:PrecomputeRandomPad", "shell_encryption/rns/rns_galois_key.cc:ApplyToRlweCiphertextWithRandomPad", "shell_encryption/rns/rns_galois_key.cc:Deserialize"]}
{"id": "C66", "title": "RNS relinearization shortens a product without changing what it decrypts to", "statement": "A key made by RnsRelinKey CreateForBgv or CreateForBfv for degree d holds, for each i from 2 to d, encryptions of every gadget component times s^i under s. Applying it to a ciphertext with two or three components (or with degree equal to the gadget's dimension, at most d) gives a two-component ciphertext with phase w + t E for an explicitly bounded E. So multiplying two BGV ciphertexts, relinearizing and decrypting returns the products of the slots, and relinearizing a three-component BFV ciphertext does not change what it decrypts to, within the noise bound. A degree below 2, an empty gadget, a non-positive variance, an unknown PRNG type, and ciphertexts of larger degree, with other moduli or with a power of s other than 1 are InvalidArgument. For ciphertexts of degree 3 or more whose degree differs from the gadget's dimension the claim fails: the key is indexed with the ciphertext's degree instead of the gadget's dimension, so the code reads past the end of the key or returns a ciphertext that decrypts wrongly.", "quantifier": "all contexts, levels, gadgets, degrees, secret keys, seeds, PRNG outputs and ciphertexts", "why_tests_cant": "tests relinearize a few products; correctness must hold for every key, digit vector and sampled error, and the tests only use degree 2", "anchors": ["shell_encryption/rns/rns_relinearization_key.cc:Create", "shell_encryption/rns/rns_relinearization_key.cc:CreateWithRandomPad", "shell_encryption/rns/rns_relinearization_key.cc:ApplyToRlweCiphertext"]}
{"id": "C71", "title": "The vectorised multiply-and-add equals the scalar one", "statement": "On vector units with a multiple of four lanes, BatchFusedMulAddMontgomeryRep adds a[i] * b[i] to output[i] modulo 2^64 (32-bit integers) or 2^128 (64-bit integers, with the carry from the low to the high lane) for every i below the size of a and leaves the other entries of output alone, whatever the number of coefficients, including those left over after the last full vector. So any number of LazyRnsPolynomial FusedMulAddInPlace calls with vector instructions gives the accumulators the scalar code gives, and Export the sum of all products. With two 64-bit lanes (128-bit vectors) the claim fails: the shuffle needs four lanes, and the low half of every second sum gets the high half of the previous product instead of its own product.", "quantifier": "all vector sizes, coefficient counts, coefficients, accumulators, contents of unspecified lanes and sequences of calls", "why_tests_cant": "a test run uses the one vector size of the machine it runs on and a few coefficient vectors; carries between lanes are rare on random data", "anchors": ["shell_encryption/rns/rns_polynomial_hwy.cc:BatchFusedMulAddMontgomeryRepHwy", "shell_encryption/rns/rns_polynomial_hwy.cc:BatchFusedMulAddMontgomeryRep", "shell_encryption/rns/lazy_rns_polynomial.cc:FusedMulAddInPlace"]}
{"id": "C72", "title": "RNS ciphertexts survive serialization, conversion and late pads; comparisons mean what they say", "statement": "RnsRlweCiphertext Serialize succeeds on every ciphertext with well-formed components (any number, any form) and Deserialize with the same moduli gives it back; operations pending since FusedAbsorbAddInPlaceWithoutPadLazily are silently not part of the message. ConvertToCoeffForm followed by ConvertToNttForm keeps what the ciphertext encrypts, and converting to NTT form a ciphertext that is in it is InvalidArgument. FusedAbsorbAddInPlaceWithoutPad updates only the first component; after SetPadComponent with the matching pad the ciphertext encrypts the sum of its own and the product. IsModulusSameAs holds exactly for equal lists of primes. operator== on RNS polynomials holds exactly when degree, form and all stored words agree; it can be false for equal polynomials (minus zero is not equal to zero). AppendCoeffVector and ReplaceSubPolynomialAt add and change one residue polynomial, and an index out of range is InvalidArgument.", "quantifier": "all moduli, ciphertexts of any degree, forms, polynomials, indices and sequences of these calls", "why_tests_cant": "tests round-trip a few ciphertexts; the claim is about every stored word pattern, including the two representations of zero, and every interleaving with pending operations", "anchors": ["shell_encryption/rns/rns_ciphertext.h:Serialize", "shell_encryption/rns/rns_ciphertext.h:Deserialize", "shell_encryption/rns/rns_ciphertext.h:FusedAbsorbAddInPlaceWithoutPad", "shell_encryption/rns/rns_ciphertext.h:SetPadComponent", "shell_encryption/rns/rns_ciphertext.h:IsModulusSameAs", "shell_encryption/rns/rns_polynomial.h:operator=="]}
{"id": "C73", "title": "RLWE contexts are created exactly for usable parameters", "statement": "For a prime modulus and log_n, log_t below 2^31, RlweContext::Create succeeds exactly when the modulus leaves the two top bits free, 1 <= log_n <= 15, the modulus is 1 modulo 2^(log_n+1), 1 <= log_t, 2^log_t <= modulus and variance <= 256, and is InvalidArgument otherwise. GetN is 2^log_n, GetT is 2^log_t+1. A key sampled from the context encrypts and decrypts every plaintext when the noise bound holds. CanModulusSwitchTo succeeds exactly when GetT divides the difference of the two moduli, which is exactly when the key's SwitchModulus succeeds, and then switching key and ciphertext preserves the decryption.", "quantifier": "every word size, prime modulus, log_n, log_t, variance, target modulus, generator, plaintext and ciphertext", "why_tests_cant": "The set of accepted parameter combinations and the ciphertexts under each are unbounded; tests create a handful of contexts.", "anchors": ["shell_encryption/context.h: RlweContext::Create, CanModulusSwitchTo, GetN, GetT", "shell_encryption/error_params.h: ErrorParams::Create"]}
{"id": "C74", "title": "The error a ciphertext reports bounds its true error, for linear operations", "statement": "For the symmetric scheme, if a ciphertext is built by any sequence of encryptions, additions, subtractions, scalar products and Galois rotations, and twice the error that error() reports (computed exactly) is below the modulus, then it decrypts to the corresponding combination of the plaintexts; this holds for variance up to 9N, for rotations variance up to 5 and decomposition base below 2^31. The error reported by public key encryption bounds the true error for variance up to 9, and so does the one reported after a modulus switch of a two-component ciphertext for variance up to 2. The reported error is not a bound after a plaintext or ciphertext product; it is undefined for a decomposition base of 2^32 or more; and the RNS estimates for fresh ciphertexts and scalar products are below the true error.", "quantifier": "every word size, modulus, degree, plaintext modulus, key, generator, seed and history of operations", "why_tests_cant": "A user who consults the reported error relies on it being an upper bound in the worst case; tests see typical noise only, which is far below the extreme.", "anchors": ["shell_encryption/error_params.h: ErrorParams::Create, B_plaintext, B_encryption, B_scale, B_relinearize, B_publickey_encryption", "shell_encryption/symmetric_encryption.h: error_ in Encrypt, operator+, operator-, operator*, AddInPlace, AbsorbInPlace, FusedAbsorbAddInPlace, SwitchModulus", "shell_encryption/relinearization_key.cc: ApplyTo", "shell_encryption/galois_key.h: ApplyTo", "shell_encryption/public_key_encryption.h: Encrypt", "shell_encryption/rns/rns_error_params.h", "shell_encryption/rns/rns_ciphertext.h: AbsorbInPlace"]}
{"id": "C75", "title": "Every computation on ciphertexts decrypts to the same computation on plaintexts", "statement": "Take any expression built from fresh ciphertexts (secret-key or public-key encryptions), additions, subtractions, scalar and plaintext products, fused absorptions, ciphertext products, relinearizations (gadget or auxiliary modulus), Galois rotations, modulus switches along a chain of keys made by SwitchModulus, and serialization round trips. If the worst-case error computed from the expression is below half the modulus of its level, the result decrypts to the same expression over the plaintext polynomials modulo t, whatever the intermediate errors. On words of 32 bits or more the whole computation succeeds whenever its fresh ciphertexts could be made.", "quantifier": "every expression of any size and depth, chain of moduli, word size, degree, plaintext modulus, keys, generators, seeds and plaintexts", "why_tests_cant": "The expressions are unbounded in size and the theorem is about worst-case noise; tests run a few fixed shapes with typical noise.", "anchors": ["shell_encryption/symmetric_encryption.h: Encrypt, Decrypt, SymmetricRlweCiphertext operators, AbsorbInPlace, FusedAbsorbAddInPlace, SwitchModulus, Serialize, Deserialize", "shell_encryption/public_key_encryption.h: Encrypt", "shell_encryption/relinearization_key.h: ApplyTo", "shell_encryption/aux_relinearization_key.h: ApplyTo", "shell_encryption/galois_key.h: ApplyTo"]}
{"id": "C76", "title": "Every computation on RNS BGV ciphertexts decrypts to the same computation on the messages", "statement": "Take any expression built from fresh RNS BGV ciphertexts at any level (secret-key or public-key encryptions of messages), negations, additions, subtractions, additions, subtractions and products with plaintexts, scalar products, fused absorptions, ciphertext products, relinearizations, Galois rotations, ModReduce, and serialization round trips. If the worst-case noise computed from the expression is one DecodeBgv accepts at the level of the result, then every call succeeds, the result has the expected number of components, and decryption with the key of its level gives the same expression over the messages modulo t: as polynomials modulo X^n + 1 with the coefficient encoder, and slot by slot, with rotations of the two halves and their swap, with the finite field encoder. A sampled key and its successive ModReduce results are such keys.", "quantifier": "every expression of any size and depth, RNS context, levels, word size other than 16 bits, degree, plaintext modulus coprime to the primes, keys, generators, seeds and messages", "why_tests_cant": "The expressions are unbounded in size and depth, and the noise condition is a worst case; tests run a few fixed shapes with typical noise.", "anchors": ["shell_encryption/rns/rns_bgv_ciphertext.h: RnsBgvCiphertext, ModReduce", "shell_encryption/rns/rns_ciphertext.h: operators, AbsorbInPlace, FusedAbsorbAddInPlace, Substitute, Serialize, Deserialize", "shell_encryption/rns/rns_secret_key.h: EncryptBgv, DecryptBgv, ModReduce", "shell_encryption/rns/rns_public_key.h: Encrypt", "shell_encryption/rns/rns_relinearization_key.h: ApplyTo", "shell_encryption/rns/rns_galois_key.h: ApplyTo", "shell_encryption/rns/coefficient_encoder.h", "shell_encryption/rns/finite_field_encoder.h"]}
{"id": "C77", "title": "Every computation on RNS BFV ciphertexts decrypts to the same computation on the messages", "statement": "Take any expression built from fresh RNS BFV ciphertexts at the top level (secret-key or public-key encryptions of messages), negations, additions, subtractions, additions and subtractions of plaintexts, both kinds of plaintext products (AbsorbInPlace and AbsorbInPlaceSimple), scalar products, fused absorptions, ciphertext products (scaled by t/Q through the auxiliary primes), relinearizations, Galois rotations, ModReduce, and serialization round trips, where products of ciphertexts, AbsorbInPlace and plaintext additions happen at the top level. If the worst-case error computed from the expression is one DecodeBfv accepts at the level of the result, for the precision of the floating point type, then every call succeeds, the result has the expected number of components, and decryption with the key of its level gives the same expression over the messages modulo t: as polynomials modulo X^n + 1 with the coefficient encoder, and slot by slot, with rotations of the two halves and their swap, with the finite field encoder.", "quantifier": "every expression of any size and depth, RNS context with main and auxiliary primes, word size other than 16 bits, degree, plaintext modulus coprime to the primes, floating point type of given relative precision, keys, generators, seeds and messages", "why_tests_cant": "The expressions are unbounded in size and depth, the error condition is a worst case, and the scaling in products rounds in floating point; tests run a few fixed shapes with typical errors.", "anchors": ["shell_encryption/rns/rns_bfv_ciphertext.h: RnsBfvCiphertext, Mul, AbsorbInPlace, AbsorbInPlaceSimple, ModReduce", "shell_encryption/rns/rns_ciphertext.h: operators, FusedAbsorbAddInPlace, Substitute, Serialize, Deserialize", "shell_encryption/rns/rns_secret_key.h: EncryptBfv, DecryptBfv", "shell_encryption/rns/rns_public_key.h: Encrypt", "shell_encryption/rns/rns_relinearization_key.h: ApplyTo", "shell_encryption/rns/rns_galois_key.h: ApplyTo", "shell_encryption/rns/coefficient_encoder.h: EncodeBfv, DecodeBfv", "shell_encryption/rns/finite_field_encoder.h: EncodeBfv, DecodeBfv"]}
{"id": "C78", "title": "Messages from an untrusted sender cannot cause undefined behaviour, outside five stated cases", "statement": "For every protobuf message, however malformed, each of the readers of relinearization and Galois keys, public keys, secret keys, and auxiliary-modulus keys announcing fewer than 2^30 components, either returns an error or an object of the announced shape whose polynomials have between 1 and 2^15 words of the right number of bits. Two ciphertexts read from arbitrary messages can be added, subtracted, multiplied, absorbed and fused without undefined behaviour. Decrypting one gives an error or exactly n values below t, and succeeds only if every component has n coefficients. Applying a received relinearization or Galois key, or SwitchModulus, to a received ciphertext is defined as long as no component announces more than n coefficients, and Substitute is defined if every component has exactly n coefficients and the product of the powers fits an int; decrypting a received RNS ciphertext is defined if it has a component. Outside these conditions the calls are undefined: a component with a larger power of two of coefficients in key switching and SwitchModulus, any larger component in Substitute, a power whose product overflows, an auxiliary key with 2^30 or more announced components, and an RNS ciphertext without components.", "quantifier": "every message with strings below 2^31 bytes, word size (other than 16 bits for the products), modulus, degree, generator and seed", "why_tests_cant": "A sender can choose any bytes, counts and lengths, and combine messages that are inconsistent with each other; tests try a few malformed fields one at a time, and a read past the end of a table can go unnoticed.", "anchors": ["shell_encryption/relinearization_key.h: Deserialize, ApplyTo", "shell_encryption/galois_key.h: Deserialize, ApplyTo", "shell_encryption/public_key_encryption.h: PublicRlweKey::Deserialize", "shell_encryption/symmetric_encryption.h: SymmetricRlweKey::Deserialize, SymmetricRlweCiphertext::Deserialize, operators, SwitchModulus, Substitute, Decrypt", "shell_encryption/aux_relinearization_key.h: Deserialize", "shell_encryption/aux_galois_key.h: Deserialize", "shell_encryption/polynomial.h: Deserialize, Substitute", "shell_encryption/ntt_parameters.h", "shell_encryption/rns/rns_ciphertext.h: Deserialize", "shell_encryption/rns/rns_secret_key.h: RawDecrypt"]}
{"id": "C79", "title": "An in-place operation that returns an error leaves the ciphertext as it was, outside the stated cases", "statement": "Every method that changes a ciphertext or an RNS polynomial in place returns the status of the copying method, and on success leaves its result in the object. When it returns an error, the object is unchanged for negation, sum, difference, products with plaintexts and scalars, fused and lazy accumulation and ConvertToNttForm on RNS ciphertexts whose components have one shape, with operands of any degree, level and form; for ConvertToCoeffForm and the BGV and BFV modulus reductions when the degree is at most that of the parameters; and for the corresponding methods on ciphertexts with one modulus when the other operand has no more components. Outside these conditions a failing call changes the object: AddInPlace and SubInPlace of a longer ciphertext of another degree leave components of both degrees, which no key decrypts; FusedAbsorbAddInPlaceLazily leaves extra lazy components; BFV AbsorbInPlace below the top level leaves the first component in coefficient form, which decrypts to another message without an error; AbsorbInPlace on components of different forms leaves a prefix multiplied; ScaleAndReduceRnsBasisInPlace with a wrong number of auxiliary moduli leaves the polynomial multiplied by t.", "quantifier": "every ciphertext, operand, plaintext, scalar, modulus list and position at which the call fails", "why_tests_cant": "Tests check the status of a failing call and then discard the object. Whether the object is still usable depends on how far the call got before it failed, for each combination of degrees, levels, forms and component counts of the operands.", "anchors": ["shell_encryption/symmetric_encryption.h: AddInPlace, SubInPlace, AbsorbInPlace, FusedAbsorbAddInPlace, FusedAbsorbAddInPlaceLazily, MergeLazyOperations", "shell_encryption/rns/rns_ciphertext.h: NegateInPlace, AddInPlace, SubInPlace, AbsorbInPlace, FusedAbsorbAddInPlace, ConvertToNttForm, ConvertToCoeffForm", "shell_encryption/rns/rns_bgv_ciphertext.h: ModReduce", "shell_encryption/rns/rns_bfv_ciphertext.h: ModReduce, AbsorbInPlace, AbsorbInPlaceSimple", "shell_encryption/rns/rns_polynomial.h: AddInPlace, MulInPlace, FusedMulAddInPlace, ModReduceLsb, ModReduceMsb, ScaleAndReduceRnsBasisInPlace"]}
{"id": "C80", "title": "An object may be the operand of its own in-place method; a scalar must not be a coefficient of the polynomial it multiplies", "statement": "For vectors of modular integers, RNS polynomials and ciphertexts of both kinds, an in-place sum, difference, product, fused multiply-add or fused absorption whose operands are the object itself (x.AddInPlace(x), x.MulInPlace(x), x.FusedMulAddInPlace(x, x)) returns the status and leaves the value that the call with a separate copy would, and changes no memory of any other object; the same holds for operands that share nothing with the object. The methods that take a scalar by reference do the same when the scalar lies outside the vector; when it is element j of the vector itself, as in p.MulInPlace(p.Coeffs()[0]), the elements after j are combined with the new value of element j, and the call still reports success.", "quantifier": "every memory, every choice of addresses for the operands, every vector length, number of moduli and number of components, every position of the scalar", "why_tests_cant": "Whether an operand is still unchanged when it is read depends on the order of reads and writes for each element. A test with one aliased call and one length shows one order of one method, and a vector whose relevant element comes last shows no difference.", "anchors": ["shell_encryption/montgomery.cc: BatchAddInPlace, BatchSubInPlace, BatchMulInPlace, BatchFusedMulAddInPlace, BatchFusedMulConstantAddInPlace", "shell_encryption/polynomial.h: MulInPlace, Coeffs", "shell_encryption/rns/rns_polynomial.h: AddInPlace, SubInPlace, MulInPlace, FusedMulAddInPlace", "shell_encryption/rns/rns_ciphertext.h: AddInPlace, SubInPlace, FusedAbsorbAddInPlace, AbsorbInPlace", "shell_encryption/symmetric_encryption.h: AddInPlace, SubInPlace, FusedAbsorbAddInPlace, FusedAbsorbConstantAddInPlace, AbsorbInPlace"]}
{"id": "C81", "title": "Which arguments an RNS context can be created from", "statement": "For prime moduli, RnsContext::Create succeeds exactly when 1 <= log_n <= 15, the plaintext modulus is not zero, and every modulus leaves two bits of the word free and is 1 modulo twice the degree; CreateForBfv also needs an odd plaintext modulus with two spare bits and no factor in common with a main modulus; the two finite field factories, for a prime plaintext modulus, need that modulus to meet the conditions of the other moduli, and the BFV one that it is not one of the main moduli. In every other case the factory returns InvalidArgument. Nothing checks that the moduli are prime, or that the plaintext modulus of a BGV context differs from the main moduli.", "quantifier": "every word size, every degree, every list of prime main and auxiliary moduli, every plaintext modulus", "why_tests_cant": "Creation searches for a root of unity modulo each prime and inverts moduli modulo each other; that the search always ends with a root for every prime that meets the conditions, and that no other combination slips through, is a statement about all primes.", "anchors": ["shell_encryption/rns/rns_context.cc: Create, CreateForBgvFiniteFieldEncoding, CreateForBfv, CreateForBfvFiniteFieldEncoding", "shell_encryption/montgomery.cc: MontgomeryIntParams::Create", "shell_encryption/ntt_parameters.h: InitializeNttParameters"]}
{"id": "C82", "title": "The moduli the library ships are usable as documented", "statement": "Every modulus in constants.h and rns/constants.h is prime. With every supported word size that leaves two bits free, Montgomery parameters exist for it, transform parameters exist for every power-of-two degree up to the documented bound, and products of polynomials computed through the transform are exact; the largest degree each modulus really supports is 2^11, 2^11, 2^10, 2^11, 2^13 and 2^11. The precomputed inverse of the 59-bit modulus is the one Create computes; the bit sizes, the residues modulo 5 and 17 and the distinctness stated in the comments hold, except that the set called 60-bit has a product of 59 bits. Both RNS sets give contexts for BGV and BFV in every word size from 32 bits and every degree up to 2^11, and cannot be used with the finite field encoding at that degree.", "quantifier": "every shipped modulus, every word size, every degree, every pair of polynomials", "why_tests_cant": "The tests use the constants but never show that they are prime; a composite number with a suitable root of unity would pass most of them. Primality of an 80-bit number is not something a test by trial division can settle.", "anchors": ["shell_encryption/constants.h: kNewhopeModulus, kModulus59, kInvModulus59, kModulus44, kModulus29, kModulus25, kModulus80, kLogDegreeBound80, kMaxNumCoeffs", "shell_encryption/rns/constants.h: k60BitModulusQ0, k60BitModulusQ1, k60BitModulusP0, k59BitModulusQ0, k59BitModulusP0"]}
{"id": "C83", "title": "The error an RNS BGV ciphertext reports bounds its true error, up to a factor computed from the history", "statement": "Run any computation on BGV ciphertexts (fresh encryptions by secret or public key, sums, differences, negation, plaintext operands, scalars, products, relinearization, rotations, modulus reduction, serialization) with error parameters created for the degree, the variance v (1 <= v <= 9) and a log_plaintext_modulus whose square is at least the plaintext modulus. Then Error() of the result, divided by a slack computed from the history, bounds every coefficient of the phase of the result. The slack is sqrt n for a fresh secret-key ciphertext and 1 for a public-key one; sums and differences take the smaller one; adding a plaintext and multiplying by a nonzero scalar halve it; absorbing a plaintext multiplies it by 2 sqrt 3 / sqrt n; a product multiplies the two and divides by n; key switching cuts it to 4 / sqrt(3 v); modulus reduction (of a ciphertext large enough to gain by it) and serialization keep it. When the slack is at least 1 and Error() is at most a decodable bound, decryption returns the result of the same computation on the messages, as polynomials or in slots. Without the condition on the slack it fails: adding a plaintext any number of times leaves Error() as it was.", "quantifier": "every computation, every context, every key, every message, every generator state", "why_tests_cant": "The tests check that measured errors stay below the reported ones on random samples; the worst case over all messages, errors and histories is not sampled.", "anchors": ["shell_encryption/rns/rns_error_params.h: Create, B_plaintext, B_secretkey_encryption, B_publickey_encryption, BoundOnGadgetBasedKeySwitching, ExportDoubleT", "shell_encryption/rns/rns_ciphertext.h: Error, AddInPlace, SubInPlace, AbsorbInPlace, FusedAbsorbAddInPlace, Mul, Serialize, Deserialize", "shell_encryption/rns/rns_relinearization_key.h: ApplyTo, ErrorAfterApplication", "shell_encryption/rns/rns_galois_key.h: ApplyTo, ErrorAfterApplication", "shell_encryption/rns/rns_gadget.h: LogGadgetBase", "shell_encryption/rns/rns_bgv_ciphertext.h: ModReduce, Substitute"]}
{"id": "C84", "title": "A private lookup by oblivious expansion returns the wanted records", "statement": "A client sends a server a Galois key for each of the lv expansion levels (serialized), and for each request the encrypted, normalized compressed vector of the indices it wants, with the second components replaced by a seed. The server, which has no secret, rebuilds keys and ciphertexts from the messages, expands them to as many ciphertexts as it has records (at least two), multiplies the i-th ciphertext by the i-th record, adds up and sends the serialized result. Whenever the client's calls succeed and twice the stated worst-case error is below the modulus q, the server's calls all succeed and the client decrypts exactly the sum of the records at the wanted indices modulo t, each index counted once whatever its multiplicity; for one index and a record with coefficients in [0, t) it is that record.", "quantifier": "every degree, modulus and plaintext modulus t = 2^log_t + 1, every key, number of levels, gadget base, database, list of indices, seed and generator state", "why_tests_cant": "The repository has no test of the whole exchange; the tests of each step use a few random indices, and an error bound that holds for every database cannot be sampled.", "anchors": ["shell_encryption/oblivious_expand.h: MakeCompressedVector, ComputeNormalizer, ObliviousExpand, GaloisKeysObliviousExpander::Create", "shell_encryption/symmetric_encryption_with_prng.h: EncryptWithPrng, ExpandFromPrng", "shell_encryption/galois_key.h: Create, Serialize, Deserialize, ApplyTo", "shell_encryption/symmetric_encryption.h: AbsorbInPlace, FusedAbsorbAddInPlace, Serialize, Deserialize, Decrypt"]}
{"id": "C85", "title": "Threads may share a ChaChaPrng or HkdfPrng object: every interleaving is a sequential run, no stream byte is handed out twice, no deadlock", "statement": "Any number of threads may call Rand8 and Rand64 of one ChaChaPrng or HkdfPrng object at the same time. However the accesses interleave: no two threads are inside a call at once; the calls, in the order in which they return, give what the same calls would give one after the other on the same object; as long as the stream is not used up, each call returns a number made of its own bytes of the key's stream, later than those of every call that returned before, so no byte is handed out twice; a call that has begun can always finish and leaves the mutex free; and every value is a byte or a 64-bit number. For the SingleThread classes this is false even if every access is atomic: two threads can get the same byte.", "quantifier": "every number of threads, every schedule of their steps, every sequence of calls of each thread, every key and block function with blocks of the declared length", "why_tests_cant": "The order in which threads run is not under a test's control; a race shows up in few of the exponentially many schedules.", "anchors": ["shell_encryption/prng/chacha_prng.cc: ChaChaPrng::Rand8, Rand64", "shell_encryption/prng/hkdf_prng.cc: HkdfPrng::Rand8, Rand64", "shell_encryption/prng/chacha_prng_util.cc: ChaChaPrngRand8, ChaChaPrngRand64, ChaChaPrngResalt", "shell_encryption/prng/hkdf_prng_util.cc: HkdfPrngRand8, HkdfPrngRand64, HkdfPrngResalt", "shell_encryption/prng/single_thread_chacha_prng.cc: Rand8, Rand64", "shell_encryption/prng/single_thread_hkdf_prng.cc: Rand8, Rand64"]}
{"id": "C86", "title": "The reference implementation the tests compare with (polynomials and ciphertexts as coefficients) computes the ring operations and agrees with the NTT implementation", "statement": "CoefficientPolynomial computes in Z[X]/(X^n+1) for every length n: sum, difference, product, scalar product, product with X^e for 0 <= e < 2n, and X -> X^e for odd e < 2n prime to n, with fully reduced results; == returns true exactly for equal polynomials of the same length; a polynomial survives serialization; wrong lengths and powers are refused. For polynomials in NTT form each operation followed by InverseNtt gives the same words as InverseNtt followed by the coefficient operation, including which powers are refused. CoefficientPolynomialCiphertext: converting ciphertexts to coefficients and adding, substituting or multiplying with X^e there gives the same object as doing it with the ciphertexts and converting, for any numbers of components; converting to coefficients and back keeps all components and the decrypted message. Outside these conditions: an odd power not prime to the length always writes past the end; polynomials of different lengths can compare equal; comparing polynomials without coefficients reads out of bounds; a message with a negative number of coefficients is not refused.", "quantifier": "every supported modulus, every length, all stored coefficient values, every power, every pair of ciphertexts with at least one component", "why_tests_cant": "The test suite uses this code as the oracle for the NTT implementation; the two can only be compared on the inputs the tests draw, and the oracle itself is not tested beyond a few polynomials.", "anchors": ["shell_encryption/testing/coefficient_polynomial.h: CoefficientPolynomial, operator+, operator-, operator*, MonomialMultiplication, Substitute, operator==, Serialize, Deserialize", "shell_encryption/testing/coefficient_polynomial_ciphertext.h: CoefficientPolynomialCiphertext, ConvertToCoefficients, ConvertToNtt, operator+, MonomialAbsorb, Substitute"]}
{"id": "C87", "title": "The discrete Gaussian sampler tabulates the Gaussian distribution and combines samples to at least the requested standard deviation", "statement": "Read with exact real arithmetic: Create refuses deviations below sqrt 2 times the smoothing parameter and otherwise (up to 2^26) stores, for every x in [-b, b] with b = 8 ceil(s_base), the integer part of 2^63 times the sum of the density of the normal distribution from -b to x. The base sampler returns x exactly for the 63-bit words in an interval whose length is 2^63 times the density at x up to less than 1. NumIterations ends for every value of a double with a number between 0 and 12, the last level whose deviation is at most s. Sample(s) combines with positive integer weights that respect the smoothing condition of the convolution theorem; for at least one level the last combination z X1 + (z-1) X2 uses the least z for which the variance is at least s^2, no cast overflows for s up to 2^k, and only generator errors are passed on. For s between s_base and sqrt 2 s_base the requested deviation is ignored: the result is a base sample.", "quantifier": "all base deviations up to 2^26, all requested deviations up to 2^1024 (NumIterations) or 2^k (Sample, k = 32, 64, 128), all random words, all generators", "why_tests_cant": "Tests compare the mean and variance of finitely many samples for a few deviations; the table holds up to 2^30 entries and the claim is about every entry and every word.", "anchors": ["shell_encryption/sampler/discrete_gaussian.cc: Create, SampleBase, NumIterations, SampleIIterative, SampleWithIterations", "shell_encryption/sampler/discrete_gaussian.h: Sample, kSmoothingParameter, kTailBoundMultiplier"]}
{"id": "C88", "title": "Calls with unfit arguments are refused, whatever else the arguments contain", "statement": "Operations on RNS polynomials return InvalidArgument when the number of moduli, the number of auxiliary constants, the form (NTT or coefficients), the length or the power does not fit: creation, conversion between forms, arithmetic, substitution, modulus reduction, exact and approximate basis conversion. The same for RNS ciphertexts and lazy products (moduli, powers of the secret, numbers of components, indices), for RNS secret, Galois and relinearization keys (degree, moduli, power, generator type, number of digits), and in the single-modulus library for Montgomery parameters (exactly the even moduli and those above 2^(k-2)), serialization of coefficient vectors, error parameters, constant polynomials (exactly different lengths), components (exactly the indices out of range), generator seeds and lazy polynomials. Likewise for RNS contexts (ring degree, plaintext modulus, levels), CRT interpolation, gadgets, sampling, encryption of polynomials and decryption with interpolation, key components, oblivious expansion, compressed vectors and keys with an auxiliary modulus. Not refused: balanced conversion of an empty coefficient vector is undefined, and a pad component set on an empty ciphertext becomes component 0.", "quantifier": "all argument values, with no assumption on the contents of polynomials, ciphertexts and keys", "why_tests_cant": "Each test passes one wrong argument with otherwise valid ones; the claim is that the refusal comes first for every combination, so that no unfit call reaches the arithmetic.", "anchors": ["shell_encryption/rns/rns_polynomial.{h,cc}", "shell_encryption/rns/lazy_rns_polynomial.h", "shell_encryption/rns/rns_ciphertext.h", "shell_encryption/rns/rns_secret_key.h", "shell_encryption/rns/rns_galois_key.cc", "shell_encryption/rns/rns_relinearization_key.cc", "shell_encryption/montgomery.cc: Create, SerializeVector", "shell_encryption/error_params.h: Create", "shell_encryption/symmetric_encryption.h: Component"]}
{"id": "C89", "title": "Signed messages in slots come back as the integer results", "statement": "WrapSigned maps every signed value of absolute value less than t to the residue in [0, t) congruent to it, and UnwrapToSigned maps residues to the representatives of absolute value at most t/2, for every signed type that holds t; the two are inverse on that range. A whole computation on BGV or BFV ciphertexts whose signed messages were wrapped gives, after decryption and UnwrapToSigned, exactly the results over the integers in every slot, provided these lie in the range and the errors stay decodable. Not so when the signed type is narrower than t: for every odd t above 2^s some s-bit value in range is lost (for t = 65537 and 16-bit values, -1 comes back as 0), and values below -t are accepted and become residues of something else.", "quantifier": "all messages, plaintext moduli, signed types of 8 to 64 bits, words of 16 to 128 bits, and computations", "why_tests_cant": "The tests use the signed type of the same width as the word and a few values; the behaviour depends on the conversions C++ applies to each pair of types and on every value.", "anchors": ["shell_encryption/rns/finite_field_encoder.h: WrapSigned, UnwrapToSigned"]}
{"id": "C90", "title": "A message enters a ciphertext only as a shift of an encryption of zero", "statement": "For every secret-key and public-key encryption of the library (single modulus, RNS BGV and RNS BFV), encrypting a message gives, word for word, the ciphertext that encrypting zero from the same generator state would give, with the encoded message added to the first component. Whether encryption succeeds once the message is encoded, the error it returns otherwise, how many random words it draws and which state it leaves the generator in, and all components but the first, do not depend on the message; the second component of a secret-key encryption does not depend on the key either. This extends to any number of encryptions drawing from one generator. In words of 32 bits and more.", "quantifier": "all keys, messages, encoders, generators and states, degrees, moduli, and sequences of encryptions", "why_tests_cant": "A message-dependent draw or a non-canonical word would show up for single messages and generator states only; the claim compares the runs on all messages.", "anchors": ["shell_encryption/symmetric_encryption.h: Encrypt", "shell_encryption/public_key_encryption.cc: Encrypt", "shell_encryption/rns/rns_secret_key.h: EncryptBgv, EncryptPolynomialBgv, EncryptBfv", "shell_encryption/rns/rns_bgv_public_key.h: Encrypt", "shell_encryption/rns/rns_bfv_public_key.h: Encrypt"]}
{"id": "C91", "title": "Floating-point value of a 256-bit integer", "statement": "Converting a 256-bit integer to double or long double always gives a finite number of that type whose relative error is at most just above 2^-(b-1), b being the precision; integers that are numbers of the type, among them all up to 2^b, are converted exactly; below 2^128 the result is the nearest number; and the conversion never reverses the order of two integers. Converting to float gives the nearest float below 2^128 - 2^103 and infinity from there on. (From 2^128 on the double is not always the nearest one, since the halves are rounded before they are added.)", "quantifier": "all 256-bit integers, and all precisions and exponent ranges", "why_tests_cant": "Double rounding affects a thin set of the 2^256 inputs, and order and error bounds range over pairs of inputs.", "anchors": ["shell_encryption/int256.h: uint256::operator float, operator double, operator long double"]}
{"id": "C92", "title": "The power of a ciphertext names the key that decrypts it", "statement": "Take any computation made of encryptions (secret-key or public-key), sums, differences, scalar and plaintext products, products, substitutions, serialization round trips, and Galois and relinearization keys (with or without auxiliary modulus), used at any point and in any order. The power the result carries is the product modulo 2n of the substitution powers since the last key switch, always an odd number below 2n; the key substituted by that power decrypts the result to the same computation on the plaintexts as long as the worst-case error is below q/2, and at power 1 so does the key itself. Ciphertexts at different powers are never combined and Galois keys are never applied at another power than their own: those calls fail with InvalidArgument. If powers agree the computation runs to its end. (Relinearization keys must be matched by the caller: a key for another power is applied without complaint and gives a ciphertext that decrypts wrongly.)", "quantifier": "all keys, word sizes and degrees, all computation trees with substitutions and key switches anywhere, all plaintexts and randomness", "why_tests_cant": "The tests substitute once and key-switch once; that the label and the key stay in step through every order of operations is a statement about all histories.", "anchors": ["shell_encryption/symmetric_encryption.h: SymmetricRlweCiphertext::PowerOfS, Substitute, operator+, operator*, FusedAbsorbAddInPlace; SymmetricRlweKey::Substitute", "shell_encryption/galois_key.h: GaloisKey::ApplyTo", "shell_encryption/relinearization_key.cc: RelinearizationKey::ApplyTo", "shell_encryption/aux_relinearization_key.cc: AuxModRelinearizationKey::ApplyTo"]}
{"id": "C93", "title": "Keys, masks and errors of fresh ciphertexts have exactly the promised distribution", "statement": "If the generator's words are uniform and independent, then: a sampled ring element is exactly uniform (every vector of residues comes from the same number of random scripts, for every number of attempts); the coefficients of a sampled error or secret key are independent centred binomials of the requested variance; and a fresh ciphertext is determined by a mask and an error that are independent of each other, of the message and of the key. Precisely: for every mask and every small error vector there is one ciphertext, it encrypts message + t * error, and the number of scripts giving it is the number of ways to accept the mask's residues times the product of the binomials of the error's coefficients; nothing else comes out; and the second component alone is uniform whatever the message and key.", "quantifier": "all valid moduli, degrees, word sizes (64, 32 and 128 bits for encryption), variances up to 256 with 4 * variance < q, all keys, plaintexts, masks, error vectors and numbers of rejected attempts", "why_tests_cant": "A statistical test cannot show exact uniformity or independence; counting all scripts for every key and message is a statement about an exponentially large space.", "anchors": ["shell_encryption/symmetric_encryption.h: Encrypt, internal::Encrypt, SymmetricRlweKey::Sample", "shell_encryption/sample_error.h: SampleFromErrorDistribution", "shell_encryption/polynomial.h: SamplePolynomialFromPrng", "shell_encryption/montgomery.h: ImportRandom"]}
{"id": "C94", "title": "Masks, errors, keys and fresh ciphertexts of the RNS schemes have exactly the promised distribution", "statement": "If the generator's bytes are uniform and independent, then for tapes of every length N: a sampled RNS polynomial is exactly uniform (every matrix of residues comes from the same number of tapes, and a positive number when the tape has room for one attempt per residue); a sampled RNS error or secret key stands for integers that are independent centred binomials, the same integers for all primes; and a fresh BGV or BFV ciphertext is determined by a mask and an error that are independent of each other, of the message and of the key: for every mask and small error there is one ciphertext, with that mask and with phase m + t e (BGV) or m + e (BFV), and the number of tapes giving it is a weight that depends only on the parameters, times the product of the binomials of the error. The second component alone is uniform, the same for all keys and messages.", "quantifier": "all lists of distinct valid prime moduli, all degrees, word sizes other than 16 bits for encryption, variances up to 256 with 4 * variance below the first prime, all keys, plaintexts, masks, error vectors, retry limits and tape lengths", "why_tests_cant": "A statistical test cannot show exact uniformity or independence; the claim counts all 256^N tapes for every key and message, and residues of several primes must be independent of each other although they are read from one stream with rejections.", "anchors": ["shell_encryption/rns/rns_polynomial.h: SampleUniform", "shell_encryption/rns/error_distribution.h: SampleError", "shell_encryption/rns/rns_secret_key.h: EncryptPolynomialBgv, EncryptBfv", "shell_encryption/rns/rns_secret_key.cc: Sample"]}
{"id": "C95", "title": "The error reported for a sum of products does not depend on how the sum is accumulated", "statement": "Adding ciphertext-plaintext products into a ciphertext reports the previous error plus B_plaintext() times the sum of the operands' errors, whichever way it is done: Absorb then Add, FusedAbsorbAddInPlace, FusedAbsorbConstantAddInPlace, FusedAbsorbAddInPlaceLazily with MergeLazyOperations (for one modulus), FusedAbsorbAddInPlaceWithoutPad, and FusedAbsorbAddInPlaceWithoutPadLazily with MergeLazyOperations and SetPadComponent (RNS). For one modulus the lazy and the eager sum are the same ciphertext with the same report. The last RNS version breaks the rule: its first call does not count, so a single product accumulated in an empty ciphertext decrypts to the product and reports the error 0.", "quantifier": "all sequences of operands of any length with any reported errors, all parameters, moduli and degrees", "why_tests_cant": "The tests compare a few decryptions and check that errors are positive; the rule is about the report after every sequence of calls.", "anchors": ["shell_encryption/symmetric_encryption.h: FusedAbsorbAddInPlace, FusedAbsorbAddInPlaceLazily, FusedAbsorbConstantAddInPlace, MergeLazyOperations", "shell_encryption/rns/rns_ciphertext.h: FusedAbsorbAddInPlaceWithoutPad, FusedAbsorbAddInPlaceWithoutPadLazily, MergeLazyOperations, SetPadComponent"]}
{"id": "C96", "title": "Sampling and encryption end, with a failure rate that halves with every attempt", "statement": "The rejection loops behind uniform polynomials, RNS masks and uniform ternary coefficients have no bound in the code. If the generator's bytes are uniform and independent, the chance that a call which needs n residues (or ternary coefficients) is still running after f attempts at each of them is at most n / 2^f. The same holds for RNS BGV and BFV encryption, with n the number of coefficients times the number of primes, so for every d encryption has returned within some number of attempts with probability at least 1 - 1/d. With any generator, a call that has returned a value would return the same value if allowed more attempts.", "quantifier": "all supported moduli, degrees, numbers of primes, keys, messages and numbers of attempts, and all tape lengths that are long enough; for the last sentence all generators and states", "why_tests_cant": "A test sees that some runs end; the claim is about the measure of all random tapes, and about loops without a bound.", "anchors": ["shell_encryption/montgomery.h: ImportRandom, GenerateRandomInt", "shell_encryption/polynomial.h: SamplePolynomialFromPrng", "shell_encryption/rns/rns_polynomial.h: SampleUniform", "shell_encryption/sampler/uniform_ternary.h: SampleFromUniformTernary", "shell_encryption/rns/rns_secret_key.h: EncryptBgv, EncryptPolynomialBgv, EncryptBfv"]}
{"id": "C97", "title": "Public-key encryption uses three independent binomial polynomials, and never fails", "statement": "Encrypt of an RNS BGV or BFV public key (a, b) draws r, e0 and e1 and returns (b r + t e0 + m, a r + t e1), with t = 1 for BFV. If the generator's bytes are uniform and independent, then for every test on ciphertexts the probability that the result passes is exactly the average of the test over all r, e0, e1, whose coefficients are independent centred binomials of the key's variance. Given enough random bytes the call succeeds on every tape. The second component has the same distribution for all messages.", "quantifier": "all supported moduli, degrees, public keys, encoders, messages that encode, variances up to 256, tests on ciphertexts and tape lengths of at least the bytes of three error polynomials", "why_tests_cant": "Tests see single ciphertexts; the claim is an equality of distributions for every test.", "anchors": ["shell_encryption/rns/rns_bgv_public_key.h: Encrypt", "shell_encryption/rns/rns_bfv_public_key.h: Encrypt", "shell_encryption/rns/error_distribution.h: SampleError", "shell_encryption/sample_error.h: SampleFromErrorDistribution"]}
{"id": "C98", "title": "Public keys, Galois keys and relinearization keys have exactly the promised distribution", "statement": "Create of an RNS public key, Galois key or relinearization key uses two generators. If their bytes are uniform and independent, all lists of pads are equally likely, and, given the pads f_j, the other halves are t e_j + h_j - f_j s for independent error polynomials e_j with independent centred binomial coefficients. Here h_j is 0 for a public key, w_j s(X^p) for a Galois key and w_j s^i for a relinearization key, with w_j the gadget's numbers. For every test on keys the probability that the key passes is the average of the test over these errors. Once the pads are drawn and enough bytes are left, creation succeeds on every error tape.", "quantifier": "all supported moduli, degrees, secret keys, gadgets, powers, key degrees, error scalars, variances up to 256, tests on keys and tape lengths of at least the bytes of the errors", "why_tests_cant": "Tests see single keys; the claim is an equality of distributions for every test, over all seeds.", "anchors": ["shell_encryption/rns/rns_public_key.cc: Create", "shell_encryption/rns/rns_galois_key.cc: SampleRandomPad, CreateWithRandomPad", "shell_encryption/rns/rns_relinearization_key.cc: SampleRandomPad, CreateWithRandomPad", "shell_encryption/rns/error_distribution.h: SampleError"]}
{"id": "C99", "title": "Single-modulus public-key encryptions, public keys and key switching keys have exactly the promised distribution", "statement": "If the generators' bytes are uniform and independent: a public-key encryption of m under any pair (b, a) is (b v + t e0 + m, a v + t e1) for independent polynomials v, e0, e1 with independent centred binomial coefficients of the requested variance; a public key is (u s + t e, -u) for a uniform u and such an e; a relinearization key (or Galois key) has uniform pads r_j and, given these, the other halves t e_j + 2^(c logT) s(X^power)^a - r_j s for independent e_j, one for each digit c and each power a. For every test on the result the probability that it passes is the average of the test over these errors. Given enough bytes the calls succeed on every tape.", "quantifier": "all valid moduli, degrees, word sizes (64, 32 and 128 bits for public keys), keys, plaintexts, powers, numbers of components, decomposition bases, variances up to 256 with 4 * variance < q, tests and tape lengths of at least the bytes of the errors", "why_tests_cant": "Tests see single keys and ciphertexts; the claim is an equality of distributions for every test, over all seeds.", "anchors": ["shell_encryption/public_key_encryption.cc: Create, Encrypt", "shell_encryption/relinearization_key.cc: Create, SampleOrthogonalFromPrng", "shell_encryption/galois_key.h: Create", "shell_encryption/sample_error.h: SampleFromErrorDistribution"]}
{"id": "C100", "title": "Seed-compressed encryptions have exactly the promised distribution", "statement": "If the bytes of the error generator are uniform and independent, a seed-compressed encryption of m_1, ..., m_d whose seed expands to the masks a_1, ..., a_d is the list m_j + t e_j + a_j s for independent polynomials e_j with independent centred binomial coefficients of the key's variance: for every test on the whole list the probability that it passes is the average of the test over these errors. Expanding any of these lists from the same seed gives the ciphertexts (m_j + t e_j + a_j s, -a_j), consuming exactly the bytes of the masks. Given enough bytes encryption succeeds on every error tape.", "quantifier": "all valid moduli, degrees, word sizes other than 16 bits, keys, lists of plaintexts of any length, seeds, variances up to 256 with 4 * variance < q, tests and tape lengths of at least the bytes of the errors", "why_tests_cant": "Tests see single ciphertexts and would not notice the same error used for two plaintexts; the claim is an equality of distributions for every test, over all seeds.", "anchors": ["shell_encryption/symmetric_encryption_with_prng.h: EncryptWithPrng, ExpandFromPrng", "shell_encryption/symmetric_encryption.h: internal::Encrypt"]}
{"id": "C101", "title": "What the number theoretic transforms do with vectors of other lengths", "statement": "For parameters of length 2^L and a vector whose length is another power of two: if it is shorter (2^d), the forward transform returns its values at the odd powers of psi^(2^(L-d)), that is, the transform of that smaller length; the inverse transform also accepts such a vector, but it is not its inverse: after both transforms the constant coefficient has been divided by 2^(L-d), so no vector with a non-zero constant coefficient comes back. If it is longer, the inverse transform returns InvalidArgument and the forward transform reads past the end of its table. An empty vector is undefined behaviour in both.", "quantifier": "all valid moduli and parameters, all d, all vectors of length 2^d", "why_tests_cant": "Tests use vectors of the context's length; the behaviour outside is a claim about every length, and the accepted shorter vectors give plausible looking results.", "anchors": ["shell_encryption/dft_transformations.h: ForwardNumberTheoreticTransform, InverseNumberTheoreticTransform, IterativeCooleyTukey, IterativeGentlemanSande", "shell_encryption/ntt_parameters.h: InitializeNttParameters"]}
{"id": "C102", "title": "Any number of encryptions with one generator are independent of each other", "statement": "If the generator's bytes are uniform and independent, and a caller encrypts any number d of plaintexts, under any keys over one modulus, one after the other with this generator, then all masks are uniform, all error coefficients are centred binomials, and all of them are independent, over all ciphertexts together: for all masks a_j and small errors e_j there is one list of ciphertexts (m_j + t_j e_j + a_j s_j, -a_j), and the number of tapes giving this list is the product of all the binomials times a weight that depends only on d, the parameters and the tape length, not on the keys, plaintexts, masks or errors. With one attempt per residue allowed and enough bytes every such list occurs.", "quantifier": "all numbers of encryptions, all keys with the same modulus, degree and variance (up to 256, 4 * variance < q), plaintext moduli coprime to q, plaintexts, masks, errors, tape lengths and bounds on the attempts; word sizes other than 16 bits", "why_tests_cant": "It is an equality between the joint distribution of an unbounded history of calls and its specification.", "anchors": ["shell_encryption/symmetric_encryption.h: Encrypt, internal::Encrypt", "shell_encryption/polynomial.h: SamplePolynomialFromPrng", "shell_encryption/sample_error.h: SampleFromErrorDistribution"]}
{"id": "C103", "title": "Any number of RNS encryptions, BGV and BFV mixed, with one generator are independent of each other", "statement": "If the generator's bytes are uniform and independent, and a caller makes any number d of RNS encryptions, BGV and BFV in any order, under any keys over one chain of moduli, one after the other with this generator, then all masks are uniform modulo every prime, all error coefficients are centred binomials, and all of them are independent, over all ciphertexts together: for all masks a_j and small errors e_j there is one list of ciphertexts that encrypt m_j + t_j e_j with these masks (t_j = 1 for BFV), and the number of tapes giving this list is the product of all the binomials times a weight that depends only on d, the parameters and the tape length, not on the scheme, keys, plaintexts, masks or errors. With one attempt per residue allowed and enough bytes every such list occurs.", "quantifier": "all numbers and orders of calls, all keys with the same moduli, degree and variance (1 to 256, 4 * variance less than the first prime), BGV plaintext moduli coprime to the first prime, plaintexts, encoders whose encoding succeeds, masks, errors, tape lengths and bounds on the attempts; word sizes other than 16 bits", "why_tests_cant": "It is an equality between the joint distribution of an unbounded history of calls and its specification.", "anchors": ["shell_encryption/rns/rns_secret_key.h: EncryptPolynomialBgv, EncryptBfv", "shell_encryption/rns/rns_polynomial.h: SampleUniform", "shell_encryption/rns/error_distribution.h: SampleError"]}
