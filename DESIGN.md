# Design

Formal model of google/shell-encryption (C++, /repo) in Rocq (Coq 8.16.1). The
development is in `rocq/theories` (logical name `Verif`).

## Conventions

* Machine integers are `Z` with explicit wrap-around `x mod 2^k`; the word size
  `k` in {16,32,64,128} is part of the parameter record, and `BigInt` has `2k`
  bits (`Int256.v` models the 256-bit type itself).
* A call has the outcome `Ok x`, `Err code` (an `absl::Status` error) or `UB`.
  Undefined behaviour (signed overflow after integer promotion, out-of-bounds
  indexing, dereferencing an end iterator, a bad shift) is the outcome `UB`,
  never a convenient default value. A failed CHECK is also `UB`.
* Loops are structural recursion over lists or counters. The rejection loops of
  the samplers take fuel; running out of fuel means that the loop is still
  running, and theorems about results hold for every fuel.
* Randomness is an explicit argument: a generator (`prng`) is an arbitrary state
  machine with `rand8`/`rand64`, and theorems quantify over all of them and all
  start states. ChaCha20, HKDF and SHA are parameters of the model.
* Floating point: the operations are a parameter `dops`; theorems that need
  accuracy assume `float_model D val eps`, i.e. that each operation has relative
  error at most eps (2^-53 for IEEE doubles). `exact_dops` (rational arithmetic)
  is an instance, so the assumption can be met. Where the result does not depend on
  accuracy the theorems hold for every `dops`.
* Protobuf messages are records of their fields; a `bytes` field is a list of
  bytes.

## File structure

* Models, without proofs, one or a few source files each: `BitsUtil`, `Montgomery`,
  `MontBatch`, `Transcription`, `Int256`, `Ntt`, `Poly`, `PolyExt` (lazy
  polynomials, modulus conversion, gadgets), `Prng`, `Sampling`, `Gauss`,
  `SymEnc`, `Relin` (relinearization, Galois keys, encryption with a PRNG),
  `AuxRelin`, `Expand`, `PubKey`, and for `rns/`: `RnsPoly`, `RnsCtx`, `RnsCt`,
  `RnsEncode`, `RnsKey`, `RnsPub`, `RnsGadget`, `RnsBfv`. Each definition cites the
  lines it models and says where it simplifies.
* Specifications, small and without reference to how the code computes:
  `Spec`, `PolySpec` (the ring Z[X]/(X^n+1) on coefficient functions),
  `SampleSpec`, `PrngSpec`, `Int256Spec`, `SymSpec`, `RelinSpec`,
  `AuxRelinSpec`, `ExpandSpec`, `PubKeySpec`, `GaussSpec`, `GaussRealSpec`, `RefuseSpec`, `RnsSpec`,
  `RnsCtxSpec`, `RnsCtSpec`, `RnsEncodeSpec`, `RnsKeySpec`, `FieldSpec`,
  `RnsPubSpec`, `RnsGadgetSpec`, `RnsSwitchSpec`, `RnsBfvSpec`.
* Theorems: `Thm*.v`. Each property theorem is named `Cxx_...`, has a concrete
  example beside it that meets its hypotheses, and is followed by
  `Print Assumptions`.
* Everything else is proof: arithmetic (`ZLemmas`, `FinSum`, `Fermat`,
  `RootCount`, `GenFive`, `CrtMath`, `NegRing`, `Ring`), and `*Proofs`, `*Facts`.

How a polynomial is read: a vector of stored words is related to the integer
polynomial it stands for by transforming and exporting it (`PolyView`, `rns_is`
in `RnsSpec`); ring statements then are equalities of coefficient functions
modulo q, with multiplication defined as negacyclic convolution. What a
ciphertext encrypts is its phase c_0 + c_1 s + c_2 s^2 + ... ; encryption
theorems bound the noise for every possible sample, not in expectation.

## Properties

For each property: the model files, how it is proved, the file with the theorems,
and its status. `_refuted` theorems show that a claim of the code or its
documentation is false; `_accepted` theorems show missing checks.

* **C01** Bit utilities compute the true bit count and bit length. BitsUtil: byte table popcount and SWAR leading-zero count as written. Reflection on 8-bit pieces and positional decomposition. Theorems: ThmArith.v (proved, 4 theorems).
* **C02** Montgomery parameter creation accepts exactly the supported moduli and derives consistent constants. Montgomery `params_create`, `inverses`. Loop invariant r x - m y = 2^i; each derived constant against its formula. Theorems: ThmArith.v (proved, 2 theorems).
* **C03** Import then export is reduction modulo the modulus. Montgomery `import_int`, `export_int`. A generic lemma about truncated quotients (Barrett/Shoup) over Z. Theorems: ThmArith.v (proved, 2 theorems).
* **C04** Modular arithmetic on Montgomery integers is arithmetic modulo the modulus. Montgomery `madd`, `msub`, `mneg`, `mmul` with explicit wraps. Range lemmas show that no wrap fires; congruence modulo m. Theorems: ThmArith.v (proved, 4 theorems).
* **C05** Equality of Montgomery integers is equality of the numbers they represent. False: Negate(0) is stored as m. Refuted; proved for reduced representatives, which all other operations give. Theorems: ThmArith.v, ThmExact.v (partial, 4 theorems).
* **C06** Precomputed-constant and fused multiplication agree with plain multiplication and addition. `get_constant`, `mul_constant`, `fused_mul_add`, `fused_mul_constant_add`; the promoted 16-bit multiplication overflows int, shown as UB. Theorems: ThmArith.v, ThmExact.v (partial, 5 theorems).
* **C07** Exponentiation and inversion are correct. `mod_exp` (square and multiply invariant), `mult_inverse` (Fermat), `mult_inverse_fast` (extended Euclid invariant). Theorems: ThmArith.v (proved, 3 theorems).
* **C08** Batch operations are elementwise and reject mismatched lengths. MontBatch: list versions of every Batch function. Theorems: ThmArith.v (proved, 5 theorems).
* **C09** TranscribeBits preserves the bit stream. Transcription: the loop as a state machine, against lists of bits. Invariant relating emitted bits and the pending buffer. Theorems: ThmArith.v (proved, 3 theorems).
* **C10** Serialization of Montgomery integers and vectors round-trips. MontBatch, on top of C09. Theorems: ThmArith.v (proved, 3 theorems).
* **C100** Seed-compressed encryptions have exactly the promised distribution. By induction on the plaintexts the call equals drawing all masks from the first tape, all errors from the second and applying a function that never fails on drawn vectors; the count over error tapes is then C99's nested weighted sum. C99_pads says that the masks are uniform. Theorems: - (proved, 2 theorems).
* **C101** What the number theoretic transforms do with vectors of other lengths. The first 2^d entries of the bit-reversed table are the table of the length-2^d transform with root psi^(2^(L-d)), so the forward proof of C16 applies; the constant coefficient of the inverse transform is the sum of all components divided by 2^L (induction over the layers), compared with the same sum under the smaller parameters, where C17 applies. For longer vectors the table index is followed layer by layer until it leaves the table. Theorems: - (proved, 5 theorems).
* **C102** Any number of encryptions with one generator are independent of each other. Induction on the calls. One call, followed by any continuation on the rest of the tape, has the weight of its mask (C94's weights) times the binomials of its error times the weight of the continuation; mask and error are recovered from the ciphertext because negation is injective and t is invertible modulo q. Theorems: - (proved, 1 theorems).
* **C103** Any number of RNS encryptions, BGV and BFV mixed, with one generator are independent of each other. Induction on the calls. One call, followed by any continuation on the rest of the tape, has the weight of its rows of residues times the binomials of its error times the weight of the continuation; C94 recovers mask and error from the ciphertext. Theorems: - (proved, 1 theorems).
* **C11** Deserialization never yields an out-of-range Montgomery integer. False: Deserialize does not check the range. Refuted, with the true guarantee proved. Theorems: ThmArith.v, ThmExact.v (partial, 3 theorems).
* **C12** uint256 arithmetic is arithmetic modulo 2^256. Int256: pairs (hi, lo) with 128-bit wraps. Value homomorphism for every operator. Theorems: ThmInt256.v (proved, 7 theorems).
* **C13** uint256 printing produces the positional representation. Int256: the digit loop of operator<<, against positional digits, fill and width. Theorems: ThmInt256.v (proved, 2 theorems).
* **C14** Random sampling modulo m is in range and exactly uniform. Sampling: rejection loops over an arbitrary generator. Exact law by counting scripts of draws. Theorems: ThmSample.v (proved, 3 theorems).
* **C15** NTT parameters are well formed. Ntt parameters. Primality is a hypothesis (the code does not check it); order of psi by counting roots. Theorems: ThmNtt.v (proved, 3 theorems).
* **C16** The forward NTT evaluates the polynomial at the odd powers of psi. Ntt: in-place index loops. Invariant by layers, evaluation at odd powers of psi, bounds for lazy layers. Theorems: ThmNtt.v (proved, 3 theorems).
* **C17** Inverse NTT inverts the NTT. Ntt: each inverse layer undoes a forward layer up to a factor 2. Theorems: ThmNtt.v (proved, 1 theorems).
* **C18** Polynomial multiplication is negacyclic convolution; addition, subtraction and negation are coefficientwise. Poly: evaluation at the roots of X^n+1 is injective and multiplicative, so products are negacyclic convolutions. Theorems: ThmPoly.v (proved, 7 theorems).
* **C19** Substitute computes f(x^k). Poly `substitute` with its index-stepping loop; evaluation at powers of the roots. Theorems: ThmPoly.v (proved, 3 theorems).
* **C20** Polynomial serialization round-trips and validates its length. Poly serialization on top of C10. Theorems: ThmPoly.v (proved, 3 theorems).
* **C21** Lazy polynomial accumulation is exact for any number of operations. PolyExt: lazy accumulators as a state machine with the invariant level * m^2 bound. Theorems: ThmPolyExt.v (proved, 4 theorems).
* **C22** Balanced modulus conversion preserves the signed value. PolyExt: balanced conversion preserves the signed representative. Theorems: ThmPolyExt.v (proved, 4 theorems).
* **C23** Gadget decomposition recomposes. PolyExt: digit extraction recomposes and digits are in range. Theorems: ThmPolyExt.v (proved, 2 theorems).
* **C24** Error sampling stays within its bound and has the exact centered binomial distribution. Sampling: error sampler over an arbitrary generator; exact centred binomial by counting. Theorems: ThmSample.v (proved, 5 theorems).
* **C25** Error removal recovers the message exactly when the noise is below q/2. SymEnc `remove_error`, `measure_error`. Theorems: ThmSymEnc.v (proved, 3 theorems).
* **C26** Symmetric encryption decrypts to the plaintext. SymEnc: encryption and decryption of Montgomery polynomials; the phase of the result and its noise for every sample. Theorems: ThmSymEnc.v (proved, 8 theorems).
* **C27** Homomorphic addition, subtraction decrypt to sum, difference. SymEnc `ct_add`, `ct_sub`: phases add. Theorems: ThmSymEnc.v (proved, 3 theorems).
* **C28** Homomorphic absorb and multiplication decrypt to the ring product. SymEnc: absorb, ciphertext product, fused absorb: phases multiply. Theorems: ThmSymEnc.v (proved, 5 theorems).
* **C29** Lazy fused absorption equals eager fused absorption. SymEnc: lazy ciphertext state machine, equal word for word to the eager one. Out-of-bounds read refuted for shorter ciphertexts. Theorems: ThmExact.v, ThmSymEnc.v (partial, 4 theorems).
* **C30** Modulus switching preserves the plaintext. SymEnc `switch_modulus` per coefficient and per ciphertext. Theorems: ThmSymEnc.v (proved, 5 theorems).
* **C31** Relinearization preserves the decryption up to bounded noise. Relin: columns encrypt 2^(b i) s^a; digit decomposition; noise bound. Theorems: ThmRelin.v (proved, 7 theorems).
* **C32** Galois key switching maps a substituted ciphertext back to the original key. Relin: Galois keys; substitution composed with key switching. Theorems: ThmRelin.v (proved, 7 theorems).
* **C33** Oblivious expansion turns encrypted monomials into a selection vector. Expand: both expanders; invariant over the levels of the expansion tree. Two documented cases refuted. Theorems: ThmExpand.v (partial, 11 theorems).
* **C34** ComputeNormalizer returns the inverse of 2^k modulo 2^log_t+1. Expand `compute_normalizer`. Theorems: ThmExpand.v (proved, 1 theorems).
* **C35** MakeCompressedVector places each index at the right coefficient. Expand `make_compressed_vector`. Theorems: ThmExpand.v (proved, 3 theorems).
* **C36** Public-key encryption decrypts to the plaintext. PubKey: key generation, encryption, decryption under a noise bound, serialization. Theorems: ThmPubKey.v (proved, 7 theorems).
* **C37** PRNG outputs are a fixed stream determined by the seed. Prng: buffered generators over abstract block functions; concurrent classes as interleavings of locked steps (linearizability). Counter overflow refuted as unbounded claim. Theorems: ThmPrng.v (proved, 7 theorems).
* **C38** Seed-compressed ciphertexts expand to the original ciphertexts. Relin: `EncryptWithPrng` and `ExpandFromPrng` consume the stream in step. Theorems: ThmRelin.v (proved, 2 theorems).
* **C39** Key serialization round-trips. Relin, AuxRelin serialization. Auxiliary keys with more than one component refuted. Theorems: ThmAuxRelin.v, ThmRelin.v (partial, 8 theorems).
* **C40** Auxiliary-modulus relinearization preserves the decryption up to bounded noise. AuxRelin: key switching through a modulus P q, division by P with rounding. Theorems: ThmAuxRelin.v (proved, 7 theorems).
* **C41** Uniform ternary sampling is in range and exactly uniform. Sampling: ternary sampler; exact law by counting. Theorems: ThmSample.v (proved, 3 theorems).
* **C42** Discrete Gaussian sampling combines base samples by the documented recursion. Gauss: for every interpretation of the double operations, against the documented recursion over the integers. Theorems: ThmGauss.v (proved, 7 theorems).
* **C43** CRT interpolation reconstructs the unique residue. RnsCtx `crt_interpolation`. Theorems: ThmRnsCtx.v (proved, 4 theorems).
* **C44** Ciphertext serialization round-trips. SymEnc: ciphertext serialization. Theorems: ThmKeys.v (proved, 4 theorems).
* **C45** Secret key serialization round-trips. SymEnc: secret key serialization. Theorems: ThmKeys.v (proved, 2 theorems).
* **C46** Arithmetic on secret keys. SymEnc: arithmetic on secret keys. Theorems: ThmKeys.v (proved, 3 theorems).
* **C47** Equality of polynomials is equality of their coefficients. Poly: equality compares stored words: false because of C05; proved for reduced words. Theorems: ThmExact.v, ThmKeys.v (partial, 4 theorems).
* **C48** Substitution in the secret key matches substitution in the ciphertext. Key substitution: proved when the plaintext parameters equal the ciphertext parameters; refuted otherwise. Theorems: ThmExact.v, ThmKeys.v (partial, 3 theorems).
* **C49** An RNS context holds the CRT constants it documents. RnsCtx: each factory function; every derived table against its definition. Theorems: ThmRnsCtx.v (proved, 7 theorems).
* **C50** RNS polynomial arithmetic is arithmetic in Z_Q[X]/(X^N+1). RnsPoly: Add, Sub, Negate, Mul and fused operations are operations modulo the product of the primes. Theorems: ThmRns.v (proved, 8 theorems).
* **C51** RNS polynomials: forms, substitution, constants, conversions and sampling. RnsPoly: constructors and conversions between forms. Theorems: ThmRns.v (proved, 6 theorems).
* **C52** RNS polynomial serialization round-trips. RnsPoly: serialization. Theorems: ThmRns.v (proved, 4 theorems).
* **C53** RNS modulus reduction divides by the last prime with the documented rounding. RnsPoly: ModReduceLsb and ModReduceMsb: exact quotients with the stated rounding. Theorems: ThmRns.v (proved, 3 theorems).
* **C54** Approximate RNS basis switch is off by a bounded multiple of Q. RnsPoly `ApproxSwitchRnsBasis`: the result is off by an explicit multiple of Q. Theorems: ThmRnsBasis.v (proved, 1 theorems).
* **C55** Exact RNS basis switch. RnsPoly `SwitchRnsBasis`: exact when the floating point quotient rounds correctly (`float_model`). Theorems: ThmRnsBasis.v (proved, 3 theorems).
* **C56** Extended and scaled RNS basis operations. RnsPoly: scaling and switching, approximate basis extension. Theorems: ThmRnsBasis.v (proved, 5 theorems).
* **C57** RNS error removal recovers the message. RnsCtx: `RemoveError` over big integers. Theorems: ThmRnsCtx.v (proved, 4 theorems).
* **C58** RNS ciphertext operations act on the decryption phase. RnsCt: phase algebra of every ciphertext operation. Theorems: ThmRnsCt.v (proved, 8 theorems).
* **C59** RNS secret-key encryption and decryption. RnsKey: sampling, encryption and decryption for all encoders. Theorems: ThmRnsKey.v (proved, 10 theorems).
* **C60** BGV modulus reduction keeps the message and shrinks the error. RnsCt: BGV modulus reduction keeps the phase modulo t up to the stated factor and shrinks the noise. Theorems: ThmRnsCt.v (proved, 2 theorems).
* **C61** BGV coefficient encoding, decoding and decryption. RnsEncode coefficient encoder, BGV. Theorems: ThmRnsBgv.v (proved, 7 theorems).
* **C62** BFV coefficient encoding, decoding and decryption. RnsEncode coefficient encoder, BFV, with `float_model`. Theorems: ThmRnsBfv.v (proved, 8 theorems).
* **C63** BFV ciphertext products, plaintext products and modulus reduction are correct. RnsBfv: multiplication through an auxiliary basis, absorption and modulus reduction of BFV ciphertexts. Theorems: ThmRnsBfvCt.v (proved, 10 theorems).
* **C64** An RNS gadget decomposes every polynomial into small digits that recombine to it. RnsGadget: Create and Decompose. Theorems: ThmRnsGadget.v (proved, 6 theorems).
* **C65** RNS Galois keys switch substituted ciphertexts back to the secret key and rotate the slots. RnsGadget: Galois keys; ring identities by the `ring` tactic in Z_Q[X]/(X^n+1). Theorems: ThmRnsGalois.v (proved, 10 theorems).
* **C66** RNS relinearization shortens a product without changing what it decrypts to. RnsGadget: relinearization keys. Theorems: ThmRnsRelin.v (proved, 8 theorems).
* **C67** RNS public-key encryption decrypts to the message. RnsPub: public keys. Theorems: ThmRnsPub.v (proved, 8 theorems).
* **C68** Lazy accumulation equals eager accumulation. RnsCt: lazy accumulators over RNS moduli. Theorems: ThmRnsLazy.v (proved, 3 theorems).
* **C69** Finite field encoding works slot by slot. RnsEncode finite field encoder: slots are evaluations at powers of 5 of the root. Theorems: ThmField.v (proved, 16 theorems).
* **C70** RNS sampling represents one small polynomial. RnsKey: error and ternary sampling over RNS moduli. Theorems: ThmRnsKey.v (proved, 5 theorems).
* **C71** The vectorised multiply-and-add equals the scalar one. RnsHwy: lanes as lists, Highway's operations by their documented meaning; entry-by-entry equality with the scalar loop, then induction on blocks and on calls. Theorems: ThmHwy.v (proved, 4 theorems).
* **C72** RNS ciphertexts survive serialization, conversion and late pads; comparisons mean what they say. RnsCt and RnsPoly; round trip component by component from C52, phases from the ring identities of C58. Theorems: ThmRnsCtMore.v (proved, 7 theorems).
* **C73** RLWE contexts are created exactly for usable parameters. Model Create with its int conversions and the checks of ErrorParams::Create; case analysis on each check using C02/C15; compose with C26 and C30 for the end-to-end statements. Two findings are theorems: a Fermat prime with log_t = log_modulus - 1 gives plaintext modulus 0 (C73_fermat_accepted), and size_t parameters above 2^32 are narrowed and accepted (C73_narrowing_accepted). Theorems: ThmContext.v (proved, 6 theorems).
* **C74** The error a ciphertext reports bounds its true error, for linear operations. Model error() as a real number beside the ciphertext (double rounding left out). Induction on the history with the invariant: an integer bound on every coefficient of the phase is at most the reported real; square roots are bounded by squaring. Counterexamples use a generator that always draws the extreme error. Uses the standard library's axioms of the real numbers. Theorems: ThmErrorEst.v (proved, 8 theorems).
* **C75** Every computation on ciphertexts decrypts to the same computation on plaintexts. Structural induction on the expression with the invariant that the phase of every intermediate ciphertext is an integer polynomial bounded by the tracked noise and congruent to the meaning modulo t; each step is one of C26-C28, C30-C32, C36, C40, C44. The chain theorem is an induction over the levels with C30. Theorems: ThmCircuit.v (proved, 3 theorems).
* **C76** Every computation on RNS BGV ciphertexts decrypts to the same computation on the messages. Structural induction on the expression, once for both encoders: an encoding is a relation between messages and polynomials closed under the ring operations and X -> X^p; the invariant is that every intermediate ciphertext has a phase bounded by the tracked noise that encodes the values. Each step is one of C58, C59, C60, C65, C66, C67, C72; the ends are C61 and C69. Theorems: ThmRnsCircuit.v (proved, 3 theorems).
* **C77** Every computation on RNS BFV ciphertexts decrypts to the same computation on the messages. Structural induction on the expression, once for both encoders, with the invariant that every intermediate ciphertext has a phase w and encodes its values by an integer polynomial m with |t w - Q m| at most the tracked error. Each step is one of C58, C59, C63, C65, C66, C67, C72; the ends are C62 and C69. The example is a lemma that the hypotheses hold in double precision for the objects made by explicit calls, and a computed run of them. Theorems: ThmRnsCircuitBfv.v (proved, 2 theorems).
* **C78** Messages from an untrusted sender cannot cause undefined behaviour, outside five stated cases. A small calculus of definedness (a result is an error or a value, never undefined) over the models of the readers and operations, with the shape facts each reader guarantees as the interface. Rejection sampling that has not finished within the fuel counts as still running. The refuted cases exhibit, for every message of the given shape, the read outside a table or the signed overflow. Theorems: ThmUntrusted.v (proved, 15 theorems).
* **C79** An in-place operation that returns an error leaves the ciphertext as it was, outside the stated cases. A second model of the in-place methods as functions to a status and the object after the call, written loop by loop in the order of the code (InPlace.v), proved to agree with the copying model. For one shape of components every component fails or none does, so that a failing walk fails at its first step; the refuted cases compute the object left behind. Theorems: ThmInPlace.v (proved, 11 theorems).
* **C80** An object may be the operand of its own in-place method; a scalar must not be a coefficient of the polynomial it multiplies. A third model of the in-place methods on a memory of vectors with addresses (Alias.v), each element read at the moment it is used. An induction over the elements and rows shows that what an operation reads at position i has not been written before, whether the addresses are equal or not; the walks then agree with InPlace.v. For a scalar inside the vector the resulting vector is computed exactly. Theorems: ThmAlias.v (proved, 7 theorems).
* **C81** Which arguments an RNS context can be created from. Existence of the transform parameters (NttProofs.init_ntt_ok) and their refusal (NttFacts.init_reject) lifted over the lists of moduli; the loop over the inverses modulo t is total and fails exactly on a common factor. Theorems: ThmShipped.v (proved, 5 theorems).
* **C82** The moduli the library ships are usable as documented. Pocklington's criterion proved from Fermat's little theorem (PrimeCert.v) and a chain of certificates checked by computation; the rest follows from C81, C18 and the theorem on transform parameters. Theorems: ThmShipped.v (proved, 7 theorems).
* **C83** The error an RNS BGV ciphertext reports bounds its true error, up to a factor computed from the history. The ciphertexts of C76 paired with error_ (real numbers); by induction on the computation the code's report is a function of the history, and slack times the worst-case phase of C76 is at most that function; decryption then follows from C61 and C69. Theorems: ThmRnsError.v (proved, 4 theorems).
* **C84** A private lookup by oblivious expansion returns the wanted records. The exchange written as calls to the modelled functions (LookupSpec.v); composes C24, C26, C32, C33 and C44-C46: the rebuilt query encrypts the vector, expansion gives selected ciphertexts with bounded errors, and the worst-case error of the weighted sum bounds the phase. Theorems: ThmLookup.v (proved, 2 theorems).
* **C85** Threads may share a ChaChaPrng or HkdfPrng object: every interleaving is a sequential run, no stream byte is handed out twice, no deadlock. A machine whose steps are the single accesses of each thread to the members and the mutex (Threads.v); an invariant over all executions says that the calls that have returned are a sequential run of the generator of C37 and that the call in progress, if any, is at a known point of the next sequential call; with C37 the run is the stream. The refutation exhibits an interleaving of the unlocked machine. Theorems: ThmThreads.v (proved, 6 theorems).
* **C86** The reference implementation the tests compare with (polynomials and ciphertexts as coefficients) computes the ring operations and agrees with the NTT implementation. Each loop is shown to compute the sum over monomials (mono, NegRing.v), with an invariant for the running index and sign of Substitute; coprimality makes the writes a permutation. Words are equal because both sides are fully reduced and have the same value; lists of components are handled with a relation between NTT and coefficient components. Theorems: ThmCoeffPoly.v (proved, 9 theorems).
* **C87** The discrete Gaussian sampler tabulates the Gaussian distribution and combines samples to at least the requested standard deviation. The sampler model is parametric in the operations on doubles; here it is instantiated with Coq's real numbers (rounding errors of doubles are not modelled). The table is computed by induction over the running sums; the total mass is bounded by blocks of ceil(s) terms so that the conversions to 64 bits are defined; growth of the deviations by squaring gives the bound on the number of levels; the variances follow from the weights. Theorems: ThmGaussReal.v (proved, 5 theorems).
* **C88** Calls with unfit arguments are refused, whatever else the arguments contain. Case analysis over the checks of each function; no other hypothesis is needed. Theorems: ThmRefuse.v, ThmRefuse2.v (proved, 10 theorems).
* **C89** Signed messages in slots come back as the integer results. The usual arithmetic conversions of C++ are a function of the two widths; the conversions are then exact or modulo 2^k, case by case. Computations: induction over the expression, then C76 and C77. Theorems: ThmSigned.v (proved, 9 theorems).
* **C90** A message enters a ciphertext only as a shift of an encryption of zero. The results of the addition and of the fused multiply-add are fully reduced words, so equal values are equal words: adding the message before or after the fused step gives the same word. Lifted to vectors, to RNS rows, through the binds of the encryption functions, and by induction over sequences. Theorems: ThmShift.v (proved, 11 theorems).
* **C91** Floating-point value of a 256-bit integer. Rounding to nearest with ties to even is defined on integers and shown to return a nearest representable number, hence to be monotone and the identity on representable numbers, with relative error at most 2^-b. The conversion rounds three times; the error bounds add up, and monotonicity across a carry into the high half uses that a value rounded up is a fixed point of rounding even after adding one. Theorems: ThmInt256Float.v (proved, 8 theorems).
* **C92** The power of a ciphertext names the key that decrypts it. Induction over the history. The invariant says that relabelling the ciphertext to power 1 gives a ciphertext that tracks the plaintext computation under the substituted key, so the single-step lemmas of C75 apply at every power; substitution composes by C48, and key switching leads back to the key itself by the contracts of C39 and C40. Theorems: ThmPower.v (proved, 7 theorems).
* **C93** Keys, masks and errors of fresh ciphertexts have exactly the promised distribution. Sums over scripts are split at word boundaries. The number of scripts of r attempts giving a vector satisfies Pascal's recurrence in the number of rejections; the error vector factors by Fubini from the single-coefficient count of C15. The map from (mask, error) to the ciphertext is shown injective: negation is injective on reduced residues and t is invertible modulo q. Theorems: ThmDist.v (proved, 6 theorems).
* **C94** Masks, errors, keys and fresh ciphertexts of the RNS schemes have exactly the promised distribution. A program reading a byte tape is summed over all tapes in continuation style: reading j bytes sums over a word and over the shorter tapes. Rejection sampling then multiplies the weight of the rest of the tape by a factor that does not mention the accepted residue, by induction on the retry limit, then on the coefficients, then on the primes. The map from (mask, error) to the ciphertext is shown injective through decryption: equal components have equal phases, t is invertible modulo the first prime and errors are below it. Theorems: ThmTape.v (proved, 6 theorems).
* **C95** The error reported for a sum of products does not depend on how the sum is accumulated. Every operation is paired with its error update; induction over the operands gives the total report for any operation that adds B times the operand's report. The lazy RNS operation is split into its first call and the rest. C29 and C68 supply the ciphertexts. Theorems: ThmErrorAcc.v (proved, 5 theorems).
* **C96** Sampling and encryption end, with a failure rate that halves with every attempt. Programs run on tapes of N bytes, counted as in C94. An attempt at a residue is rejected on at most half of its byte strings, so the weight of finished tapes obeys a recursion solved by induction on the attempts, then on the number of residues and primes. For the ternary sampler the expected number of missing bits falls by four in every round, summed over all pairs of bytes. Error sampling and the arithmetic never fail on a long enough tape (C94's lemmas). Theorems: ThmEnd.v (proved, 7 theorems).
* **C97** Public-key encryption uses three independent binomial polynomials, and never fails. The count over tapes of a program that samples an error vector is a weighted sum over error vectors (induction on the length, one coefficient by C24's count). Applied three times to Encrypt, whose arithmetic in between always succeeds on polynomials in range (C50's lemmas). Theorems: ThmPubTape.v (proved, 4 theorems).
* **C98** Public keys, Galois keys and relinearization keys have exactly the promised distribution. The loops of the three Create functions are brought into one form, a list of functions each applied to one sampled error polynomial. The count over tapes of that loop is a nested weighted sum (induction on the list, C97's average for one polynomial). The pads are counted with C94's weights, which do not depend on the outcome. Theorems: ThmKeyTape.v (proved, 5 theorems).
* **C99** Single-modulus public-key encryptions, public keys and key switching keys have exactly the promised distribution. Each call is shown equal to drawing its error vectors one after the other and then applying a function that never fails on drawn vectors (for key switching keys by induction on the two nested loops, with the pads drawn in between). The count over tapes of the draws is a nested weighted sum (C97's average), and C94's weights count the pads. Theorems: ThmOneTape.v (proved, 5 theorems).

## Trusted base

* Coq 8.16.1's kernel, including its virtual machine (`vm_compute` is used in
  examples and in a few bounded case analyses).
* Assumptions: `Print Assumptions` is run after every property theorem. It
  prints "Closed under the global context" for all of them except theorems of
  C74, C83 and C87, which are about real numbers (square roots, exponentials) and
  rest on the standard library's construction of the reals. For those it lists
  `ClassicalDedekindReals.sig_not_dec`, `ClassicalDedekindReals.sig_forall_dec`
  and `FunctionalExtensionality.functional_extensionality_dep`
  (C74_rns_scalar_refuted and C83_create only the last two); for C87_create and
  C87_base, which mention pi, also `Classical_Prop.classic`. No other axiom is used.
* The translation from C++ to Gallina by hand, documented by the citations on
  the definitions.
* The specification files listed above, which give the English statements their
  meaning.

## What is modelled

From `shell_encryption/`: bits_util.h, constants.h (the constants used),
montgomery.{h,cc}, int256.{h,cc} (conversions to floating point over IEEE 754 rounding to nearest),
transcription.h, ntt_parameters.{h,cc}, dft_transformations.h, polynomial.h,
opt/constant_polynomial.h, opt/lazy_polynomial.h, modulus_conversion.h,
gadget.h, sample_error.h, sampler/uniform_ternary.h,
sampler/discrete_gaussian.{h,cc} (with any arithmetic on doubles, and with exact
real arithmetic), prng/* (buffering, salts, locking; block
functions abstract), symmetric_encryption.h, symmetric_encryption_with_prng.h,
relinearization_key.{h,cc}, galois_key.h, aux_relinearization_key.{h,cc},
aux_galois_key.h, public_key_encryption.{h,cc}, oblivious_expand.h, and
serialization.proto as records.

From `shell_encryption/rns/`: rns_modulus.h, rns_integer.h,
rns_polynomial.{h,cc}, lazy_rns_polynomial.{h,cc}, crt_interpolation.h,
error_correction.h, error_distribution.h, rns_context.{h,cc},
rns_ciphertext.{h,cc}, rns_bgv_ciphertext.{h,cc}, rns_bfv_ciphertext.{h,cc},
coefficient_encoder.{h,cc}, finite_field_encoder.{h,cc},
rns_secret_key.{h,cc}, rns_public_key.{h,cc}, rns_bgv_public_key.{h,cc},
rns_bfv_public_key.{h,cc}, rns_gadget.{h,cc}, rns_galois_key.{h,cc},
rns_relinearization_key.{h,cc}, rns_polynomial_hwy.cc,
rns_error_params.h (except B_scale), and
rns/serialization.proto as records.

## What is not modelled

* The texts of error messages, logging, null-pointer checks, memory management,
  moves and lifetimes (a reference to a moved-from object, say). Objects are
  values; what happens when an operand is the object itself, or a part of it, is
  the subject of Alias.v, and what an object holds after a failing in-place call
  that of InPlace.v.
* The rounding of the double arithmetic in error_params.h and rns_error_params.h:
  ErrorEst.v and RnsErrorEst.v compute the estimates as real numbers. They
  influence the result of no operation, so the ciphertexts of the other files
  carry no `error_` member; these two files pair them with one.
  B_aux_mod_relinearize, B_scale of rns_error_params.h (which nothing uses) and
  the errors that BFV ciphertexts report are left out.
* The protobuf wire format.
* The implementation of the Highway library: RnsHwy.v takes its operations by
  their documented meaning. (One thing it leaves out: the documentation asks for 8
  readable bytes behind LoadMaskBits, and the code allocates (N + 7) / 8.)
* Hash or equality templates used by tests.
* rns/testing and testing/ (test parameters, matchers, the test generator), except coefficient_polynomial.h and coefficient_polynomial_ciphertext.h (C86; the error estimate there is omitted).
* Security: nothing is said about what an adversary learns. The laws of the samplers
  are exact counting statements about ideal draws.
