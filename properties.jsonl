{"id": "C01", "title": "Linear combinations evaluate homomorphically", "statement": "For LinearCombination values built with +/- of a variable, of (coeff, variable), of another LinearCombination or of (coeff, LinearCombination), the value under any assignment is the sum/difference/scaled sum of the values of the parts.", "quantifier": "every prime field, every linear combination, every coefficient and every assignment of the variables", "why_tests_cant": "tests use a handful of literal combinations; the identity must hold for every combination, coefficient and assignment", "anchors": ["src/lib.rs: LinearCombination, impl Add/Sub"]}
{"id": "C02", "title": "TestConstraintSystem reports satisfaction exactly", "statement": "After any sequence of synthesis calls that does not panic, is_satisfied() is true iff every enforced constraint A*B=C holds of the recorded assignment, and which_is_unsatisfied() names the first one that does not; num_constraints/num_inputs count exactly what was enforced/allocated; verify(expected) is true iff the public inputs equal expected.", "quantifier": "every synthesis program and every assignment", "why_tests_cant": "the set of circuits is unbounded", "anchors": ["src/gadgets/test/mod.rs: eval_lc, which_is_unsatisfied, is_satisfied, verify, num_constraints, num_inputs"]}
{"id": "C03", "title": "TestConstraintSystem paths name one object each", "statement": "A variable allocated under a path can be read back with get(path) with the value it was given, no later synthesis call can change what that path names or its value, a second object at an existing path panics, and set(path, v) changes the value of exactly that variable and nothing else.", "quantifier": "every history of calls", "why_tests_cant": "needs all histories, including those that collide late", "anchors": ["src/gadgets/test/mod.rs: alloc, alloc_input, enforce, set, get, set_named_obj, compute_path"]}
{"id": "C04", "title": "Namespaces never affect the circuit and always balance", "statement": "Entering namespaces changes neither the variables returned, the assignments nor the constraints seen by any constraint system, and every gadget leaves the namespace stack exactly as it found it, including when it returns an error early.", "quantifier": "every program built from the library's combinators, every constraint system, both the Ok and the Err exits", "why_tests_cant": "early-exit paths times nesting depth is unbounded", "anchors": ["src/lib.rs: Namespace, Drop for Namespace, ConstraintSystem::namespace", "src/gadgets/multieq.rs"]}
{"id": "C05", "title": "The circuit hash is a faithful fingerprint of the normalised system", "statement": "The byte stream that TestConstraintSystem::hash feeds to BLAKE2s depends only on the numbers of inputs, variables and constraints and on each linear combination as a function (order, duplicate and cancelling terms do not matter), and two systems with the same stream have equal counts and pairwise equal normalised linear combinations.", "quantifier": "every pair of constraint systems (with fewer than 2^64 variables and constraints)", "why_tests_cant": "injectivity is over all pairs of systems", "anchors": ["src/gadgets/test/mod.rs: proc_lc, hash_lc, hash"]}
{"id": "C06", "title": "Key generation and proving see the same instance", "statement": "For one and the same sequence of allocations and constraints, entry k of the prover's A/B/C evaluation vectors is the sum over the variables of assignment times the coefficient recorded by the key generator for that variable in constraint k (including the appended input constraints), and both count the same inputs, auxiliary variables and constraints.", "quantifier": "every circuit and every assignment", "why_tests_cant": "all circuits and witnesses", "anchors": ["groth16/src/generator.rs: KeypairAssembly", "groth16/src/prover.rs: ProvingAssignment, eval"]}
{"id": "C07", "title": "Allocated bits are bits", "statement": "In any assignment satisfying the constraints, the variable made by AllocatedBit::alloc is 0 or 1; that made by alloc_conditionally is 0 or 1 and is 0 when the condition bit is 1. Conversely for a known value the honest assignment satisfies the constraints (for alloc_conditionally unless value and condition are both true).", "quantifier": "every field, every assignment (adversarial prover), every constraint system", "why_tests_cant": "assignments range over a ~2^255 element field", "anchors": ["src/gadgets/boolean.rs: AllocatedBit::alloc, alloc_conditionally"]}
{"id": "C08", "title": "Bit gates compute their truth table, soundly and completely", "statement": "For AllocatedBit::xor/and/and_not/nor on bits, every satisfying assignment gives the result variable the truth-table value, and honest synthesis yields that value and satisfies the constraints.", "quantifier": "every field, operand pair, assignment and constraint system", "why_tests_cant": "adversarial assignments cannot be enumerated", "anchors": ["src/gadgets/boolean.rs: AllocatedBit::xor, and, and_not, nor"]}
{"id": "C09", "title": "Boolean logic is correct for every representation", "statement": "Boolean::not/xor/and on any mix of constants, variables and negated variables denote negation, exclusive or and conjunction under every satisfying assignment; lc/get_value agree with the denotation; enforce_equal is satisfiable exactly when both denote the same bit, and fails with Unsatisfiable exactly for two different constants.", "quantifier": "all representation combinations, fields, assignments", "why_tests_cant": "soundness is over all field assignments", "anchors": ["src/gadgets/boolean.rs: Boolean"]}
{"id": "C10", "title": "SHA-256 choice and majority bits", "statement": "Boolean::sha256_ch and sha256_maj denote (a&b)^(!a&c) and (a&b)^(a&c)^(b&c) for every mix of constant, variable and negated operands, in every satisfying assignment, and honest synthesis satisfies their constraints.", "quantifier": "all operand representations, fields, assignments", "why_tests_cant": "soundness is over all field assignments", "anchors": ["src/gadgets/boolean.rs: sha256_ch, sha256_maj"]}
{"id": "C11", "title": "Bit-decomposition helpers give the little-endian bits", "statement": "u64_into_boolean_vec_le allocates 64 bits whose values are the little-endian bits of the integer; field_into_allocated_bits_le / field_into_boolean_vec_le allocate NUM_BITS bits whose values are the little-endian bits of the canonical representative, all boolean-constrained.", "quantifier": "every value, every field", "why_tests_cant": "all 2^64 integers and all field elements", "anchors": ["src/gadgets/boolean.rs: u64_into_boolean_vec_le, field_into_boolean_vec_le, field_into_allocated_bits_le"]}
{"id": "C12", "title": "AllocatedNum arithmetic is sound and complete", "statement": "mul, square, inputize and conditionally_reverse force the product, the square, an equal public input, and the swapped/unswapped pair; assert_nonzero is satisfiable iff the number is non-zero and synthesis reports DivisionByZero exactly for a known zero.", "quantifier": "every field, value and assignment", "why_tests_cant": "field-sized quantification", "anchors": ["src/gadgets/num.rs: AllocatedNum"]}
{"id": "C13", "title": "Strict bit decomposition is unique and canonical", "statement": "In every satisfying assignment to_bits_le_strict returns NUM_BITS booleans that are exactly the canonical (less than the modulus) little-endian representation of the number; honest synthesis always succeeds.", "quantifier": "every prime field with odd modulus, every number, every assignment", "why_tests_cant": "the congruent representation x+p is the attack; it exists for most x and cannot be enumerated", "anchors": ["src/gadgets/num.rs: to_bits_le_strict"]}
{"id": "C14", "title": "Plain bit decomposition is a congruence", "statement": "to_bits_le returns NUM_BITS booleans whose little-endian value is congruent to the number modulo the field characteristic in every satisfying assignment, honest synthesis gives the canonical bits, and non-canonical bit strings really are accepted whenever they fit NUM_BITS bits.", "quantifier": "every field, number, assignment", "why_tests_cant": "field-sized quantification", "anchors": ["src/gadgets/num.rs: to_bits_le"]}
{"id": "C15", "title": "Num accumulates booleans", "statement": "Num::add_bool_with_coeff / Num::lc: under any assignment the linear combination equals the sum of the coefficients of the true booleans, and the tracked value agrees with it.", "quantifier": "every sequence of additions, every assignment", "why_tests_cant": "unbounded sequences", "anchors": ["src/gadgets/num.rs: Num"]}
{"id": "C16", "title": "Three-bit table lookup", "statement": "lookup3_xy returns, in every satisfying assignment, the pair of coordinates at the index denoted by the three booleans, for every table and every representation of the booleans; honest synthesis satisfies the constraints.", "quantifier": "all tables of 8 points over the field, all boolean representations, all assignments", "why_tests_cant": "all tables over the field", "anchors": ["src/gadgets/lookup.rs: synth, lookup3_xy"]}
{"id": "C17", "title": "Table lookup with conditional negation", "statement": "lookup3_xy_with_conditional_negation returns x = coords[i].0 and y = coords[i].1 or its negation when bit 2 is set, in every satisfying assignment, and honest synthesis satisfies the constraints.", "quantifier": "all tables of 4 points, all boolean representations, all assignments", "why_tests_cant": "all tables over the field", "anchors": ["src/gadgets/lookup.rs: lookup3_xy_with_conditional_negation"]}
{"id": "C18", "title": "Input packing matches the verifier's packing and loses nothing", "statement": "pack_into_inputs exposes as public inputs exactly compute_multipacking of the bits (in every satisfying assignment and in honest synthesis), and compute_multipacking is injective on bit strings of equal length; bytes_to_bits(_le) lists the bits of the bytes most/least significant first.", "quantifier": "bit strings of every length, every field", "why_tests_cant": "all lengths and contents", "anchors": ["src/gadgets/multipack.rs"]}
{"id": "C19", "title": "Batched equality constraints imply every single equality", "statement": "If every pair handed to MultiEq::enforce_equal(n, l, r) evaluates to integers below 2^n, then any assignment satisfying the constraints emitted by the MultiEq (including the one on drop) satisfies l = r for each pair; an assignment satisfying each l = r satisfies the emitted constraints; nothing is left unenforced whatever the number of calls and capacity overflow points.", "quantifier": "every sequence of enforce_equal calls and interleaved operations, every field", "why_tests_cant": "overflow points depend on the sequence of widths; adversarial assignments", "anchors": ["src/gadgets/multieq.rs"]}
{"id": "C20", "title": "UInt32 bit operations", "statement": "constant/alloc/into_bits(_be)/from_bits(_be)/rotr/shr/xor/sha256_ch/sha256_maj on UInt32 denote the corresponding u32 operations under every satisfying assignment for every mix of constant and variable bits, and the tracked value agrees with the bits.", "quantifier": "all 32-bit words, rotation amounts, bit representations, assignments", "why_tests_cant": "2^32 values times representations times assignments", "anchors": ["src/gadgets/uint32.rs"]}
{"id": "C21", "title": "UInt32 modular addition", "statement": "addmany of 2..10 words denotes their sum modulo 2^32 in every assignment satisfying the constraints of the surrounding MultiEq, honest synthesis satisfies them, and outside 2..10 operands it panics.", "quantifier": "all operand lists, representations, assignments, fields of at least 64 bits", "why_tests_cant": "2^320 operand combinations and adversarial carry assignments", "anchors": ["src/gadgets/uint32.rs: addmany"]}
{"id": "C22", "title": "The SHA-256 gadget is SHA-256", "statement": "For input bits of any length divisible by 8, in every satisfying assignment the 256 output bits of sha256 are the FIPS 180-4 SHA-256 digest of the input bits; honest synthesis succeeds, satisfies all constraints and yields the digest.", "quantifier": "every message length and content, every representation of the bits, every assignment", "why_tests_cant": "unbounded message lengths and adversarial assignments; tests sample random messages of at most 255 bytes", "anchors": ["src/gadgets/sha256.rs"]}
{"id": "C23", "title": "The BLAKE2s gadget is BLAKE2s-256 with personalisation", "statement": "For input bits of any length divisible by 8 and any 8-byte personalisation, in every satisfying assignment the 256 output bits are the RFC 7693 BLAKE2s digest (32-byte output, unkeyed, personalised); honest synthesis succeeds and yields the digest.", "quantifier": "every message length, content and personalisation, every assignment", "why_tests_cant": "unbounded message lengths and adversarial assignments", "anchors": ["src/gadgets/blake2s.rs"]}
{"id": "C24", "title": "Gadget structure does not depend on the witness", "statement": "Synthesising a gadget with unknown values (key generation) and with known values (proving) allocates the same variables and enforces the same constraints in the same order. For operations on 32-bit words this is claimed for words whose value is known whenever all their bits are constants; alloc, constant, xor, rotr and addmany preserve that condition.", "quantifier": "every gadget, every input shape, every witness", "why_tests_cant": "a proof made with a different circuit shape is silently invalid; needs all witnesses", "anchors": ["src/gadgets/*.rs", "groth16/src/generator.rs", "groth16/src/prover.rs"]}
{"id": "C25", "title": "Evaluation domain sizing", "statement": "from_coeffs pads with zeros to the least power of two not below the length, keeps the coefficients, picks a root of unity of exactly that order, and fails with PolynomialDegreeTooLarge exactly when that power needs an exponent of at least the two-adicity.", "quantifier": "every coefficient vector, every field", "why_tests_cant": "all lengths", "anchors": ["src/domain.rs: from_coeffs"]}
{"id": "C26", "title": "The FFT computes the discrete Fourier transform for every thread count", "statement": "For every domain and any number of worker threads, fft leaves at index k the value sum_j a_j * omega^(jk), whether the serial or the parallel algorithm is chosen, for scalars and for group elements.", "quantifier": "every vector, size, thread count", "why_tests_cant": "sizes and thread counts unbounded", "anchors": ["src/domain.rs: fft, best_fft, serial_fft, parallel_fft, bitreverse"]}
{"id": "C27", "title": "Inverse transforms invert", "statement": "ifft undoes fft and fft undoes ifft; icoset_fft undoes coset_fft and conversely; coset_fft evaluates the polynomial at generator*omega^k.", "quantifier": "every vector, size, thread count", "why_tests_cant": "sizes and values unbounded", "anchors": ["src/domain.rs: ifft, coset_fft, icoset_fft, distribute_powers"]}
{"id": "C28", "title": "Quotient computation on the coset", "statement": "z(tau) = tau^m - 1; the sequence ifft/coset_fft/mul_assign/sub_assign/divide_by_z_on_coset/icoset_fft used by the prover returns the coefficients of the unique quotient H with A*B - C = H*(x^m-1) whenever A*B - C vanishes on the domain, and its last coefficient is zero.", "quantifier": "every satisfied instance, size, thread count", "why_tests_cant": "all polynomials", "anchors": ["src/domain.rs: z, divide_by_z_on_coset, mul_assign, sub_assign", "groth16/src/prover.rs: create_proof"]}
{"id": "C29", "title": "Parallel loops are schedule- and thread-count-independent", "statement": "Worker::scope chunking hands every element to exactly one task, for every number of threads, and any interleaving of the spawned tasks leaves the vector that the sequential loop would leave.", "quantifier": "every vector length, thread count, interleaving", "why_tests_cant": "interleavings", "anchors": ["src/multicore.rs: scope", "src/domain.rs: chunked loops", "groth16/src/generator.rs: chunked loops"]}
{"id": "C30", "title": "Worker::compute delivers each result once and bounds the backlog", "statement": "For every interleaving of compute calls and task completions: a Waiter obtains exactly the value its own closure returned and does so at most once; a result whose waiter is still alive can always be obtained; the spawn counter equals the number of unfinished tasks; at most 4*threads + 1 queued (non-inline) tasks are unfinished at any time; a panicking closure delivers nothing and (when the process survives) makes its wait() panic; a closure that panics, or whose Waiter was dropped before it sent its result, leaves the counter permanently raised, and once more than 4*threads have done so every further call runs inline.", "quantifier": "every interleaving and every outcome of the closures", "why_tests_cant": "schedules", "anchors": ["src/multicore.rs: compute, Waiter::wait, Waiter::done"]}
{"id": "C31", "title": "log_num_threads is the floor of the binary logarithm", "statement": "2^log_num_threads() <= threads < 2^(log_num_threads()+1).", "quantifier": "every positive thread count", "why_tests_cant": "all counts", "anchors": ["src/multicore.rs: log2_floor"]}
{"id": "C32", "title": "Multiexponentiation equals the naive sum", "statement": "When it returns Ok, multiexp yields the sum over the dense positions, in order, of exponent times the next base, independently of the window size, density representation and number of exponents.", "quantifier": "every base vector, density, exponent vector, window size, field", "why_tests_cant": "sizes and values unbounded", "anchors": ["src/multiexp.rs: multiexp, multiexp_inner, Exponent, Source"]}
{"id": "C33", "title": "Multiexponentiation fails exactly on missing or identity bases", "statement": "multiexp returns an error iff the source has fewer bases than dense positions or some dense position with a non-zero exponent meets an identity base; it panics iff a density map of known size disagrees with the number of exponents.", "quantifier": "every input", "why_tests_cant": "all inputs", "anchors": ["src/multiexp.rs: Source for (Arc<Vec<G>>, usize)"]}
{"id": "C34", "title": "Density tracking counts distinct variables", "statement": "After any history of add_element and inc, get_total_density is the number of distinct indices inc'ed, and iteration yields true exactly at those; inc out of range panics.", "quantifier": "every history", "why_tests_cant": "histories", "anchors": ["src/multiexp.rs: DensityTracker"]}
{"id": "C35", "title": "Generated parameters have the documented form", "statement": "generate_parameters returns vk and queries whose elements are the documented group elements: ic_i and l_i are (beta*u_i+alpha*v_i+w_i)/gamma or /delta at tau, h_i = tau^i*t(tau)/delta, a/b queries are u_i(tau), v_i(tau) with zero evaluations omitted, u_i, v_i, w_i being the interpolations of the circuit's matrices on the domain.", "quantifier": "every circuit, toxic waste, thread count", "why_tests_cant": "all circuits", "anchors": ["groth16/src/generator.rs: generate_parameters, eval"]}
{"id": "C36", "title": "Parameter generation rejects exactly the degenerate cases", "statement": "generate_parameters propagates synthesis errors, fails with PolynomialDegreeTooLarge when the constraints exceed the domain limit, UnexpectedIdentity when gamma or delta is zero, UnconstrainedVariable when some auxiliary variable's l element is the identity, and otherwise succeeds.", "quantifier": "every circuit and toxic waste", "why_tests_cant": "all circuits", "anchors": ["groth16/src/generator.rs"]}
{"id": "C37", "title": "Groth16 completeness", "statement": "For parameters generated for a circuit, a proof created from any satisfying witness with any randomness r, s verifies against that witness's public inputs, for every toxic waste at which the prover's density bookkeeping agrees with the non-zero query elements.", "quantifier": "every circuit, witness, randomness, toxic waste, thread count", "why_tests_cant": "unbounded circuits; field-sized randomness", "anchors": ["groth16/src/generator.rs", "groth16/src/prover.rs", "groth16/src/verifier.rs"]}
{"id": "C38", "title": "verify_proof decides exactly the Groth16 equation", "statement": "verify_proof returns Ok iff the number of inputs is ic.len()-1 and e(A,B) = e(alpha,beta) + e(ic_0 + sum x_i ic_i, gamma) + e(C, delta); it returns InvalidVerifyingKey iff the number of inputs is wrong and InvalidProof otherwise.", "quantifier": "every key, proof and input vector", "why_tests_cant": "all group elements", "anchors": ["groth16/src/verifier.rs"]}
{"id": "C39", "title": "Proofs hide the witness", "statement": "For one instance, two satisfying witnesses with the same public inputs, and delta != 0, there is a bijection of the randomness (r,s) under which create_proof returns the identical proof (perfect witness indistinguishability).", "quantifier": "every circuit, witness pair and randomness", "why_tests_cant": "distributional statement over the whole field", "anchors": ["groth16/src/prover.rs: create_proof"]}
{"id": "C40", "title": "Batch verification accepts every valid batch", "statement": "If every queued proof verifies individually then Verifier::verify and verify_multicore return Ok, whatever the random coefficients, chunking and reduction order.", "quantifier": "every batch, every random stream, every reduction tree", "why_tests_cant": "all batches and randomness", "anchors": ["groth16/src/verifier/batch.rs"]}
{"id": "C41", "title": "Batch verification catches invalid proofs except for few coefficients", "statement": "If some queued proof does not verify, then for every choice of the other coefficients at most one value of that item's coefficient makes Verifier::verify accept; for verify_multicore at most 8 non-zero values of its chunk's coefficient do.", "quantifier": "every batch and random stream", "why_tests_cant": "probability bound over the field", "anchors": ["groth16/src/verifier/batch.rs"]}
{"id": "C42", "title": "Batch verification rejects wrong input counts and is otherwise the single check", "statement": "verify and verify_multicore return InvalidVerifyingKey iff some item has a wrong number of inputs, the empty batch is accepted, and a batch of one is accepted iff verify_single accepts.", "quantifier": "every batch", "why_tests_cant": "all batches", "anchors": ["groth16/src/verifier/batch.rs"]}
{"id": "C43", "title": "Proof encoding round-trips and rejects everything else", "statement": "Proof::read of Proof::write returns the proof for proofs without identity elements, leaves following bytes unread, fails on every proper prefix, and fails when an element is undecodable or the identity.", "quantifier": "every proof, every truncation point, every byte string", "why_tests_cant": "all byte strings and crash points", "anchors": ["groth16/src/lib.rs: Proof::write, read"]}
{"id": "C44", "title": "VerifyingKey encoding round-trips", "statement": "VerifyingKey::read of write returns the key when it has fewer than 2^32 ic elements, none of them the identity; every proper prefix is rejected; identity ic elements are rejected.", "quantifier": "every key, every truncation point", "why_tests_cant": "all keys and crash points", "anchors": ["groth16/src/lib.rs: VerifyingKey::write, read"]}
{"id": "C45", "title": "Parameters encoding round-trips", "statement": "Parameters::read of write returns the parameters (checked or unchecked) when the vectors have fewer than 2^32 non-identity elements; every proper prefix is rejected; identity elements in any query are rejected.", "quantifier": "every parameter set, every truncation point, both modes", "why_tests_cant": "all parameters and crash points", "anchors": ["groth16/src/lib.rs: Parameters::write, read"]}
{"id": "C46", "title": "The prover fails cleanly", "statement": "create_proof returns the circuit's own synthesis error (e.g. AssignmentMissing) when synthesis fails, PolynomialDegreeTooLarge when the constraints exceed the domain limit, and UnexpectedIdentity when delta is the identity in the verifying key; it never returns a proof in these cases.", "quantifier": "every circuit and key", "why_tests_cant": "all circuits", "anchors": ["groth16/src/prover.rs: create_proof"]}
{"id": "C47", "title": "Completeness for linear combinations that cancel", "statement": "A satisfying witness always yields a verifying proof, even when a constraint mentions a variable with coefficients that cancel out (x - x).", "quantifier": "every circuit", "why_tests_cant": "a property over all circuits; expected to fail, see the refutation", "anchors": ["groth16/src/prover.rs: eval", "groth16/src/generator.rs: eval"]}
{"id": "C48", "title": "Single-threaded builds behave like multicore builds", "statement": "With the multicore feature disabled, parameter generation behaves as with it enabled, for every circuit.", "quantifier": "every circuit, both feature settings", "why_tests_cant": "all circuits; expected to fail for circuits with empty vectors, see the refutation", "anchors": ["src/multicore.rs: scope (not multicore)", "groth16/src/generator.rs"]}
{"id": "C49", "title": "Lookup coefficients interpolate the table", "statement": "For every window size w and at most 2^w constants, synth produces 2^w coefficients such that for each index b the sum of the coefficients at the submasks of b is constants[b].", "quantifier": "all window sizes, all tables over the field", "why_tests_cant": "the test uses window size 4 and one random table", "anchors": ["src/gadgets/lookup.rs: synth"]}
{"id": "C50", "title": "Any composition of word operations is witness-independent", "statement": "Any circuit built from UInt32 operations (alloc, constant, xor, rotr, shr, sha256_ch, sha256_maj, addmany in a MultiEq) allocates the same variables during key generation and proving. (Found to be false: sha256_ch with a constant selector can yield an all-constant word of unknown value, which addmany treats differently in the two phases.)", "quantifier": "every composition of UInt32 operations", "why_tests_cant": "tests only exercise the compositions used by the hash gadgets", "anchors": ["src/gadgets/uint32.rs"]}
{"id": "C51", "title": "The test engine's field is the integers modulo 64513", "statement": "On reduced residues the Wrapping<u32> operations of the dummy engine (add, sub, neg, mul, square, double, pow, invert) compute the operations of the integers modulo 64513, always return reduced residues, and never overflow into a wrong result; the declared constants (TWO_INV, generator, root of unity and inverse, DELTA, S, NUM_BITS, CAPACITY) are what ff demands, the generator has order 64512; to_repr/from_repr are mutually inverse and from_repr rejects exactly the values from 64513 up; multi_miller_loop is the sum of products.", "quantifier": "all reduced residues, all exponents below 2^64, all byte strings", "why_tests_cant": "2^32 pairs of operands and unbounded byte strings; the engine itself is only used, never tested", "anchors": ["groth16/src/tests/dummy_engine.rs"]}
{"id": "C52", "title": "The test engine's square root", "statement": "Fr::sqrt returns a square root for every square and none for every non-square. (Found to be false: it does not terminate on zero and underflows on every non-residue.)", "quantifier": "every reduced residue", "why_tests_cant": "never called by the tests", "anchors": ["groth16/src/tests/dummy_engine.rs: sqrt"]}
{"id": "C53", "title": "The MiMC circuit of the integration tests is the MiMC function", "statement": "The function mimc computes LongsightF322p3. The constraints the circuit MiMCDemo contributes to the keys are satisfiable with public input y exactly when y is the image of some preimage, and whatever satisfies them has the image of its first two auxiliary values as public input; the prover's assignment satisfies them; created proofs verify against the image; key generation, proving and verification all succeed but for fewer than two million values of tau (322 rounds). A wrong number of constants panics, a missing half of the preimage is AssignmentMissing for the prover and a panic for key generation if only the second half is missing.", "quantifier": "every field and engine, every number of rounds, all constants, preimages, assignments, toxic waste and randomness", "why_tests_cant": "the tests try 50 random preimages of one circuit and no wrong assignments", "anchors": ["groth16/tests/common/mod.rs", "groth16/benches/batch.rs", "groth16/tests/mimc.rs"]}
{"id": "C54", "title": "Few values of tau can make the proof system fail", "statement": "For a satisfied circuit none of whose variables cancels out, with nonzero generators, gamma and delta, the values of tau for which key generation fails, or some proof cannot be created, or some created proof does not verify, number at most m + 1 + (2 inputs + 3 aux)(m - 1) where m is the size of the evaluation domain.", "quantifier": "every circuit, witness, engine, field, worker, alpha, beta, gamma, delta, and every list of distinct failing values of tau", "why_tests_cant": "counts over all values of the toxic waste", "anchors": ["groth16/src/generator.rs: generate_parameters", "groth16/src/prover.rs: create_proof", "groth16/src/verifier.rs: verify_proof"]}
{"id": "C55", "title": "Randomised entry points draw in a fixed order; the integration tests can only fail in three ways", "statement": "generate_random_parameters draws g1, g2, alpha, beta, gamma, delta, tau in this order and create_random_proof draws r, s, each handing them to the deterministic function. For any generator of random values, one round of the MiMC tests either fails to create the proof, or creates a proof containing the identity and fails to read it back, or reads the same proof back and accepts it; hence the tests test_mimc and batch_verify stop only at the unwrap of key generation, of proof creation, or of Proof::read: the assertions on verify_proof and on the batch never fail, writing never fails, and nothing else panics.", "quantifier": "every random generator, every number of rounds between 1 and 2^30 - 1, number of samples, engine, encoding, worker", "why_tests_cant": "the tests run with one generator and one number of samples", "anchors": ["groth16/src/generator.rs: generate_random_parameters", "groth16/src/prover.rs: create_random_proof", "groth16/tests/mimc.rs: test_mimc, batch_verify"]}
{"id": "C56", "title": "Proofs are affine in the randomness, and almost all can be read back", "statement": "Whatever the parameters and the circuit: if create_proof succeeds for one pair (r, s) it succeeds for all, and there are fixed group elements a, b1, b2, c with A = a + r delta1, B = b2 + s delta2, C = c + r b1 + s a + r s delta1. Proofs that Proof::read does not read back after Proof::write occur for every s at no more than one value of r, and for any other r at no more than two values of s.", "quantifier": "every circuit, parameters (generated or not), worker, engine, encoding, r, s", "why_tests_cant": "counts over all r and s", "anchors": ["groth16/src/prover.rs: create_proof", "groth16/src/lib.rs: Proof::read, Proof::write"]}
{"id": "C57", "title": "What the verifier's equation leaves free", "statement": "If (A, B, C) is accepted, so are (kA, B/k, C) for every nonzero k and (A, B + t delta2, C + t A) for every t, for the same inputs. If pairing with delta2 has no kernel, C is determined by A, B and the inputs; if pairing with gamma2 has none, all inputs accepted with one proof have the same combination of the ic elements.", "quantifier": "every verifying key, proof, inputs, k, t, engine", "why_tests_cant": "ranges over all keys and proofs", "anchors": ["groth16/src/verifier.rs: verify_proof"]}
{"id": "C58", "title": "Proofs can be simulated from the toxic waste, with the same distribution", "statement": "With generated keys, the simulated proof for scalars a, b (a g1, b g2 and the third element solved from the verifier's equation with alpha, beta, gamma, delta) is accepted for every input vector of the right length, without any witness. For a satisfying witness with which proving is possible and nonzero generators, every created proof is a simulated one for its public inputs, and every simulated proof is created by exactly one pair (r, s).", "quantifier": "every circuit, witness, inputs, toxic waste, a, b, r, s, worker, engine", "why_tests_cant": "a statement on the set of all proofs", "anchors": ["groth16/src/generator.rs: generate_parameters", "groth16/src/prover.rs: create_proof", "groth16/src/verifier.rs: verify_proof"]}
{"id": "C59", "title": "Proofs depend neither on the number of threads nor on the window size", "statement": "create_proof gives the same result - the same proof, the same error or the same panic - with every number of threads and with the single-threaded build, for every circuit and parameters. Whether there is a proof, and which, does not depend on the logarithm that decides the window size of the multiexponentiations (only which of two possible errors is reported may). generate_parameters gives the same with every number of threads.", "quantifier": "every two workers, every two logarithm functions with values in 1..63, every circuit, parameters (generated or not), r, s, toxic waste, engine", "why_tests_cant": "the tests run on one machine with one number of threads", "anchors": ["groth16/src/prover.rs: create_proof", "groth16/src/generator.rs: generate_parameters", "src/multiexp.rs: multiexp", "src/domain.rs", "src/multicore.rs: scope"]}
{"id": "C60", "title": "The demonstration circuits and unit tests of the groth16 crate", "statement": "An assignment satisfies XorDemo exactly if its two private values are bits and its public input is their exclusive or; one satisfies MultWithZeroCoeffs exactly if its third value is the product of the first two, whichever variable has the zero coefficient. Proofs of XorDemo made with generated keys verify. For all but 79 (14) values of tau, keys are generated and every proof is made and verifies, given alpha different from beta (alpha and beta not zero). Every assertion of test_xordemo, with its literal numbers, and of the two zero_coeff tests holds with every number of threads.", "quantifier": "every field, engine, bits or factors, toxic waste, randomness, worker; for the tests every worker and logarithm", "why_tests_cant": "the tests check one choice of bits, toxic waste and number of threads", "anchors": ["groth16/src/tests/mod.rs: XorDemo, MultWithZeroCoeffs, test_xordemo, zero_coeff_test"]}
{"id": "C61", "title": "Proofs created from witnesses that do not satisfy the constraints", "statement": "For every circuit and witness there is one polynomial D with 2*2^e - 1 coefficients (2^e the size of the evaluation domain) whose values on the domain are what the constraints are off by, and which is zero if the witness satisfies them, such that a proof created from the witness is accepted exactly if D(tau) times the pairing of the generators is zero. D depends neither on the rest of the toxic waste nor on the generators, the randomness of the proof or the number of threads. So if some constraint is violated, proofs are accepted for at most 2*2^e - 2 values of tau.", "quantifier": "every circuit, witness (satisfying or not), toxic waste, generators, r, s, worker, engine; for the bound, generators with non-zero pairing", "why_tests_cant": "the bound is over all values of the secret tau", "anchors": ["groth16/src/prover.rs: create_proof", "groth16/src/generator.rs: generate_parameters", "groth16/src/verifier.rs: verify_proof"]}
{"id": "C62", "title": "Whoever puts accepted proofs together from the elements of the key knows a witness", "statement": "Fix how the three elements of a proof are put together from the elements of the key as linear combinations (plus any polynomials of degree below the size 2^e of the domain, evaluated at tau in the exponent). If the result is accepted for more than (3*2^e + 5) N^4 of the N^5 toxic wastes from a set of N field elements, then the coefficients of the l elements in the third element of the proof are, with the public inputs, a witness satisfying every constraint. So for public inputs without a witness no such way is accepted more often. The a, b_g1 and b_g2 elements of a key are such polynomials at tau, and the prover of the library is such a way whose coefficients are its witness.", "quantifier": "every circuit, coefficients, polynomials, public inputs, set of field elements, engine, and for each toxic waste every worker and generators with non-zero pairing", "why_tests_cant": "it is a statement about all forgers of this kind and most secrets", "anchors": ["groth16/src/generator.rs: generate_parameters", "groth16/src/verifier.rs: prepare_verifying_key, verify_proof", "groth16/src/prover.rs: create_proof"]}
{"id": "C63", "title": "Keys and proofs survive being stored in files", "statement": "A generated key written to a file and read back, checked or unchecked, is the same key and leaves the following bytes unread, unless an element of the key that belongs to a public input or to a power of tau is the identity: then reading it fails with InvalidData. For beta not zero this happens for at most 2^e + 1 + inputs * (2^e - 1) values of tau (2^e the size of the domain). The verifying key can be read from the beginning of a key file. If a key, a proof made with the key that was read, and the verifying key pass through files, then whatever can be read is what was written, and the proof verifies.", "quantifier": "every circuit, satisfying witness, toxic waste, generators, randomness, worker, engine, encoding of the groups, bytes following in the files", "why_tests_cant": "the tests store one key and one proof; the accidents depend on the random toxic waste", "anchors": ["groth16/src/lib.rs: Parameters::write, Parameters::read, VerifyingKey::read, Proof::read", "groth16/src/generator.rs: generate_parameters", "groth16/src/prover.rs: create_proof"]}
{"id": "C64", "title": "The key is a function of the three matrices, and tells different matrices apart", "statement": "Two circuits with the same numbers of inputs, auxiliary variables and constraints, in whose constraints the coefficients of every variable add up to the same, get the same result from the generator for the same toxic waste (the same key, error or panic), however their linear combinations are written (order, repetitions, zero coefficients). Conversely, if two circuits get the same key for more than (2^e + 1) * N^2 of the N^3 triples (alpha, beta, tau) over a set of N field elements (2^e the size of the first circuit's domain; any gamma, delta, generators with g1 not the identity, and workers), then they have the same numbers of inputs, auxiliary variables and constraints and the same matrices.", "quantifier": "every two circuits, toxic waste, generators, workers, set of field elements", "why_tests_cant": "no test compares the keys of two circuits; the converse counts over toxic waste", "anchors": ["groth16/src/generator.rs: generate_parameters, KeypairAssembly", "src/lib.rs: LinearCombination"]}
{"id": "C65", "title": "What every gadget costs", "statement": "Every successful run of a gadget, from any state and with any values, adds a number of variables, inputs and constraints that depends only on which input bits are constants, and is the same for KeypairAssembly, ProvingAssignment and TestConstraintSystem. Boolean gates: one variable and one constraint if both inputs are variables, none otherwise; sha256_ch one if at least two inputs are variables (none if the first is the constant 0), sha256_maj one less than it has variable inputs. addmany in its own MultiEq: as many variables as the largest possible sum has bits and one constraint more; nothing if all is constant and known. to_bits_le: num_bits variables, one constraint more; to_bits_le_strict: additionally one per set bit of r-1 but one. pack_into_inputs: ceil(bits / capacity) inputs and constraints. sha256, sha256_block_no_padding and blake2s: the sums of an independent price list (which word operations meet variables; sums of CAPACITY bits share one MultiEq constraint). In particular hashing constants is free, leading constant blocks are free, and over a field of capacity 254, k+1 blocks of 512 variable bits cost sha256 44874+26192k, one unpadded block 25840 and blake2s 21006+21390k constraints.", "quantifier": "every prime field, gadget input (constants, variables, negations, any values or none), starting state; every number of blocks", "why_tests_cant": "the tests assert three totals for single inputs over one field", "anchors": ["src/gadgets/sha256.rs:331", "src/gadgets/blake2s.rs:427", "src/gadgets/blake2s.rs:450", "src/gadgets/boolean.rs", "src/gadgets/uint32.rs: addmany", "src/gadgets/multieq.rs", "src/gadgets/num.rs: to_bits_le_strict", "src/gadgets/lookup.rs", "src/gadgets/multipack.rs"]}
{"id": "C66", "title": "Gadgets only use variables that exist", "statement": "Started in a state where the variable for 1 and the variables of its arguments exist, every gadget (boolean.rs, uint32.rs with 32-bit words, num.rs, lookup.rs, multipack.rs, sha256.rs, blake2s.rs) leaves KeypairAssembly with one column per variable, ProvingAssignment with densities that fit its assignments, and TestConstraintSystem with constraints that only mention existing variables; the variables of its result exist, and so does what existed before. It never makes KeypairAssembly or ProvingAssignment index out of range: they panic only where the gadget panics by itself, i.e. also on a constraint system that merely counts variables and lists constraints, and otherwise return the same result. Circuits put together from gadgets, allocations, namespaces and constraints over existing variables inherit this; for whole circuits, synthesis by the key generator and the prover succeeds, fails or panics exactly as the circuit by itself, the constraints only mention existing variables, and TestConstraintSystem::is_satisfied does not panic.", "quantifier": "every prime field, gadget input, starting state (any number of variables and constraints), known or unknown values, returned errors", "why_tests_cant": "an out-of-range variable makes generator.rs and prover.rs panic; the gadget tests use only the test constraint system, from its initial state, and the groth16 tests a handful of small circuits", "anchors": ["groth16/src/generator.rs:43-155", "groth16/src/prover.rs:19-162", "src/gadgets/test/mod.rs", "src/gadgets/boolean.rs", "src/gadgets/uint32.rs", "src/gadgets/multieq.rs", "src/gadgets/num.rs", "src/gadgets/lookup.rs", "src/gadgets/multipack.rs", "src/gadgets/sha256.rs", "src/gadgets/blake2s.rs"]}
{"id": "C67", "title": "The example circuit of the documentation proves knowledge of a SHA-256d preimage", "statement": "For the circuit MyCircuit of the crate documentation, for preimages of any number of bytes: with a preimage the prover's assignment satisfies the constraints of the keys, its public inputs are compute_multipacking(bytes_to_bits_le(SHA256(SHA256(preimage)))), and its first auxiliary variables are the bits of the preimage; whatever satisfies the constraints has as its public inputs the packed double hash of the bytes its first auxiliary variables stand for; so the packed form of a 32-byte hash is satisfiable exactly if the hash has a preimage of that length. Generating keys (for preimages of at least one byte) never panics and fails only for too large a domain, zero gamma or delta, or an unconstrained variable; for 80-byte preimages the prover never panics whatever the parameters, and its proofs verify against the packed hash; without a preimage the prover returns AssignmentMissing. With a 254-bit capacity the keys for 80 bytes have 3 inputs, 76998 auxiliary variables and 77081 constraints. A fixed way of putting proofs together from key elements that is accepted for a hash for more than a (3*2^e+5)/N part of the toxic waste contains a preimage of the hash.", "quantifier": "every prime field with at least 64 bits (soundness: every prime field), preimage, hash, number of threads, window sizes, toxic waste, randomness of the proof, engine", "why_tests_cant": "the documentation example runs one preimage, with byte order in four places (bytes to bits, the two hashes, packing); no run shows that nothing but a preimage satisfies the constraints", "anchors": ["src/lib.rs:5-126", "src/gadgets/sha256.rs", "src/gadgets/multipack.rs", "src/gadgets/boolean.rs", "groth16/src/generator.rs", "groth16/src/prover.rs", "groth16/src/verifier.rs"]}
{"id": "C68", "title": "Corner cases: zero coefficients on missing variables, 2^32 exponents, a random source that runs dry", "statement": "The prover accepts a sequence of calls exactly if every variable that occurs with a non-zero coefficient was allocated before, and panics otherwise (the key generator also panics on a zero coefficient). For any number of exponents multiexp panics exactly if the density map has another length or there are at least 32 exponents and their number is 0 or 1 modulo 2^32; otherwise, if there are enough bases and no base with a non-zero exponent is the identity, it returns the sum. Batch verification of items with the right number of inputs returns exactly if the random source yields at least as many non-zero values as there are items.", "quantifier": "every prime field, sequence of calls, list of bases and exponents of any length, density map, engine, verifying key, batch and random source; every function for ln().ceil() that is 0 at 0 and 1 and from 1 to 23 at the other 32-bit numbers", "why_tests_cant": "a test cannot allocate 2^32 exponents, nor wait for a loop that never ends; the prover's acceptance of unallocated variables only shows with zero coefficients", "anchors": ["groth16/src/prover.rs:19-156", "groth16/src/generator.rs:43-166", "src/multiexp.rs:301-345", "groth16/src/verifier/batch.rs"]}
{"id": "C69", "title": "pretty_print shows the constraints and nothing but the constraints", "statement": "pretty_print panics exactly if some linear combination has a non-zero total coefficient at a variable that does not exist. Otherwise its text is, constraint by constraint, the name and the three combinations, each with the variables in order (inputs first), those with total coefficient 0 left out, 1 and -1 shown as signs, other coefficients by their Debug form, preceded by 2^i if they are that power of two; 0 for an empty combination. The text depends only on the names and on the combinations as functions. If scalars are shown injectively, without blank, closing parenthesis or backquote, no variable name has a backquote and no constraint name an opening parenthesis, systems over the same variables with equal texts have the same constraint names and the same constraints as functions.", "quantifier": "every prime field, way of showing scalars, test constraint system (faithfulness: one reached by its operations)", "why_tests_cant": "no test calls pretty_print; whether two different systems can look the same is a question about all pairs of systems", "anchors": ["src/gadgets/test/mod.rs:71-92", "src/gadgets/test/mod.rs:166-227"]}
{"id": "C70", "title": "Gadgets constrain every variable they allocate, so keys can be generated", "statement": "Every auxiliary variable that a gadget (boolean.rs, uint32.rs with 32-bit words, num.rs except AllocatedNum::alloc, lookup.rs, multipack.rs, sha256.rs, blake2s.rs) allocates when it succeeds occurs with a non-zero total coefficient in one of the constraints it adds, wherever the variables of its arguments exist. Circuits put together from gadgets inherit this if they constrain the variables they allocate themselves. If all variables of a circuit are constrained, gamma, delta and g1 are not zero and the domain fits the field, then out of any set D of scalars, at most a part of aux*(2^e+1)/|D| of the choices of alpha, beta and tau make key generation fail; if one variable is not constrained, no choice makes it succeed. The circuit of the crate documentation constrains all its variables: with an 80-byte preimage in a field like that of BLS12-381, key generation fails for less than a 2^34/|D| part of the toxic waste.", "quantifier": "every prime field, gadget input, starting state, known or unknown values, circuit, engine, number of threads, set of scalars", "why_tests_cant": "generator.rs reports UnconstrainedVariable for a variable no test constrains only if a test generates keys for that gadget; the gadget tests only evaluate constraints, and the probability over the toxic waste is not testable", "anchors": ["groth16/src/generator.rs:159-507", "src/gadgets/boolean.rs", "src/gadgets/uint32.rs", "src/gadgets/multieq.rs", "src/gadgets/num.rs", "src/gadgets/lookup.rs", "src/gadgets/multipack.rs", "src/gadgets/sha256.rs", "src/gadgets/blake2s.rs", "src/lib.rs:5-126"]}
{"id": "C71", "title": "Keys serve every prover, if no variable cancels", "statement": "Take a circuit all of whose auxiliary variables are constrained and uncancelled: each auxiliary variable written down with a non-zero coefficient in an A part has a non-zero total coefficient in some A part, and likewise each variable for the B parts. If gamma, delta and the generators are not zero and the domain fits the field, then out of any set D of scalars, at most a part of about (2*inputs+3*aux)*2^e/|D| of the choices of alpha, beta and tau fail to give keys with which every prover with a satisfying assignment for this circuit, whatever the randomness, makes a proof that verifies. Being uncancelled is needed: if any proof is ever created, the circuit is uncancelled. The circuit of the crate documentation is uncancelled, and with an 80-byte preimage in a field like that of BLS12-381 less than a 2^35/|D| part of the toxic waste is bad for any of the headers.", "quantifier": "every prime field, engine, circuit, numbers of threads, set of scalars, satisfying assignment, randomness; every preimage and digest", "why_tests_cant": "a statement about all witnesses and all but a bounded number of choices of the toxic waste; tests use one key and one witness", "anchors": ["groth16/src/generator.rs:159-507", "groth16/src/prover.rs:19-55", "groth16/src/prover.rs:181-361", "src/lib.rs:5-126", "src/gadgets/sha256.rs", "src/gadgets/multieq.rs"]}
{"id": "C72", "title": "Circuits put together from gadgets can be proved", "statement": "If a circuit is put together only from calls of public gadgets in namespaces, all its variables are constrained and the prover has a satisfying assignment, then with suitable toxic waste and randomness a proof is created.", "quantifier": "every circuit put together from gadgets, every engine, toxic waste, number of threads and randomness", "why_tests_cant": "the gadget tests evaluate the constraints and neither generate keys nor make proofs; the failing circuits use a gadget twice on the same variable", "anchors": ["src/lib.rs:204-300", "src/gadgets/boolean.rs:515-619", "src/gadgets/num.rs:317-357", "src/gadgets/uint32.rs:308-410", "groth16/src/prover.rs:19-55"]}
{"id": "C73", "title": "Gadgets may hold any stack of references, namespaces and MultiEq", "statement": "A gadget that holds a reference to a namespace of a reference ... of a constraint system makes the constraint system do what it would do if the gadget called it directly. If it makes a MultiEq of what it holds, the constraint system gets the other calls unchanged and the requested equalities as accumulated constraints, enforced when the capacity is exceeded or the MultiEq is dropped, also when the gadget's callees hold references to and namespaces of the MultiEq. push_namespace and pop_namespace panic when called on a namespace.", "quantifier": "every gadget (any program of calls), every constraint system and state, references, namespaces and MultiEq on top of each other in any order and number", "why_tests_cant": "tests use the fixed stacks the shipped gadgets happen to build, and see only the final constraint system", "anchors": ["src/lib.rs:372-437", "src/lib.rs:439-509", "src/lib.rs:511-566", "src/gadgets/multieq.rs:5-121", "src/gadgets/uint32.rs:398-399"]}
{"id": "C74", "title": "Circuits put together from gadgets mean what they say", "statement": "Take any straight-line circuit: a list of calls of the shipped gadgets (allocated and general booleans, numbers, linear combinations, lookups, 32-bit words, SHA-256 and its blocks, BLAKE2s, packing, making public) and constraints of one's own, each on results of earlier calls. Read the calls as plain operations on bits and field elements, with unknown bits and numbers chosen freely. Then a list of public inputs can be satisfied under the generated constraints exactly if some choice of the unknowns makes the plain program run through and output that list; the values of the unknowns can be read off any satisfying assignment; a prover that knows them gets through synthesis and proof creation without a panic and any proof it gets verifies for the program's output; and whoever can make proofs accepted (generic strategy, more than a negligible fraction of toxic waste) has such values.", "quantifier": "every list of calls of any length and wiring, every choice of unknowns, every field (of at least 64 bits for completeness), every satisfying assignment, every engine and toxic waste", "why_tests_cant": "tests exercise gadgets one at a time or in a few fixed circuits; soundness of arbitrary compositions quantifies over circuits and all assignments", "anchors": ["src/lib.rs:156-159", "src/gadgets/boolean.rs:29-298", "src/gadgets/boolean.rs:375-737", "src/gadgets/num.rs:26-417", "src/gadgets/lookup.rs:31-186", "src/gadgets/uint32.rs:46-409", "src/gadgets/sha256.rs:29-74", "src/gadgets/blake2s.rs:315-377", "src/gadgets/multipack.rs:11-36"]}
{"id": "C75", "title": "Bases and proving keys from sources written by the user", "statement": "multiexp and create_proof work with any implementation of SourceBuilder/Source, QueryDensity and ParameterSource. (1) If the sources supply enough elements, multiexp returns the sum of the elements multiplied by the dense exponents, identity elements included; if they end too early, the error with which they end; any error or panic of multiexp is one of theirs; and only what next and skip(1) do matters. (2) With &Parameters this is the create_proof of the other properties. (3) The prover asks a ParameterSource for the verifying key, h, l, a, b_g1 and b_g2, in this order and once each; the numbers it asks for are those of public inputs, of the domain minus one, of auxiliary variables, and of the variables that occur in A and in B; the first error ends the proof and is the result; and it never panics unless the source does. (4) A source that hands out, of each list of a key, no more elements than asked for, gives the very proof that the key gives; for a generated key the numbers asked for are those of the elements in the key.", "quantifier": "every source, builder, density and parameter source with any internal state, every window, exponent list, circuit, key, worker and randomness", "why_tests_cant": "the crate's tests use only vectors and in-memory Parameters; the claims quantify over implementations of public traits", "anchors": ["src/multiexp.rs:18-51", "src/multiexp.rs:53-94", "src/multiexp.rs:210-332", "groth16/src/lib.rs:411-474", "groth16/src/prover.rs:182-361"]}
{"id": "C76", "title": "When a circuit of gadget calls can be used for proofs, and what its proofs reveal", "statement": "(1) There is a check on the constraints of a circuit (every auxiliary variable has a nonzero coefficient in some constraint; none that is written in A or B, or public and written in B, has cancelled coefficients everywhere) that is exact: for a straight-line program of gadget calls that passes it, all toxic waste outside a small part gives keys with which everyone who knows values for which the program runs through gets a proof, and it verifies for the numbers that the program makes public; and for any circuit that fails it, no keys and no prover whatever get to a proof. (2) For one key, two choices of the secret values with the same public numbers give the same proofs, up to a shift of the prover's randomness, and the prover fails for both or for none.", "quantifier": "every straight-line program of gadget calls, every choice of secret values, toxic waste, generators, prover randomness and worker; (1), second half: every circuit", "why_tests_cant": "quantifies over all circuits built from the gadgets and over all keys", "anchors": ["groth16/src/generator.rs:159-507", "groth16/src/prover.rs:182-361", "groth16/src/verifier.rs:11-58", "src/lib.rs:156-159"]}
{"id": "C77", "title": "A check on the text of gadget circuits: tidy circuits can be used for proofs", "statement": "There is a check on the statements of a straight-line program of gadget calls (no constraint is made; it keeps, for each result, whether it is a bit, a number or a linear combination and which earlier results its variable can come from) such that the constraints of every program that passes it pass the exact check of C76: each variable is constrained, and no variable written in an A or B part cancels. Hence all toxic waste outside a small part gives keys with which everyone who knows values for which the program runs through gets a proof, and it verifies. In particular no combination of AND, XOR, NOT, selections of bits, comparisons, additions of words with distinct bits, SHA-256, BLAKE2s, products, swaps, lookups with bits of one's own, linear combinations put together from numbers and bits that differ, bit decompositions and packing cancels a coefficient or leaves a variable free.", "quantifier": "every straight-line program that passes the check, every choice of values, keys and workers", "why_tests_cant": "quantifies over all programs, of any length; each instance has its own constraint system", "anchors": ["src/gadgets/boolean.rs:29-743", "src/gadgets/num.rs:26-415", "src/gadgets/uint32.rs:46-409", "src/gadgets/lookup.rs:29-186", "src/gadgets/multipack.rs:9-37", "src/gadgets/sha256.rs:29-270", "src/gadgets/blake2s.rs:83-377", "groth16/src/generator.rs:159-507", "groth16/src/prover.rs:182-361"]}
{"id": "C78", "title": "The MiMC keys serve every prover; the benchmarks measure verifications that succeed", "statement": "In the constraint system of the MiMC circuit of the tests and benchmarks, whatever the round constants, every variable is constrained and none written in an A or B part cancels; so all but at most 1985912 * |D|^2 of the |D|^3 values of alpha, beta, tau in any set D (322 rounds) give keys with which no prover fails. For any circuit, one proof made with some keys (tau not zero and not a root of unity of the domain) shows that they serve everyone with a satisfying assignment. For any random generator and any number of proofs and runs, a round of the benchmark groth16/benches/batch.rs stops at the unwrap of key generation or of proof creation, or every verify_proof it times returns Ok, and so does every batch.verify, once non-zero values are drawn; with keys that serve, it stops at neither unwrap, and the integration tests stop at most at a proof that contains the identity. The closure timed in benches/slow.rs panics exactly if the identity is drawn as a base for a non-zero exponent, and otherwise computes the sum of the products.", "quantifier": "every random generator, engine, worker, number of rounds from 1 to 2^30 - 1, number of proofs and runs; every set D of field elements; every circuit for the claim on one proof", "why_tests_cant": "the benchmarks drop the results they time, and run with a handful of random draws; the number of bad draws is far too small a part to be met", "anchors": ["groth16/benches/batch.rs:16-95", "benches/slow.rs:14-44", "groth16/tests/mimc.rs:24-207", "groth16/tests/common/mod.rs", "groth16/src/generator.rs:19-39", "groth16/src/prover.rs:164-361", "groth16/src/verifier/batch.rs:83-287"]}
{"id": "C79", "title": "Gadgets do not collide with themselves on names", "statement": "For every gadget of the library there is a list of names (exact texts, and texts followed by a decimal number) such that: in any reachable state of the testing constraint system in whose current namespace these names are free, the gadget never panics because of a name - if it goes through for a prover without names, it goes through here, with the same result, values and constraints, returns to the namespace it started in, and everything it created is below that namespace under one of these names. In particular no gadget uses a name twice in one namespace, whatever its arguments and the length of its input, and the batches that MultiEq writes never collide with the names of what it wraps. Programs of gadgets compose: one after the other if their lists are disjoint, and inside a namespace whatever their lists. Called a second time in the same namespace, AllocatedBit::alloc, the SHA-256 gadgets and the BLAKE2s compression panic.", "quantifier": "every gadget argument and input length, every reachable state of TestConstraintSystem with any open namespaces, every prime field", "why_tests_cant": "each unit test calls a gadget with one or a few inputs in a fresh system; names depend on loop counters, on the branch a gadget takes for constants and negations, and on where a MultiEq batch happens to end", "anchors": ["src/gadgets/test/mod.rs:330-460", "src/lib.rs:426-509", "src/gadgets/boolean.rs", "src/gadgets/num.rs", "src/gadgets/uint32.rs", "src/gadgets/multieq.rs", "src/gadgets/lookup.rs", "src/gadgets/multipack.rs", "src/gadgets/sha256.rs", "src/gadgets/blake2s.rs"]}
{"id": "C80", "title": "The unit tests of the number, lookup, packing and word gadgets pass whatever is drawn", "statement": "The unit tests of num.rs, lookup.rs, multipack.rs and uint32.rs - which run gadgets in the testing constraint system, read values back by name, change single variables by name and look at whether the system is satisfied - return for every sequence of values their random generators could have drawn. The tests that put in a wrong value return exactly if the value is wrong: squaring and multiplication panic exactly if the value put in is the square or product, the test of assert_nonzero exactly if the number is zero or the value put in its inverse, and test_into_bits exactly if in one of its 200 rounds the same number is drawn twice; over a field whose representation has one bit more than its elements have. The test of to_bits_le_strict returns over every prime field: after the last bit of -1 is set to one, the first constraint that fails is the one of that bit. The tests of addmany return over every field of at least 64 bits, for all words drawn, and panic over every other field.", "quantifier": "all draws of the random generators (field elements, 32-bit words, coins), all list lengths of the packing test, every prime field meeting the stated bit-length conditions", "why_tests_cant": "the tests run with one fixed seed over one field; that no other seed makes them fail, and that the checks they make by tampering with a variable detect every tampering of that kind, is beyond running them", "anchors": ["src/gadgets/num.rs:417-600", "src/gadgets/lookup.rs:188-319", "src/gadgets/multipack.rs:74-111", "src/gadgets/uint32.rs:411-782", "src/gadgets/test/mod.rs"]}
{"id": "C81", "title": "The unit tests of the evaluation domain, of multiexponentiation and of the worker, and what the consistency test does not see", "statement": "polynomial_arith and fft_composition return for all scalars drawn and all numbers of threads over every field with 2-adicity above 8 respectively 9, and panic over every other field; transforming, multiplying pointwise and transforming back gives the coefficients of the product of two polynomials of any lengths that fit a domain. test_with_bls12 panics exactly when an identity is drawn as a base whose exponent is not zero. parallel_fft_consistency returns with parallel_fft over every field with 2-adicity above 9, but all it checks is 15 calls on one, two and four elements with as many tasks as elements: any function that agrees with parallel_fft there passes, and best_fft never calls parallel_fft with as many tasks as elements.", "quantifier": "all draws of the random generators, all numbers of threads, all prime fields, all vector spaces over them, all polynomials, all functions in the place of parallel_fft", "why_tests_cant": "the statement is about the tests themselves: running them shows one draw on one machine, and cannot show that a test would also pass with a broken function", "anchors": ["src/domain.rs:374-498", "src/multiexp.rs:334-378", "src/multicore.rs:132-142"]}
{"id": "C82", "title": "The unit tests of the bits and of the testing constraint system, and the wrong results they do not try", "statement": "All unit tests of boolean.rs and test_cs of test/mod.rs return over every prime field, with all their operands and tables; the two tests of conversions return exactly if every position tested is bit i of the number, for any number and any positions, and test_cs returns exactly if its products are right, the changed product is another and the changed factor equals the other. The tables in the tests of xor and and give the truth tables. The tests of the four gadgets of two bits try only the other bit as a wrong result: a gadget that also accepts -1 passes the test of and, while the gadgets of the library accept no value but the result.", "quantifier": "all prime fields, all operands, all numbers and positions tested, all values put in the place of a result", "why_tests_cant": "the statement is about the tests themselves, over every field, and about all values of the result where the tests try one", "anchors": ["src/gadgets/boolean.rs:753-1821", "src/gadgets/test/mod.rs:431-472"]}
{"id": "C83", "title": "The unit tests of the hash gadgets: exactly when they return, and what they do not see", "statement": "One round of test_against_vectors (SHA-256) or test_blake2s returns exactly if the other library's digest is that of FIPS 180-4 or RFC 7693 (with the personalization of the tests), for a message of any number of bytes; so the tests with vectors return exactly if the other library is right about every message drawn. The tests with a digest in the source return exactly if that digest is the right one (and the message of the size stated), and the digests, messages and generator in the source are such. The counts of constraints in the tests hold whatever bits are drawn over every field of capacity 254 and at least 64 bits; circuits of constants have none. All eleven tests return. A gadget that allocates the digest's bits without relating them to the message passes the rounds for the same digests as sha256, though its constraints are satisfied by a digest of only 0s and one of only 1s.", "quantifier": "all prime fields of at least 64 bits, all messages, digests, draws and other libraries, all bits drawn", "why_tests_cant": "the statement is about what the tests establish, for all messages and all libraries they could be compared with, and about a wrong gadget that they accept", "anchors": ["src/gadgets/sha256.rs:272-388", "src/gadgets/blake2s.rs:382-668"]}
{"id": "C84", "title": "The serialization test of the groth16 crate passes exactly when the draws avoid a short list of accidents; error texts identify errors", "statement": "Let the field have more than two bits of two-adicity, the encodings the sizes of the test's curve (48 and 96 bytes compressed, 96 and 192 uncompressed) and the pairing no zero product of non-zero elements. The part of the test about the key (generate, write, length 2136, read back checked and unchecked, compare) returns, with the generated key, exactly when both generators and alpha, beta, gamma, delta, tau are non-zero, tau^4 is not 1 and beta (tau - 1) is not tau + 1; otherwise it panics. For fixed non-zero other values at most six tau are bad. With such a key a proof of a*b=c is always created, and a round (write, length 192, read back, compare, accept [c], reject [a]) returns exactly when a is not 0, b is not 1 and no element of the proof is the identity; otherwise it panics. The whole test with n rounds returns exactly when the values drawn from the generator satisfy all of this, else it panics. No text of a SynthesisError or VerificationError is empty, two errors with the same text are the same error (or I/O errors around equal texts), an I/O error's text ends with that of the error inside, and the two tests of texts return. Comparing proofs, verifying keys or parameters with == is equality of all their parts.", "quantifier": "every prime field with two-adicity above 2, every engine with a non-degenerate pairing and encodings of these sizes, every number of threads of generator and prover, every random generator, every number of rounds, every text of an I/O error containing \"other\"", "why_tests_cant": "the test draws its values at random, so a run that passes says nothing about which draws make it fail; that the failing draws are exactly these, and that at most six tau are among them, is a statement about all field elements", "anchors": ["groth16/src/lib.rs:486-567", "groth16/src/generator.rs", "groth16/src/prover.rs", "src/lib.rs:329-370", "src/lib.rs:572-593", "groth16/src/lib.rs:32-36", "groth16/src/lib.rs:130-140", "groth16/src/lib.rs:246-255"]}
{"id": "C85", "title": "A proof contains an identity element, and so cannot be read back, for one r, one s, and one further s per r only", "statement": "For every circuit, key generated with non-zero generators, and witness (satisfying or not) of the same circuit there are values r0, s0 and a function s1 such that every proof the prover creates with r, s has first element the identity exactly when r = r0, second exactly when s = s0, and, if r is not r0, third exactly when s = s1(r). Hence of the pairs with r in a list rs and s in a list ss at most 2 |rs| + |ss| give a proof with an identity element, and a proof written to a file is read back unchanged, whatever follows it, unless r = r0 or s = s0 or s = s1(r), when reading it fails with InvalidData. In particular, with a key of sound waste (C84), a not 0 and b not 1, at most 2 |rs| + |ss| of the pairs make a round of the test serialization panic. In the MiMC tests, for each preimage, the unwrap of reading the proof back panics exactly when a proof was created and the third draw r and fourth draw s satisfy r = r0 or s = s0 or s = s1(r).", "quantifier": "every prime field, engine, circuit, witness, toxic waste, number of threads, r and s, lists of values, bytes following the proof", "why_tests_cant": "the exceptional values have probability about 3/q and are never drawn by tests; that there are no others is a statement about all r and s", "anchors": ["groth16/src/prover.rs:182-361", "groth16/src/lib.rs:38-100", "groth16/tests/mimc.rs:62-100"]}
