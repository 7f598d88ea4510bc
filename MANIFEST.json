{
 "claims": [
  {
   "property": "C01",
   "status": "proved",
   "theorems": [
    "C01_linear_combinations"
   ],
   "note": ""
  },
  {
   "property": "C02",
   "status": "proved",
   "theorems": [
    "C02_records",
    "C02_satisfied",
    "C02_in_range_stable",
    "C02_verify"
   ],
   "note": ""
  },
  {
   "property": "C03",
   "status": "proved",
   "theorems": [
    "C03_one_path_each",
    "C03_paths_injective",
    "C03_stable",
    "C03_read_back",
    "C03_duplicate_panics",
    "C03_separator_panics",
    "C03_set"
   ],
   "note": ""
  },
  {
   "property": "C04",
   "status": "proved",
   "theorems": [
    "C04_namespaces_irrelevant",
    "C04_built_balanced",
    "C04_gadgets_balanced",
    "C04_test_stack"
   ],
   "note": ""
  },
  {
   "property": "C05",
   "status": "proved",
   "theorems": [
    "C05_stream_depends_only",
    "C05_stream_faithful",
    "C05_defined"
   ],
   "note": ""
  },
  {
   "property": "C06",
   "status": "proved",
   "theorems": [
    "C06_keygen_defined",
    "C06_same_instance",
    "C06_entries",
    "C06_same_shape"
   ],
   "note": ""
  },
  {
   "property": "C07",
   "status": "proved",
   "theorems": [
    "C07_alloc_sound",
    "C07_alloc_conditionally_sound",
    "C07_alloc_complete",
    "C07_alloc_conditionally_complete",
    "C07_alloc_conditionally_conflict",
    "C07_alloc_unknown"
   ],
   "note": ""
  },
  {
   "property": "C08",
   "status": "proved",
   "theorems": [
    "C08_xor_sound",
    "C08_and_sound",
    "C08_and_not_sound",
    "C08_nor_sound",
    "C08_xor_complete",
    "C08_and_complete",
    "C08_and_not_complete",
    "C08_nor_complete"
   ],
   "note": ""
  },
  {
   "property": "C09",
   "status": "proved",
   "theorems": [
    "C09_not",
    "C09_not_value",
    "C09_lc",
    "C09_xor_sound",
    "C09_and_sound",
    "C09_xor_complete",
    "C09_and_complete",
    "C09_enforce_equal",
    "C09_enforce_equal_unsatisfiable",
    "C09_enforce_equal_succeeds"
   ],
   "note": ""
  },
  {
   "property": "C10",
   "status": "proved",
   "theorems": [
    "C10_ch_sound",
    "C10_maj_sound",
    "C10_ch_complete",
    "C10_maj_complete"
   ],
   "note": ""
  },
  {
   "property": "C11",
   "status": "proved",
   "theorems": [
    "C11_u64_sound",
    "C11_u64_complete",
    "C11_field_sound",
    "C11_field_complete"
   ],
   "note": ""
  },
  {
   "property": "C12",
   "status": "proved",
   "theorems": [
    "C12_alloc_complete",
    "C12_mul_sound",
    "C12_square_sound",
    "C12_mul_complete",
    "C12_square_complete",
    "C12_inputize",
    "C12_inputize_complete",
    "C12_assert_nonzero_sound",
    "C12_assert_nonzero_complete",
    "C12_assert_nonzero_error",
    "C12_conditionally_reverse_sound",
    "C12_conditionally_reverse_complete"
   ],
   "note": ""
  },
  {
   "property": "C13",
   "status": "proved",
   "theorems": [
    "C13_strict_sound",
    "C13_strict_complete"
   ],
   "note": ""
  },
  {
   "property": "C14",
   "status": "proved",
   "theorems": [
    "C14_plain_sound",
    "C14_plain_complete",
    "C14_noncanonical_accepted"
   ],
   "note": ""
  },
  {
   "property": "C15",
   "status": "proved",
   "theorems": [
    "C15_lc",
    "C15_value",
    "C15_unknown",
    "C15_from_allocated"
   ],
   "note": ""
  },
  {
   "property": "C16",
   "status": "proved",
   "theorems": [
    "C16_lookup_sound",
    "C16_lookup_complete"
   ],
   "note": ""
  },
  {
   "property": "C17",
   "status": "proved",
   "theorems": [
    "C17_lookup_negate_sound",
    "C17_lookup_negate_complete"
   ],
   "note": ""
  },
  {
   "property": "C18",
   "status": "proved",
   "theorems": [
    "C18_multipacking",
    "C18_injective",
    "C18_pack_sound",
    "C18_pack_complete",
    "C18_bytes"
   ],
   "note": ""
  },
  {
   "property": "C19",
   "status": "proved",
   "theorems": [
    "C19_multieq",
    "C19_no_panic",
    "C19_complete"
   ],
   "note": ""
  },
  {
   "property": "C20",
   "status": "proved",
   "theorems": [
    "C20_constant",
    "C20_alloc_sound",
    "C20_alloc_complete",
    "C20_into_bits",
    "C20_from_bits",
    "C20_from_bits_be",
    "C20_from_bits_panics",
    "C20_rotr",
    "C20_shr",
    "C20_xor_sound",
    "C20_xor_complete",
    "C20_ch_sound",
    "C20_ch_complete",
    "C20_maj_sound",
    "C20_maj_complete"
   ],
   "note": ""
  },
  {
   "property": "C21",
   "status": "proved",
   "theorems": [
    "C21_addmany_sound",
    "C21_addmany_scope",
    "C21_addmany_complete",
    "C21_addmany_panics"
   ],
   "note": ""
  },
  {
   "property": "C22",
   "status": "proved",
   "theorems": [
    "C22_sha256_sound",
    "C22_sha256_complete",
    "C22_sha256_bytes",
    "C22_block_sound",
    "C22_block_complete",
    "C22_block_size",
    "C22_digest_length"
   ],
   "note": ""
  },
  {
   "property": "C23",
   "status": "proved",
   "theorems": [
    "C23_blake2s_sound",
    "C23_blake2s_complete",
    "C23_bytes_cover",
    "C23_blake2s_rejects",
    "C23_digest_length"
   ],
   "note": ""
  },
  {
   "property": "C24",
   "status": "proved",
   "theorems": [
    "C24_bits",
    "C24_numbers",
    "C24_lookup_pack",
    "C24_words",
    "C24_hashes"
   ],
   "note": ""
  },
  {
   "property": "C25",
   "status": "proved",
   "theorems": [
    "C25_success",
    "C25_failure",
    "C25_exponent_exists"
   ],
   "note": ""
  },
  {
   "property": "C26",
   "status": "proved",
   "theorems": [
    "C26_fft",
    "C26_serial_parallel"
   ],
   "note": ""
  },
  {
   "property": "C27",
   "status": "proved",
   "theorems": [
    "C27_inverse",
    "C27_coset_inverse",
    "C27_coset_evaluates"
   ],
   "note": ""
  },
  {
   "property": "C28",
   "status": "proved",
   "theorems": [
    "C28_z",
    "C28_z_vanishes",
    "C28_quotient",
    "C28_unique",
    "C28_interpolants"
   ],
   "note": ""
  },
  {
   "property": "C29",
   "status": "proved",
   "theorems": [
    "C29_partition",
    "C29_any_interleaving",
    "C29_map",
    "C29_zip",
    "C29_running_state"
   ],
   "note": ""
  },
  {
   "property": "C30",
   "status": "proved",
   "theorems": [
    "C30_counter",
    "C30_backlog",
    "C30_own_value",
    "C30_at_most_once",
    "C30_delivered",
    "C30_panicking_closure",
    "C30_wait_ends",
    "C30_leak",
    "C30_degrades",
    "C30_single"
   ],
   "note": ""
  },
  {
   "property": "C31",
   "status": "proved",
   "theorems": [
    "C31_floor_log2",
    "C31_single",
    "C31_zero_panics"
   ],
   "note": ""
  },
  {
   "property": "C32",
   "status": "proved",
   "theorems": [
    "C32_value",
    "C32_every_window"
   ],
   "note": ""
  },
  {
   "property": "C33",
   "status": "proved",
   "theorems": [
    "C33_panics_iff",
    "C33_fails_iff",
    "C33_error_kind"
   ],
   "note": ""
  },
  {
   "property": "C34",
   "status": "proved",
   "theorems": [
    "C34_tracks",
    "C34_total",
    "C34_panics_iff"
   ],
   "note": ""
  },
  {
   "property": "C35",
   "status": "proved",
   "theorems": [
    "C35_form",
    "C35_polynomials",
    "C35_threads",
    "C35_queries"
   ],
   "note": ""
  },
  {
   "property": "C36",
   "status": "proved",
   "theorems": [
    "C36_synthesis",
    "C36_cases",
    "C36_unused"
   ],
   "note": ""
  },
  {
   "property": "C37",
   "status": "proved",
   "theorems": [
    "C37_proofs_verify",
    "C37_prover_succeeds_iff",
    "C37_complete"
   ],
   "note": ""
  },
  {
   "property": "C38",
   "status": "proved",
   "theorems": [
    "C38_accepts_iff",
    "C38_invalid_key_iff",
    "C38_invalid_proof_iff"
   ],
   "note": ""
  },
  {
   "property": "C39",
   "status": "proved",
   "theorems": [
    "C39_same_distribution",
    "C39_identical_proof"
   ],
   "note": ""
  },
  {
   "property": "C40",
   "status": "proved",
   "theorems": [
    "C40_verify",
    "C40_verify_multicore"
   ],
   "note": ""
  },
  {
   "property": "C41",
   "status": "proved",
   "theorems": [
    "C41_verify",
    "C41_verify_multicore"
   ],
   "note": ""
  },
  {
   "property": "C42",
   "status": "proved",
   "theorems": [
    "C42_invalid_key",
    "C42_invalid_key_multicore",
    "C42_empty",
    "C42_empty_multicore",
    "C42_single",
    "C42_single_multicore",
    "C42_no_panic",
    "C42_no_panic_multicore"
   ],
   "note": ""
  },
  {
   "property": "C43",
   "status": "proved",
   "theorems": [
    "C43_write",
    "C43_roundtrip",
    "C43_reads_iff",
    "C43_truncated",
    "C43_rejects",
    "C43_errors"
   ],
   "note": ""
  },
  {
   "property": "C44",
   "status": "proved",
   "theorems": [
    "C44_roundtrip",
    "C44_reads_iff",
    "C44_truncated",
    "C44_no_identity",
    "C44_errors",
    "C44_length_wraps"
   ],
   "note": ""
  },
  {
   "property": "C45",
   "status": "proved",
   "theorems": [
    "C45_roundtrip",
    "C45_reads_iff",
    "C45_truncated",
    "C45_no_identity",
    "C45_errors",
    "C45_unchecked_extends"
   ],
   "note": ""
  },
  {
   "property": "C46",
   "status": "proved",
   "theorems": [
    "C46_synthesis_error",
    "C46_too_many_constraints",
    "C46_delta_identity",
    "C46_never_panics"
   ],
   "note": ""
  },
  {
   "property": "C47",
   "status": "partial",
   "theorems": [
    "C47_cancelling_refuted",
    "C47_never_proves"
   ],
   "note": "REFUTED as stated: C47_cancelling_refuted exhibits a satisfied circuit (with x - x) for which parameters are generated but proving fails. C47_never_proves: if a variable occurs in the A parts or in the B parts and its coefficients there cancel in every constraint, no proof is ever created."
  },
  {
   "property": "C48",
   "status": "partial",
   "theorems": [
    "C48_empty_circuit_refuted",
    "C48_no_aux_refuted",
    "C48_otherwise_same",
    "C48_differ_iff"
   ],
   "note": "REFUTED as stated: C48_empty_circuit_refuted and C48_no_aux_refuted exhibit circuits for which the single-threaded build panics and the multicore one succeeds. C48_differ_iff gives the exact condition under which the two builds differ (synthesis succeeds, the domain fits, gamma and delta are nonzero, and there is no constraint besides that of the constant input or no auxiliary variable), and that then only the single-threaded build panics. C48_otherwise_same is the part of it most circuits fall under."
  },
  {
   "property": "C49",
   "status": "proved",
   "theorems": [
    "C49_synth_interpolates"
   ],
   "note": ""
  },
  {
   "property": "C50",
   "status": "partial",
   "theorems": [
    "C50_word_compositions_refuted"
   ],
   "note": "REFUTED as stated: the theorem exhibits a circuit built from public UInt32 operations (sha256_ch with a constant selector, then addmany) that allocates 32 variables when proving and 65 during key generation."
  },
  {
   "property": "C51",
   "status": "proved",
   "theorems": [
    "C51_arithmetic",
    "C51_closed",
    "C51_pow",
    "C51_invert",
    "C51_contract",
    "C51_constants",
    "C51_generator",
    "C51_to_repr",
    "C51_from_repr",
    "C51_bits",
    "C51_pairing"
   ],
   "note": ""
  },
  {
   "property": "C52",
   "status": "partial",
   "theorems": [
    "C52_square",
    "C52_zero_refuted",
    "C52_nonresidue_panics"
   ],
   "note": "REFUTED as stated: for zero the inner loop never ends (C52_zero_refuted); for every non-residue m - i - 1 underflows, a panic in builds with overflow checks (C52_nonresidue_panics). For nonzero squares a root is returned (C52_square)."
  },
  {
   "property": "C53",
   "status": "proved",
   "theorems": [
    "C53_hash",
    "C53_complete",
    "C53_sound",
    "C53_statement",
    "C53_proofs_verify",
    "C53_few_failures",
    "C53_few_failures_322",
    "C53_wrong_length",
    "C53_missing",
    "C53_half_key"
   ],
   "note": ""
  },
  {
   "property": "C54",
   "status": "proved",
   "theorems": [
    "C54_few_failures",
    "C54_calls"
   ],
   "note": ""
  },
  {
   "property": "C55",
   "status": "proved",
   "theorems": [
    "C55_random_parameters",
    "C55_random_proof",
    "C55_sample",
    "C55_test_mimc",
    "C55_test_batch"
   ],
   "note": ""
  },
  {
   "property": "C56",
   "status": "proved",
   "theorems": [
    "C56_affine",
    "C56_readable"
   ],
   "note": ""
  },
  {
   "property": "C57",
   "status": "proved",
   "theorems": [
    "C57_malleable",
    "C57_determined",
    "C57_inputs"
   ],
   "note": ""
  },
  {
   "property": "C58",
   "status": "proved",
   "theorems": [
    "C58_accepted",
    "C58_perfect"
   ],
   "note": ""
  },
  {
   "property": "C59",
   "status": "proved",
   "theorems": [
    "C59_threads",
    "C59_windows",
    "C59_generator",
    "C59_error_kind_varies"
   ],
   "note": ""
  },
  {
   "property": "C60",
   "status": "proved",
   "theorems": [
    "C60_xor_statement",
    "C60_xor_complete",
    "C60_mult_statement",
    "C60_xor_proofs_verify",
    "C60_xor_few_failures",
    "C60_mult_few_failures",
    "C60_test_xordemo",
    "C60_zero_coeff_tests"
   ],
   "note": ""
  },
  {
   "property": "C61",
   "status": "proved",
   "theorems": [
    "C61_error_polynomial",
    "C61_few_accepted"
   ],
   "note": ""
  },
  {
   "property": "C62",
   "status": "proved",
   "theorems": [
    "C62_witness_known",
    "C62_false_statements",
    "C62_queries",
    "C62_prover_plan"
   ],
   "note": ""
  },
  {
   "property": "C63",
   "status": "proved",
   "theorems": [
    "C63_key_comes_back",
    "C63_few_accidents",
    "C63_vk_of_key_file",
    "C63_through_files"
   ],
   "note": ""
  },
  {
   "property": "C64",
   "status": "proved",
   "theorems": [
    "C64_same_key",
    "C64_different_keys"
   ],
   "note": ""
  },
  {
   "property": "C65",
   "status": "proved",
   "theorems": [
    "C65_bits",
    "C65_words",
    "C65_numbers",
    "C65_hashes",
    "C65_constants",
    "C65_precomputed",
    "C65_blocks"
   ],
   "note": ""
  },
  {
   "property": "C66",
   "status": "proved",
   "theorems": [
    "C66_bits",
    "C66_words",
    "C66_numbers",
    "C66_hashes",
    "C66_compose",
    "C66_circuits",
    "C66_tests"
   ],
   "note": ""
  },
  {
   "property": "C67",
   "status": "proved",
   "theorems": [
    "C67_complete",
    "C67_sound",
    "C67_statement",
    "C67_sizes",
    "C67_keys",
    "C67_prover",
    "C67_proofs_verify",
    "C67_knowledge"
   ],
   "note": "C67_proofs_verify and C67_knowledge take the outcome of key generation and proving as given. That both succeed for almost all toxic waste is C71_headers. C67_ex instantiates completeness and the sizes with the scalar field of BLS12-381 and the preimage of the documentation."
  },
  {
   "property": "C68",
   "status": "proved",
   "theorems": [
    "C68_prover_defined",
    "C68_multiexp",
    "C68_batch"
   ],
   "note": ""
  },
  {
   "property": "C69",
   "status": "proved",
   "theorems": [
    "C69_text",
    "C69_panics",
    "C69_depends_only",
    "C69_faithful"
   ],
   "note": ""
  },
  {
   "property": "C70",
   "status": "proved",
   "theorems": [
    "C70_bits",
    "C70_words",
    "C70_numbers",
    "C70_hashes",
    "C70_compose",
    "C70_circuits",
    "C70_keys",
    "C70_needed",
    "C70_sha256d",
    "C70_header_keys"
   ],
   "note": ""
  },
  {
   "property": "C71",
   "status": "proved",
   "theorems": [
    "C71_keys_serve",
    "C71_needed",
    "C71_sha256d",
    "C71_headers"
   ],
   "note": ""
  },
  {
   "property": "C72",
   "status": "partial",
   "theorems": [
    "C72_from_gadgets_refuted",
    "C72_numbers_and_words"
   ],
   "note": "REFUTED as stated: C72_from_gadgets_refuted (sha256_ch choosing between a bit and itself; keys are generated, no proof is ever created). C72_numbers_and_words has the same for conditionally_reverse of a number with itself and for addmany of words with opposite bits. The condition that makes it true, for any circuit, is C71 (uncancelled)."
  },
  {
   "property": "C73",
   "status": "proved",
   "theorems": [
    "C73_proper",
    "C73_reaches",
    "C73_multieq",
    "C73_scope",
    "C73_wrappers",
    "C73_not_the_root"
   ],
   "note": ""
  },
  {
   "property": "C74",
   "status": "proved",
   "theorems": [
    "C74_complete",
    "C74_sound",
    "C74_statement",
    "C74_synthesis",
    "C74_proofs_verify",
    "C74_knowledge"
   ],
   "note": "Straight.v: 37 kinds of statements, among them all gadget functions that are deterministic in their operands, and constraints of one's own; not among them: to_bits_le and field_into_boolean_vec_le / field_into_allocated_bits_le (the bits are not determined, C14), UInt32's value-dropping across operations (words are rebuilt from bits for each call, see C50). Loops and branches of user code are unrolled; code that depends on the witness is excluded. C74_complete and what follows from it need a field of at least 64 bits (addmany). C74_proofs_verify does not say that a proof is made: see C76 for exactly which circuits, and C72 for gadget circuits where create_proof fails."
  },
  {
   "property": "C75",
   "status": "proved",
   "theorems": [
    "C75_value",
    "C75_runs_out",
    "C75_blame",
    "C75_same",
    "C75_vectors",
    "C75_parameters",
    "C75_serves",
    "C75_calls",
    "C75_never_panics",
    "C75_keys"
   ],
   "note": "Sources.v models the traits as records of state machines. What a source does after an error is left out (the code returns at once); every window may get a differently behaving clone. That a source's elements are served as asked is the hypothesis [serves] / [builds] / [supplies]; PropSources.v has a source that satisfies it (slices_serve) and the vectors of the crate are covered by C75_vectors and C75_parameters."
  },
  {
   "property": "C76",
   "status": "proved",
   "theorems": [
    "C76_keys_work",
    "C76_check_exact",
    "C76_hides"
   ],
   "note": "Programs as in C74. The small part in C76_keys_work is bounded by (2^e + 1 + (2*inputs + 2*aux)*(2^e - 1) + aux*(2^e + 1)) * |D|^2 triples (alpha, beta, tau) out of |D|^3, gamma, delta and the generators fixed. With Worker::Single a domain and auxiliary variables that are not trivial are needed (C68). C76_hides needs tau outside the domain and nonzero."
  },
  {
   "property": "C77",
   "status": "proved",
   "theorems": [
    "C77_tidy_ready",
    "C77_keys_work"
   ],
   "note": "Programs as in C74. The check is sufficient, not necessary: a program that it refuses may still pass the exact check of C76 (SHA-256, ch, maj and lookups of bits that come from AND, XOR or BLAKE2s are refused, for instance). C77_tidy_ready is for any values given to the prover's side, so in particular for key generation. C77_ex has tidy programs and, for each rule, one that is not tidy and not ready either (a number without constraint, a word added to its opposite, a number subtracted from itself)."
  },
  {
   "property": "C78",
   "status": "proved",
   "theorems": [
    "C78_mimc_ready",
    "C78_mimc_keys",
    "C78_mimc_keys_322",
    "C78_one_for_all",
    "C78_bench_batch",
    "C78_bench_serves",
    "C78_tests_serve",
    "C78_bench_multiexp"
   ],
   "note": "criterion is not modelled: how often it runs the timed closures is a parameter, and each batched run starts from an arbitrary state of the generator (how many values a run draws depends on the values). The results that the benchmarks drop with `let _` are kept in the model. C78_mimc_keys counts the bad (alpha, beta, tau), for gamma and delta that are not zero; C78_bench_serves and C78_tests_serve are for draws whose keys serve. Batched runs are those of the single-threaded batch verifier (C40_verify_multicore has the other). C78_ex_serve has draws that meet the hypothesis."
  },
  {
   "property": "C79",
   "status": "proved",
   "theorems": [
    "C79_boolean",
    "C79_num",
    "C79_uint32",
    "C79_hashes",
    "C79_sequence",
    "C79_namespace",
    "C79_second_call"
   ],
   "note": "The lists of names are upper bounds: a gadget may use fewer (a conjunction with a constant uses none). The run of a prover without names is HonestCS of Circuit.v, which records values and constraints in order and accepts every name; C02_records has the converse direction. An addition of words needs a MultiEq around it (C79_uint32), as the plain constraint system panics on enforce_equal in the model. C79_ex_sha256, C79_ex_two and C79_ex_bits are concrete cases."
  },
  {
   "property": "C80",
   "status": "proved",
   "theorems": [
    "C80_num",
    "C80_into_bits",
    "C80_lookup",
    "C80_multipack",
    "C80_uint32",
    "C80_addmany",
    "C80_strict"
   ],
   "note": "Draws are arguments of the tests in the model; words are assumed to be in range (0..2^32) as next_u32 guarantees. The numbers the num.rs tests have fixed (3 and 10; 12, 10 and 121; 3 and 3) are arguments too and are put back in C80_ex_bls. The calls of gadgets of one round are one program, so that an unwrap of an error is a panic after them. The proofs go through the completeness and soundness of the gadgets, the names they use (C79) and the scope of their constraints. test_into_bits_strict names bit num_bits - 1, which is the \"bit 254\" of the test over Scalar (C80_strict). C80_ex_flaky has draws that make test_into_bits panic."
  },
  {
   "property": "C81",
   "status": "proved",
   "theorems": [
    "C81_product",
    "C81_polynomial_arith",
    "C81_fft_composition",
    "C81_consistency_exact",
    "C81_consistency",
    "C81_consistency_blind",
    "C81_library_uses",
    "C81_multiexp",
    "C81_with_bls12",
    "C81_log2_floor"
   ],
   "note": "Draws are arguments of the tests in the model. parallel_fft_consistency takes the function in the place of parallel_fft as an argument; C81_consistency is about parallel_fft itself, C81_consistency_exact and C81_consistency_blind about every function, C81_library_uses tells which calls best_fft makes. test_with_bls12 is for every prime field and every vector space over it; ln_ceil as in C32."
  },
  {
   "property": "C82",
   "status": "proved",
   "theorems": [
    "C82_tests",
    "C82_bits",
    "C82_cs",
    "C82_tables",
    "C82_forced",
    "C82_blind"
   ],
   "note": "The numbers in test_u64_into_boolean_vec_le, test_field_into_allocated_bits_le and test_cs are arguments of the model; C82_ex_numbers has the ones of the source over BLS12-381. The 36 lines of each table are grouped by the kinds of the operands in the model. C82_blind is about a gadget not in the library."
  },
  {
   "property": "C83",
   "status": "proved",
   "theorems": [
    "C83_rounds",
    "C83_vectors",
    "C83_blank",
    "C83_given",
    "C83_expected",
    "C83_counts",
    "C83_blind",
    "C83_tests"
   ],
   "note": "The Sha256 and Blake2s of the sha2 and blake2s_simd crates are functions given as arguments. XorShiftRng (rand_xorshift crate) is modelled for the two messages of test_blake2s_test_vectors only, whose expected digests are in the source; elsewhere what is drawn is an argument. unlinked, in C83_blind, is not in the library."
  },
  {
   "property": "C84",
   "status": "proved",
   "theorems": [
    "C84_key",
    "C84_round",
    "C84_test",
    "C84_few_bad",
    "C84_equality",
    "C84_texts",
    "C84_text_tests"
   ],
   "note": "The sizes are hypotheses (those of BLS12-381); the 100 rounds of the test are a parameter n. thread_rng is an arbitrary generator R. That a proof element is the identity is stated of the proof the prover creates; C85 says for which r and s. The text of the io::Error inside an IoError is an argument, because the model has only its kind; the test makes it with the text \"other\"."
  },
  {
   "property": "C85",
   "status": "proved",
   "theorems": [
    "C85_identity",
    "C85_few",
    "C85_comes_back",
    "C85_test_rounds",
    "C85_mimc"
   ],
   "note": "That the prover creates a proof is a hypothesis here (C37 says when it does). r0, s0 and s1 depend on the key and the witness."
  }
 ]
}