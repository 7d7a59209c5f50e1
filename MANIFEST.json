{"claims": [
  {"property": "C01", "status": "proved", "theorems": ["C01_less", "C01_correct", "C01_prefix"], "note": "For every fuel on which key generation and signing succeed; running out of fuel models the rejection-sampling loops not terminating on the given stream."},
  {"property": "C02", "status": "partial", "theorems": ["C02_open", "C02_five_sets", "C02_refuted"], "note": "Proved for every parameter set in which the largest possible number of published seeds is below MAX_PUBLISHED_SEEDS (C02_open), which holds for five of the seven sets (C02_five_sets). False for category 1 BALANCED and INTERMEDIATE: a signature publishing exactly MAX_PUBLISHED_SEEDS seeds is refused by the test num_seeds >= MAX_PUBLISHED_SEEDS (C02_refuted)."},
  {"property": "C03", "status": "proved", "theorems": ["C03_layout"], "note": ""},
  {"property": "C04", "status": "partial", "theorems": ["C04_open_safe_partial", "C04_refuted", "C04_refuted_no_seed", "C04_open_exact", "C04_empty_refuted"], "note": "False of the code: crypto_sign_open does not compare smlen with the signature length it derives, so it reads out of bounds (C04_refuted, C04_refuted_no_seed, C04_empty_refuted). C04_open_exact gives, for every public key with enough flags and reduced fields, the exact condition under which no access is out of bounds, and the two results; C04_open_safe_partial is the form with lengths only."},
  {"property": "C05", "status": "proved", "theorems": ["C05_verify_safe"], "note": ""},
  {"property": "C06", "status": "proved", "theorems": ["C06_transcript", "C06_binding"], "note": "Collision exhibited by the equal digests of two different absorbed strings."},
  {"property": "C07", "status": "proved", "theorems": ["C07_public_key"], "note": ""},
  {"property": "C08", "status": "proved", "theorems": ["C08_keygen_safe", "C08_sign_safe"], "note": ""},
  {"property": "C09", "status": "proved", "theorems": ["C09_fixed_weight"], "note": ""},
  {"property": "C10", "status": "proved", "theorems": ["C10_rebuild"], "note": ""},
  {"property": "C11", "status": "proved", "theorems": ["C11_exact_cover", "C11_all_revealed_out_of_bounds"], "note": ""},
  {"property": "C12", "status": "partial", "theorems": ["C12_maximum", "C12_bound", "C12_exact_maximum", "C12_table", "C12_bound_attained_partial", "C12_bound_attained_refuted"], "note": "The bound and the exact maximum are proved for every parameter set and every weight (C12_bound, C12_maximum); the last clause (the bound is attained) is false for five sets (C12_bound_attained_refuted) and proved for the other two (C12_bound_attained_partial)."},
  {"property": "C13", "status": "proved", "theorems": ["C13_roundtrip", "C13_layout", "C13_overwrites"], "note": ""},
  {"property": "C14", "status": "proved", "theorems": ["C14_roundtrip", "C14_layout", "C14_overwrites", "C14_decode_total"], "note": ""},
  {"property": "C15", "status": "proved", "theorems": ["C15_check", "C15_accepted", "C15_rejected"], "note": ""},
  {"property": "C16", "status": "proved", "theorems": ["C16_rref"], "note": ""},
  {"property": "C17", "status": "proved", "theorems": ["C17_canonical", "C17_idempotent"], "note": ""},
  {"property": "C18", "status": "proved", "theorems": ["C18_signer", "C18_verifier", "C18_code_only", "C18_invariant", "C18_round"], "note": ""},
  {"property": "C19", "status": "proved", "theorems": ["C19_sorts", "C19_order_irrelevant"], "note": ""},
  {"property": "C20", "status": "proved", "theorems": ["C20_minimize", "C20_first_entry", "C20_equal_iff_proportional"], "note": ""},
  {"property": "C21", "status": "proved", "theorems": ["C21_associative", "C21_identity", "C21_inverse", "C21_product", "C21_action", "C21_undo"], "note": ""},
  {"property": "C22", "status": "proved", "theorems": ["C22_reduction", "C22_product", "C22_power", "C22_inverse", "C22_subtraction"], "note": ""},
  {"property": "C23", "status": "proved", "theorems": ["C23_sampler", "C23_sampler_range", "C23_shuffle", "C23_shuffle_bijective", "C23_monomial", "C23_generator"], "note": ""},
  {"property": "C24", "status": "proved", "theorems": ["C24_absorb", "C24_squeeze"], "note": ""},
  {"property": "C25", "status": "proved", "theorems": ["C25_permutation", "C25_shake", "C25_sha3", "C25_sha3_incremental", "C25_shake_incremental", "C25_shake_blocks", "C25_less_primitives"], "note": ""},
  {"property": "C26", "status": "partial", "theorems": ["C26_refuted", "C26_refuted_scaling", "C26_binding_partial", "C26_replace", "C26_open_partial"], "note": "False of the code: the unused bytes of the seed storage and a common factor of the coefficients of a response can be changed (C26_refuted, C26_refuted_scaling). What holds: two valid signatures with the same digest have the same salt, message and normal forms, or else the strings hashed for the two are a collision of the hash function (C26_binding_partial, C26_open_partial), and nothing more can be said (C26_replace). Unforgeability in the computational sense is outside this model."},
  {"property": "C27", "status": "proved", "theorems": ["C27_scalar", "C27_red_all_bytes", "C27_mul_seven_bits", "C27_vector"], "note": "The divergence of br_red and of the vector reductions from reduction modulo 127 is stated by C27_red_all_bytes, C27_mul_seven_bits and C27_vector."},
  {"property": "C28", "status": "proved", "theorems": ["C28_rref", "C28_mul", "C28_unreduced_refuted"], "note": "The hypothesis that the entries are below 127 is needed: C28_unreduced_refuted."},
  {"property": "C29", "status": "partial", "theorems": ["C29_zero_key", "C29_refuted", "C29_usable_partial", "C29_generated_usable", "C29_flags", "C29_few_flags", "C29_unreduced_refuted"], "note": "False of the code: a key announcing fewer than K pivot columns never gets a verdict (C29_few_flags, C29_flags; C29_refuted is the all-zero key for every parameter set), and an unreduced field can make verification leave its buffers although K columns are announced (C29_unreduced_refuted). C29_usable_partial: for every key with at least K flags per component and reduced fields, echelon form or not, verification is safe exactly when the signature object is long enough; generated keys are of that form (C29_generated_usable)."},
  {"property": "C30", "status": "proved", "theorems": ["C30_keygen", "C30_sign", "C30_crypto_sign", "C30_verify"], "note": ""},
  {"property": "C31", "status": "proved", "theorems": ["C31_memcmp", "C31_no_early_exit"], "note": "The access sequence is modelled by the loop visiting every index whatever the contents; timing itself is not modelled."},
  {"property": "C32", "status": "proved", "theorems": ["C32_compact_expand"], "note": ""},
  {"property": "C33", "status": "proved", "theorems": ["C33_equivalence", "C33_two_responses", "C33_seed_and_response"], "note": ""},
  {"property": "C34", "status": "proved", "theorems": ["C34_exactly"], "note": ""},
  {"property": "C35", "status": "proved", "theorems": ["C35_round_inputs", "C35_domains"], "note": ""},
  {"property": "C36", "status": "proved", "theorems": ["C36_sizeof_sign", "C36_bits", "C36_sizes", "C36_key_size_macros_refuted"], "note": "C36_key_size_macros_refuted records that the unused macros LESS_CRYPTO_PUBLICKEYBYTES and LESS_CRYPTO_SECRETKEYBYTES do not equal the struct sizes."},
  {"property": "C37", "status": "proved", "theorems": ["C37_keygen", "C37_sign", "C37_verify", "C37_interoperable", "C37_api", "C37_less", "C37_verify_unreduced_refuted"], "note": "C37_verify_unreduced_refuted shows that verification differs for a public key with entries 127, which key generation does not make."},
  {"property": "C38", "status": "proved", "theorems": ["C38_monomial", "C38_generator", "C38_challenge"], "note": "The specification is LessSpec.v; it uses no definition of the model. Fuel bounds only the rejection-sampling loops."},
  {"property": "C39", "status": "proved", "theorems": ["C39_keygen", "C39_keys"], "note": "The specification is LessSpec.v; it uses no definition of the model. Fuel bounds only the rejection-sampling loops."},
  {"property": "C40", "status": "proved", "theorems": ["C40_sign", "C40_signature_unique"], "note": "The specification is LessSpec.v; it uses no definition of the model. Fuel bounds only the rejection-sampling loops. The last byte of the object keeps its previous content unless every seed place is used."},
  {"property": "C41", "status": "proved", "theorems": ["C41_verify", "C41_full_size", "C41_signatures_valid"], "note": "The specification is LessSpec.v; it uses no definition of the model. Fuel bounds only the rejection-sampling loops. For other public keys see C29; for shorter objects see C04."},
  {"property": "C42", "status": "proved", "theorems": ["C42_open"], "note": "Under the length hypotheses that the code does not check (see C04)."},
  {"property": "C43", "status": "proved", "theorems": ["C43_keygen", "C43_sign", "C43_verify"], "note": ""},
  {"property": "C44", "status": "partial", "theorems": ["C44_script_table", "C44_script_bound", "C44_power_of_two_refuted"], "note": "Proved for every number of rounds that is not a power of two, and for dense patterns (C44_script_bound); the table is right (C44_script_table). False for every power of two: some pattern needs exactly one seed more than the script reserves, since the tree is then twice as large (C44_power_of_two_refuted)."},
  {"property": "C45", "status": "proved", "theorems": ["C45_drbg", "C45_long"], "note": "Requests below 2^31 bytes; C45_long proves that longer ones are undefined. AES is an arbitrary block function."},
  {"property": "C46", "status": "proved", "theorems": ["C46_expander"], "note": "Note that the expander never delivers the last byte: the code refuses xlen >= length_remaining."},
  {"property": "C47", "status": "proved", "theorems": ["C47_marker", "C47_hex", "C47_hex_any", "C47_no_digits", "C47_no_label", "C47_empty", "C47_decimal"], "note": "Non-empty strings; C47_empty shows what happens with length zero (the program never asks for it)."},
  {"property": "C48", "status": "proved", "theorems": ["C48_vectors", "C48_ends", "C48_five_sets"], "note": "C48_vectors: contents of both files and the only way to fail; C48_ends: termination when the vectors exist; C48_five_sets: no failure."},
  {"property": "C49", "status": "proved", "theorems": ["C49_special_soundness", "C49_one_challenge", "C49_commitments", "C49_same_randomness"], "note": "The equivalence is shown to exist; that it can be computed fast from the two signatures is not stated. The key with inequivalent matrices of the example is C49_unrelated_example."},
  {"property": "C50", "status": "proved", "theorems": ["C50_inverses", "C50_testers", "C50_functional", "C50_microbench", "C50_program", "C50_fixed", "C50_five_sets"], "note": "For the reference implementation. Termination of rejection sampling is not claimed: a run that ends behaves as stated."},
  {"property": "C51", "status": "proved", "theorems": ["C51_elements", "C51_challenge", "C51_room", "C51_permutation", "C51_uniform_permutation_refuted"], "note": "Equality of counts is stated as a bijection between word sequences. C51_uniform_permutation_refuted records that the shuffle is not exactly uniform. The challenge part assumes that a 16-bit word has room for a key number and a position (C51_room: true of all seven sets)."},
  {"property": "C52", "status": "proved", "theorems": ["C52_statistics", "C52_timing", "C52_zero_signature", "C52_programs"], "note": "Floating-point numbers are modelled as rationals (rounding left out); the square root of the variance is left out."},
  {"property": "C53", "status": "proved", "theorems": ["C53_simulator", "C53_bijection", "C53_witness", "C53_answers", "C53_signature"], "note": "Statements about all monomial matrices. That the ephemeral monomials are close to uniform is the subject of C51; that their seeds look random is an assumption on the hash function and not part of the claim."},
  {"property": "C54", "status": "proved", "theorems": ["C54_generator", "C54_rref", "C54_monomial", "C54_matrix", "C54_transpose", "C54_product_refuted"], "note": "The text is modelled as the list of its characters; that stderr accepts every character is not part of the claim. C54_product_refuted records that the printed monomial matrix is not the matrix by which generators are multiplied but its transpose."},
  {"property": "C55", "status": "proved", "theorems": ["C55_elements", "C55_elements_bound", "C55_elements_vanish", "C55_challenge", "C55_challenge_bound", "C55_challenge_vanish", "C55_parameters"], "note": "Streams are counted, without a probability measure. Theorems C55_challenge to C55_challenge_vanish assume that a half-word has room for a key number and a position, which C55_parameters shows for the seven sets."},
  {"property": "C56", "status": "proved", "theorems": ["C56_challenges", "C56_level", "C56_minimal", "C56_equal", "C56_soundness", "C56_parameters"], "note": "Streams are counted, without a probability measure; the signer fixes the normal forms before the stream, so the claim concerns one attempt. C56_soundness assumes that a half-word has room for a key number and a position (C51_room shows it for the seven sets)."},
  {"property": "C57", "status": "proved", "theorems": ["C57_leaf", "C57_generate", "C57_path", "C57_rebuild", "C57_sign", "C57_verify", "C57_correct"], "note": "The theorems relate two models of the same code; the array model follows the C source access by access."},
  {"property": "C58", "status": "proved", "theorems": ["C58_absorb", "C58_finalize", "C58_squeeze", "C58_digest", "C58_wrap_refuted", "C58_initialize", "C58_request", "C58_request_refuted", "C58_less"], "note": "The limits are part of the statement; theorems with the suffix _refuted show what happens beyond them. size_t has 64 bits. No caller in the repository reaches the limits."},
  {"property": "C59", "status": "proved", "theorems": ["C59_wide", "C59_range", "C59_narrow", "C59_sets", "C59_category3_refuted"], "note": "The exception for category 3 BALANCED is part of the statement; C59_category3_refuted gives a witness. No code calls br_red16."},
  {"property": "C60", "status": "proved", "theorems": ["C60_memcmp", "C60_inverse", "C60_lex_minimize", "C60_lex_minimize_refuted", "C60_compare"], "note": "The exact leak of lex_minimize is part of the statement; C60_lex_minimize_refuted refutes the comment in the source. About the abstract machine of C: a compiler may remove or add branches."},
  {"property": "C61", "status": "proved", "theorems": ["C61_multiply", "C61_invert", "C61_compose", "C61_shuffle", "C61_sign", "C61_keygen"], "note": "About the abstract machine of C; Keccak and copies of bytes are not recorded, as their branches and addresses depend on lengths alone."},
  {"property": "C62", "status": "proved", "theorems": ["C62_round", "C62_attack", "C62_forge"], "note": "Columns named in no such round stay unknown; the theorem says which those are. C49 proves the underlying relation between commitments."},
  {"property": "C63", "status": "proved", "theorems": ["C63_sign", "C63_overlap", "C63_message", "C63_separate", "C63_spoiled", "C63_open", "C63_open_overlap", "C63_round_trip"], "note": "The keys are separate objects. Overlap with the other fields of the signature is harmless, as the message is read before they are written (C63_message)."},
  {"property": "C64", "status": "proved", "theorems": ["C64_same", "C64_correct", "C64_safe", "C64_exchange_refuted"], "note": "The hash is taken to be independent of the byte order. That keys and signatures do not travel is shown by a run with toy parameters (C64_exchange_refuted)."},
  {"property": "C65", "status": "proved", "theorems": ["C65_safe", "C65_opens", "C65_stream", "C65_shake"], "note": "The calls of a run are a list, which covers programs whose calls depend on earlier results. The stream is stated for every generator whose output does not depend on how it is requested; C65_shake shows that of LESS to be one."},
  {"property": "C66", "status": "proved", "theorems": ["C66_unused", "C66_bound", "C66_substitution", "C66_honest", "C66_accepted"], "note": "Signatures are not tied to one key (no exclusive ownership); the theorems give what is bound and a family of replacements. That no other replacement exists is not claimed: C66_bound only says that the codes asked for are equivalent round by round."},
  {"property": "C67", "status": "proved", "theorems": ["C67_safe", "C67_same", "C67_reference", "C67_opens", "C67_less"], "note": "Two runs are compared when both end (rejection sampling and the opening of forged messages may exhaust the fuel of the model)."},
  {"property": "C68", "status": "proved", "theorems": ["C68_result", "C68_bounds", "C68_worst", "C68_attained", "C68_less"], "note": ""},
  {"property": "C69", "status": "proved", "theorems": ["C69_lines", "C69_parse", "C69_analyse", "C69_table", "C69_programs", "C69_bench", "C69_other_names"], "note": ""},
  {"property": "C70", "status": "proved", "theorems": ["C70_reduction", "C70_coefficients", "C70_commitment", "C70_prepare", "C70_reduction_refuted", "C70_prepare_refuted"], "note": "C70_reduction_refuted and C70_prepare_refuted show that neither part is constant time. About the abstract machine of C; the record contains indices of array elements, not of bytes."},
  {"property": "C71", "status": "proved", "theorems": ["C71_sort", "C71_increasing", "C71_prepare"], "note": "Both directions; about the abstract machine of C. The record contains indices of array elements, not of bytes."},
  {"property": "C72", "status": "proved", "theorems": ["C72_commitment", "C72_response", "C72_whole"], "note": "About the abstract machine of C and an observer who sees every branch and every index of an array element. The record of the composition itself is not used."}
]}
