{"id": "C01", "title": "Every honestly produced signature verifies", "statement": "If LESS_keygen produced (SK,PK) and LESS_sign(SK,m) produced sig, then LESS_verify(PK,m,sig) returns 1.", "quantifier": "for every supported parameter set, every stream of random bytes used by keygen and by sign, every message of any length, every initial content of the output buffers and of uninitialised locals", "why_tests_cant": "The algebra (monomial composition, information sets, RREF, column canonical form, seed tree, codecs) must agree for every key, every permutation and every challenge; KATs exercise a few hundred seeds out of 2^128.", "anchors": ["Reference_Implementation/lib/LESS.c: LESS_keygen, LESS_sign, LESS_verify", "Reference_Implementation/lib/codes.c: prepare_digest_input, apply_action_to_G, generator_RREF", "Reference_Implementation/lib/monomial.c: monomial_compose_action"]}
{"id": "C02", "title": "Opening a signed message returns the signed message", "statement": "crypto_sign_open(crypto_sign(m)) returns 0, sets *mlen to the original length and m to the original bytes.", "quantifier": "for every key pair from crypto_sign_keypair, message and randomness", "why_tests_cant": "The outcome depends on how many seeds the challenge makes the signer publish; the extreme value occurs with negligible probability in random tests, yet it is exactly the value the opener rejects.", "anchors": ["Reference_Implementation/lib/sign.c: crypto_sign, crypto_sign_open", "Reference_Implementation/include/parameters.h: MAX_PUBLISHED_SEEDS"]}
{"id": "C03", "title": "Layout and length of a signed message", "statement": "crypto_sign writes m followed by the signature: smlen = mlen + 2*HASH_DIGEST_LENGTH + W*MONO_ACTION_PACKEDBYTES + n*SEED_LENGTH_BYTES + 1, the first mlen bytes are m, the last byte sm[smlen-1] is n (the number of published seeds), and nothing beyond mlen + CRYPTO_BYTES is written.", "quantifier": "for every message, secret key, and random stream", "why_tests_cant": "The length is data dependent (n ranges over every value up to the maximum) and the last byte overlaps the variable-length tail.", "anchors": ["Reference_Implementation/lib/sign.c: crypto_sign", "Reference_Implementation/lib/LESS.c: LESS_sign", "Reference_Implementation/include/parameters.h: LESS_CRYPTO_BYTES", "Reference_Implementation/include/LESS.h: sign_t"]}
{"id": "C04", "title": "crypto_sign_open is memory safe on arbitrary input", "statement": "For any byte string sm and any smlen not exceeding the buffer, crypto_sign_open returns 0 or -1 without reading outside sm[0..smlen) or writing outside m[0..smlen).", "quantifier": "for every byte string offered as a signed message under an honest public key", "why_tests_cant": "The offending inputs (empty, shorter than a signature, seed-count byte inconsistent with the challenge) are adversarial and must be excluded for all contents.", "anchors": ["Reference_Implementation/lib/sign.c: crypto_sign_open", "Reference_Implementation/lib/seedtree.c: rebuild_seed_tree_leaves"]}
{"id": "C05", "title": "Verification is total and memory safe for honest keys and arbitrary signatures", "statement": "Given a public key produced by LESS_keygen, LESS_verify on any full-size signature buffer returns 0 or 1 and never accesses an array out of bounds, whatever the bytes of the signature.", "quantifier": "for every signature byte string of size sizeof(sign_t), every message, every honest public key", "why_tests_cant": "Adversarial signatures select arbitrary columns, arbitrary coefficients and arbitrary seeds; return codes of Gaussian elimination are ignored by the code, so safety rests on a rank argument.", "anchors": ["Reference_Implementation/lib/LESS.c: LESS_verify", "Reference_Implementation/lib/monomial.c: expand_to_monom_action, is_monom_action_valid", "Reference_Implementation/lib/codes.c: apply_action_to_G, lex_minimize, lex_sort_cols"]}
{"id": "C06", "title": "A signature is bound to one message unless the hash collides", "statement": "If LESS_verify accepts the same signature under the same public key for two different messages then two different inputs of the hash function with the same digest are exhibited.", "quantifier": "for every public key, every signature, every pair of distinct messages", "why_tests_cant": "Quantifies over adversarial message pairs and is a statement about injectivity of what is hashed.", "anchors": ["Reference_Implementation/lib/LESS.c: LESS_verify"]}
{"id": "C07", "title": "Public key components are codes equivalent to G_0 through the secret monomials", "statement": "Each packed matrix of the public key decodes to a generator matrix in reduced row-echelon form of full rank whose row space is exactly the code G_0*Q_i, where Q_i is the inverse of the monomial that LESS_sign re-expands from the secret key; both key halves hold the same G_0 seed.", "quantifier": "for every random stream consumed by key generation", "why_tests_cant": "Needs row-space equality over F_127 for every matrix and monomial that the expansion can produce.", "anchors": ["Reference_Implementation/lib/LESS.c: LESS_keygen", "Reference_Implementation/lib/codes.c: generator_monomial_mul, generator_RREF, compress_rref, expand_to_rref", "Reference_Implementation/lib/monomial.c: monomial_mat_inv"]}
{"id": "C08", "title": "Key generation and signing never access memory out of bounds", "statement": "LESS_keygen and LESS_sign perform every array access inside the array's bounds for any random stream, any secret-key bytes and any message, and the published seeds fit the signature's seed storage.", "quantifier": "for every secret key byte string, random stream, message and every content of uninitialised memory", "why_tests_cant": "Bounds depend on sampled permutations, on pivots found by elimination and on the number of seeds the challenge publishes.", "anchors": ["Reference_Implementation/lib/LESS.c: LESS_keygen, LESS_sign", "Reference_Implementation/lib/seedtree.c: seed_tree_path", "Reference_Implementation/lib/codes.c: prepare_digest_input"]}
{"id": "C09", "title": "The expanded challenge has exactly W non-zero entries, all below NUM_KEYPAIRS", "statement": "expand_digest_to_fixed_weight turns a zeroed array of length T into one with exactly W non-zero entries, each in 1..NUM_KEYPAIRS-1.", "quantifier": "for every digest and every output stream of the XOF", "why_tests_cant": "Rejection sampling: depends on unbounded streams of candidate positions and collisions.", "anchors": ["Reference_Implementation/lib/utils.c: expand_digest_to_fixed_weight"]}
{"id": "C10", "title": "Rebuilding from the published seeds restores exactly the revealed leaves", "statement": "For any set of hidden leaves with at least one hidden leaf, rebuild_seed_tree_leaves applied to what seed_tree_path wrote reproduces the original seed of every revealed leaf and consumes exactly the number of seeds that were published.", "quantifier": "for every root seed, salt, and every subset of hidden leaves (non empty)", "why_tests_cant": "2^T subsets and every tree.", "anchors": ["Reference_Implementation/lib/seedtree.c: generate_seed_tree_from_root, compute_seeds_to_publish, seed_tree_path, rebuild_seed_tree_leaves"]}
{"id": "C11", "title": "Published seeds reveal the requested leaves and no ancestor of a hidden leaf", "statement": "The nodes written by seed_tree_path are an exact cover: each revealed leaf (including padding leaves) has exactly one published ancestor-or-self, no hidden leaf has any.", "quantifier": "for every non-empty subset of hidden leaves", "why_tests_cant": "Secrecy statement over 2^T subsets.", "anchors": ["Reference_Implementation/lib/seedtree.c: compute_seeds_to_publish, seed_tree_path"]}
{"id": "C12", "title": "The number of published seeds never exceeds MAX_PUBLISHED_SEEDS", "statement": "For every challenge of weight W, seed_tree_path publishes at most MAX_PUBLISHED_SEEDS seeds, so seed storage never overflows and the count fits its byte; the bound is attained.", "quantifier": "for every string of length T and weight W, every supported parameter set", "why_tests_cant": "The worst case is attained only by a vanishing fraction of weight-W strings.", "anchors": ["Reference_Implementation/lib/seedtree.c: seed_tree_path", "Reference_Implementation/include/parameters.h: SEED_TREE_MAX_PUBLISHED_BYTES", "Utilities/Parameter_Generation_Scripts/seed_tree_param_computer.py"]}
{"id": "C13", "title": "Packing and unpacking a public matrix are inverse", "statement": "expand_to_rref(compress_rref(G, flags)) = G for every matrix in reduced row-echelon form with entries below 127 and its K pivot flags; every byte of the packed form is written and the bit layout is flags then 7-bit entries row by row.", "quantifier": "for every RREF matrix and any set of K pivot columns, every previous content of the buffer", "why_tests_cant": "127^(K(N-K)) matrices times pivot sets; bit-level state machine.", "anchors": ["Reference_Implementation/lib/codes.c: compress_rref, expand_to_rref"]}
{"id": "C14", "title": "Packing and unpacking a monomial action are inverse", "statement": "expand_to_monom_action(compress_monom_action(a)) = a for every action with positions below N and coefficients below 127, for the three per-category bit widths; all MONO_ACTION_PACKEDBYTES bytes are written and in bounds.", "quantifier": "for every action, every previous buffer content, each category", "why_tests_cant": "Hand-unrolled state machines with 9- and 10-bit fields straddling bytes; all values matter.", "anchors": ["Reference_Implementation/lib/monomial.c: compress_monom_action, expand_to_monom_action"]}
{"id": "C15", "title": "Only well-formed monomial actions are accepted", "statement": "is_monom_action_valid returns 1 exactly when all K coefficients are in 1..126 and the K positions are pairwise distinct and below N, and LESS_verify returns 0 whenever an action it uses is not of this form.", "quantifier": "for every decoded action and every signature", "why_tests_cant": "Must hold on all adversarial encodings.", "anchors": ["Reference_Implementation/lib/monomial.c: is_monom_action_valid", "Reference_Implementation/lib/LESS.c: LESS_verify"]}
{"id": "C16", "title": "generator_RREF computes a reduced row-echelon form of the same code", "statement": "generator_RREF returns 1 exactly when the K rows are linearly independent over F_127; then the result generates the same code, is in reduced row-echelon form, and the flags mark exactly its K pivot columns. When it returns 0 memory is still accessed in bounds.", "quantifier": "for every K x N matrix over F_127", "why_tests_cant": "Infinite family of pivot patterns; correctness on non-leading pivots is almost never hit by random matrices.", "anchors": ["Reference_Implementation/lib/codes.c: generator_RREF, swap_rows"]}
{"id": "C17", "title": "The reduced form depends only on the code", "statement": "If two full-rank matrices generate the same code, generator_RREF produces identical matrices and identical pivot flags for both; in particular it is idempotent.", "quantifier": "for every pair of generator matrices of the same code", "why_tests_cant": "Relational statement over all matrices and all changes of basis.", "anchors": ["Reference_Implementation/lib/codes.c: generator_RREF"]}
{"id": "C18", "title": "The digest input is invariant under the choices the verifier cannot see", "statement": "The normalized matrix fed to the hash is the same for G*Q and for any matrix obtained from it by a change of basis followed by packing the information set first and permuting and scaling the remaining columns.", "quantifier": "for every full-rank matrix, monomial and change of basis, every permutation and nonzero scaling of the non-information-set columns", "why_tests_cant": "Canonical-form invariance over group actions of size (q-1)^n n!.", "anchors": ["Reference_Implementation/lib/codes.c: prepare_digest_input, apply_action_to_G, lex_minimize, lex_sort_cols", "Reference_Implementation/lib/LESS.c: LESS_verify"]}
{"id": "C19", "title": "lex_sort_cols sorts", "statement": "lex_sort_cols terminates, stays in bounds, and rearranges the columns into non-decreasing lexicographic order, keeping the multiset of columns (duplicates included).", "quantifier": "for every matrix of N-K columns, for both widths of POSITION_T", "why_tests_cant": "Quicksort with wrap-around indices; adversarial inputs with many equal columns and sorted inputs.", "anchors": ["Reference_Implementation/lib/codes.c: Hoare_partition, col_lex_quicksort, lex_sort_cols, lex_compare_with_pivot, column_swap"]}
{"id": "C20", "title": "lex_minimize maps a column to the canonical representative of its scaling class", "statement": "lex_minimize writes the multiple of the column whose first non-zero entry is 1 (the zero column is kept); two columns get the same result iff they are non-zero multiples of each other; it touches only the destination column.", "quantifier": "for every column over F_127 and every destination", "why_tests_cant": "126 * 127^K pairs.", "anchors": ["Reference_Implementation/lib/codes.c: lex_minimize"]}
{"id": "C21", "title": "Monomial matrices form a group acting on generator matrices", "statement": "monomial_mat_mul is associative with identity monomial_mat_id and inverse monomial_mat_inv; generator_monomial_mul satisfies (G*A)*B = G*(A*B) and G*Q*Q^-1 = G.", "quantifier": "for all monomials and matrices", "why_tests_cant": "Universal algebraic laws.", "anchors": ["Reference_Implementation/lib/monomial.c: monomial_mat_mul, monomial_mat_inv, monomial_mat_id", "Reference_Implementation/lib/codes.c: generator_monomial_mul"]}
{"id": "C22", "title": "Field arithmetic is exact", "statement": "fq_red(x) = x mod 127 for every 16-bit x, fq_inv(x)*x = 1 mod 127 for every x not divisible by 127 and fq_inv(0)=0; no intermediate overflows its C type.", "quantifier": "for every operand of the C type", "why_tests_cant": "Finite but every operand combination that elimination can produce must be covered, including unreduced ones.", "anchors": ["Reference_Implementation/include/fq_arith.h: fq_red, fq_inv"]}
{"id": "C23", "title": "Sampled field elements are in range and sampled permutations are permutations", "statement": "The samplers fill exactly the requested number of elements with values in range and use each accepted 7-bit chunk once; the shuffle yields a permutation of 0..N-1 for any random words.", "quantifier": "for every XOF output stream", "why_tests_cant": "Streams are unbounded, rejection can happen arbitrarily often.", "anchors": ["Reference_Implementation/include/fq_arith.h: DEF_RAND_STATE", "Reference_Implementation/lib/monomial.c: yt_shuffle_state, monomial_mat_seed_expand_salt_rnd, monomial_mat_seed_expand_prikey"]}
{"id": "C24", "title": "Incremental hashing does not depend on chunk boundaries", "statement": "Absorbing a message in any sequence of chunks gives the same state as absorbing it at once, and squeezing in any sequence of requests gives the same bytes as one request.", "quantifier": "for every split of every input and output", "why_tests_cant": "All partitions of all strings.", "anchors": ["Reference_Implementation/lib/fips202.c: keccak_inc_absorb, keccak_inc_finalize, keccak_inc_squeeze"]}
{"id": "C25", "title": "SHA-3 and SHAKE follow FIPS 202", "statement": "KeccakF1600_StatePermute equals 24 rounds of theta,rho,pi,chi,iota on every state, and the one-shot and incremental SHAKE128/256, SHA3-256/384/512 functions equal the byte-oriented sponge with pad10*1 and the right suffix, for inputs of every length.", "quantifier": "for every 1600-bit state, every message and output length", "why_tests_cant": "2^1600 states; test vectors cover a handful.", "anchors": ["Reference_Implementation/lib/keccakf1600.c: KeccakF1600_StatePermute", "Reference_Implementation/lib/fips202.c: keccak_absorb, keccak_squeezeblocks, shake128_inc_*, sha3_256_inc_*"]}
{"id": "C26", "title": "A signed message cannot be altered without being rejected (strong binding)", "statement": "If crypto_sign_open accepts sm, then no other byte string sm' that opens to the same message can be derived from sm without the secret key.", "quantifier": "for every accepted signed message", "why_tests_cant": "Existential over adversarial modifications: ignored bytes, padding bits, seed-count slack, global scaling of coefficients.", "anchors": ["Reference_Implementation/lib/sign.c: crypto_sign_open", "Reference_Implementation/lib/LESS.c: LESS_verify", "Reference_Implementation/lib/monomial.c: expand_to_monom_action"]}
{"id": "C27", "title": "Optimised field arithmetic agrees with the reference", "statement": "On reduced operands the optimised br_mul/br_red/fq_inv and the vector reductions return the same values as the reference fq_red/fq_inv; the divergence on the unreduced value 127 is characterised.", "quantifier": "for every pair of operands", "why_tests_cant": "Lane-wise tricks (16-bit shifts on bytes) must be right on every byte pair.", "anchors": ["Optimized_Implementation/common/include/fq_arith.h: br_mul, br_red, fq_inv", "Optimized_Implementation/avx2/include/macro.h: barrett_red8, barrett_mul_u16, W_RED127_"]}
{"id": "C28", "title": "Optimised elimination and monomial product agree with the reference", "statement": "The table-based vector generator_RREF and generator_monomial_mul produce, on matrices with entries below 127, exactly the matrices, flags and return value of the reference versions.", "quantifier": "for every matrix, every content of padding lanes and uninitialised tables", "why_tests_cant": "Equivalence of two programs on all inputs.", "anchors": ["Optimized_Implementation/common/lib/codes.c: generator_RREF, generator_monomial_mul"]}
{"id": "C29", "title": "Verification is memory safe for arbitrary public keys", "statement": "LESS_verify never accesses memory out of bounds even if the public key bytes are malformed.", "quantifier": "for every public key byte string", "why_tests_cant": "Adversarial public keys; violation needs a pivot-flag count different from K, which honest keys never have.", "anchors": ["Reference_Implementation/lib/codes.c: expand_to_rref", "Reference_Implementation/lib/LESS.c: LESS_verify"]}
{"id": "C30", "title": "Signing is a function of key, message and the random bytes, and of nothing else", "statement": "Two runs of LESS_sign (LESS_keygen) with equal inputs and equal random bytes produce equal outputs whatever the previous contents of the output buffer and of uninitialised memory, except the bytes of the seed storage after the count byte; they draw exactly SEED_LENGTH_BYTES + HASH_DIGEST_LENGTH (3*SEED_LENGTH_BYTES) bytes.", "quantifier": "for every pair of initial memories", "why_tests_cant": "Relational statement about all uninitialised contents.", "anchors": ["Reference_Implementation/lib/LESS.c: LESS_sign, LESS_keygen"]}
{"id": "C31", "title": "Digest comparison accepts equal digests only", "statement": "timing_safe_memcmp returns 0 iff the two buffers agree on every byte, and performs the same sequence of accesses whatever the contents.", "quantifier": "for every pair of buffers and length", "why_tests_cant": "256^(2n) pairs.", "anchors": ["Reference_Implementation/lib/LESS.c: timing_safe_memcmp"]}
{"id": "C32", "title": "Compact and full generator forms are inverse", "statement": "generator_rref_expand(generator_rref_compact(G, flags)) = G for every RREF matrix with K pivots flagged.", "quantifier": "for every RREF matrix and pivot set", "why_tests_cant": "All pivot patterns, including pivots after all dense columns.", "anchors": ["Reference_Implementation/lib/codes.c: generator_rref_compact, generator_rref_expand"]}
{"id": "C33", "title": "Answers to two different challenges for the same commitment reveal an equivalence of codes", "statement": "If two matrices A and B give the same normalized digest input through an information set each, then the codes of A and B are equal up to a monomial transformation (permutation and non-zero scaling of coordinates).", "quantifier": "for all full-rank matrices and valid actions", "why_tests_cant": "Existential-universal algebraic statement behind unforgeability.", "anchors": ["Reference_Implementation/lib/codes.c: prepare_digest_input, apply_action_to_G, lex_minimize, lex_sort_cols"]}
{"id": "C34", "title": "Verification accepts exactly when the recomputed digest equals the transmitted one", "statement": "LESS_verify returns 1 iff every used action is well formed and the hash of the T normalized matrices, the message and the salt equals the digest in the signature.", "quantifier": "for every public key from key generation, message, signature", "why_tests_cant": "Functional characterisation over all inputs.", "anchors": ["Reference_Implementation/lib/LESS.c: LESS_verify"]}
{"id": "C35", "title": "Expansions of distinct rounds and of distinct seeds hash distinct strings", "statement": "The strings absorbed by monomial_mat_seed_expand_salt_rnd for different (seed, salt, round) triples are different for all rounds below T.", "quantifier": "for all seeds, salts, and rounds", "why_tests_cant": "Injectivity over all pairs.", "anchors": ["Reference_Implementation/lib/monomial.c: monomial_mat_seed_expand_salt_rnd"]}
{"id": "C36", "title": "Declared sizes agree", "statement": "sizeof(sign_t) = LESS_CRYPTO_MAX_BYTES; every index, count and offset used fits the C type that holds it, for every supported parameter set.", "quantifier": "for every parameter set", "why_tests_cant": "Compile-time configurations are rarely all built; type-width arguments are over all run-time values.", "anchors": ["Reference_Implementation/include/parameters.h", "Reference_Implementation/include/api.h", "Reference_Implementation/include/LESS.h"]}
{"id": "C37", "title": "The optimised implementation is interchangeable with the reference", "statement": "With the same randomness the optimised key generation and signing return the keys and the signature bytes of the reference, and optimised verification with a public key made by key generation returns the verdict of the reference; keys and signatures made by either implementation are accepted by either, for AVX2 and NEON and every padding of the arrays.", "quantifier": "for every parameter set, padding, instruction set, random stream, message, signature string and content of uninitialised memory in either implementation", "why_tests_cant": "Known-answer files cover a few seeds with one compiler and one stack content; equivalence is over all inputs and all contents of uninitialised tables.", "anchors": ["Optimized_Implementation/common/lib/LESS.c", "Optimized_Implementation/common/lib/codes.c", "Optimized_Implementation/common/lib/monomial.c", "Optimized_Implementation/common/lib/sign.c"]}
{"id": "C38", "title": "Seed and digest expansion compute the specified values", "statement": "The monomial matrix expanded from a seed (with salt and round), the systematic generator expanded from a seed and the fixed-weight challenge expanded from a digest are those of the specification: the first values in range of the 64-bit words of the stream in order, a Fisher-Yates shuffle with the following bytes, and the placement of non-zero challenge values at positions not yet taken. A run that ends has computed the specified value, and if the specified value exists then every run with enough iterations ends with it.", "quantifier": "for every parameter set, extendable-output function, seed, digest and content of the destination", "why_tests_cant": "Tests compare a few streams; which word, chunk or byte is consumed when a rejection happens at a buffer boundary shows only on rare streams.", "anchors": ["Reference_Implementation/lib/fq_arith.c", "Reference_Implementation/lib/monomial.c", "Reference_Implementation/lib/codes.c", "Reference_Implementation/lib/utils.c"]}
{"id": "C39", "title": "Key generation computes the specified keys", "statement": "From the state of the random generator, LESS_keygen returns exactly the key pair of the specification: the private seeds are successive outputs of the stream of the compressed key, and each public component is the packed reduced row echelon form of G_0 acted on by the inverse monomial. The specification determines the keys; conversely whenever it has a value enough iterations compute it.", "quantifier": "for every parameter set, primitives, generator state, memory content", "why_tests_cant": "A test compares with recorded answers of the same code; functional correctness against an independent description is over all streams.", "anchors": ["Reference_Implementation/lib/LESS.c"]}
{"id": "C40", "title": "Signing computes the specified signature", "statement": "LESS_sign returns exactly the signature of the specification: salt, packed responses of the challenged rounds in order, digest of the normal forms of all rounds followed by message and salt, the seeds of the maximal unchallenged subtrees in increasing order, their number, and zeros.", "quantifier": "for every parameter set, primitives, generator state, key, message and previous buffer content", "why_tests_cant": "The specification speaks of all rounds, trees and challenges; tests see a handful of them.", "anchors": ["Reference_Implementation/lib/LESS.c", "Reference_Implementation/lib/seedtree.c"]}
{"id": "C41", "title": "Verification decides the specified validity predicate", "statement": "With a public key of the form given by key generation and a signature object long enough for its challenge, LESS_verify has no undefined behaviour, returns 1 exactly for the valid signatures of the specification and 0 exactly for the others, and accepts every valid signature with enough iterations. Signatures of the specification are valid.", "quantifier": "for every parameter set, primitives, public key of that form, message, signature string, memory content", "why_tests_cant": "Neither acceptance of every valid string nor rejection of every invalid one can be enumerated.", "anchors": ["Reference_Implementation/lib/LESS.c"]}
{"id": "C42", "title": "crypto_sign_open returns the verdict on the right bytes", "statement": "For a signed message long enough for the number of seeds in its last byte, crypto_sign_open copies exactly the bytes before the signature, reports their number, and returns 0 if and only if the signature is valid for them (-1 otherwise); a last byte of MAX_PUBLISHED_SEEDS or more is refused without output.", "quantifier": "for every parameter set, primitives, public key of the generated form, signed message and output buffer", "why_tests_cant": "All signed messages, including adversarial ones, are quantified over.", "anchors": ["Reference_Implementation/lib/sign.c"]}
{"id": "C43", "title": "The optimised implementation computes the same specification", "statement": "Key generation, signing and verification of the optimised implementation compute the keys, signatures and verdicts of the specification of C39 to C41.", "quantifier": "for every parameter set, padding, instruction set, primitives and memory content", "why_tests_cant": "As for C37 and C39 to C41.", "anchors": ["Optimized_Implementation/common/lib/LESS.c", "Optimized_Implementation/common/lib/codes.c"]}
{"id": "C44", "title": "The parameter script reserves enough room for the published seeds", "statement": "seed_tree_param_computer.py, from which the values of SEED_TREE_MAX_PUBLISHED_BYTES are taken, gives for every number of rounds t and every weight omega a size that no pattern of omega hidden leaves among t exceeds, and the seven values in parameters.h are those of the script.", "quantifier": "for every number of rounds, every weight and every pattern of that weight", "why_tests_cant": "The number of patterns is a binomial coefficient; the script itself is used for choosing new parameters, so it must hold for sizes that were never run.", "anchors": ["Utilities/Parameter_Generation_Scripts/seed_tree_param_computer.py: worst_case_seed_tree_cost", "Reference_Implementation/include/parameters.h: SEED_TREE_MAX_PUBLISHED_BYTES", "Reference_Implementation/lib/seedtree.c: seed_tree_path"]}
{"id": "C45", "title": "The random generator of the test vector program is CTR_DRBG", "statement": "After KAT_NIST_randombytes_init, any sequence of calls of KAT_NIST_randombytes returns the bytes that the counter-mode generator of SP 800-90A (AES-256, no derivation function, no additional input) returns for these requests, as long as each request is below 2^31 bytes; a longer request makes the signed index overflow, which is undefined.", "quantifier": "for every block cipher with 16-byte blocks, entropy, personalisation string, initial memory and list of request lengths", "why_tests_cant": "The counter is a 16-byte number with carries and the state evolves over unboundedly many calls.", "anchors": ["Utilities/KAT_Generation/lib/KAT_NIST_rng.c: KAT_NIST_randombytes_init, KAT_NIST_randombytes, KAT_NIST_AES256_CTR_DRBG_Update"]}
{"id": "C46", "title": "The seed expander delivers one key stream however it is asked", "statement": "After KAT_NIST_seedexpander_init, the calls of KAT_NIST_seedexpander that succeed return consecutive parts of one key stream, whose bytes are the encryptions of consecutive counters after seed, diversifier and maximal length; a call succeeds exactly when fewer than the maximal length of bytes have been delivered after it, and a call that fails changes nothing; a maximal length of 2^32 or more is refused.", "quantifier": "for every block cipher with 16-byte blocks, seed, diversifier, maximal length and list of request lengths", "why_tests_cant": "Buffer position and counter depend on the whole sequence of requests.", "anchors": ["Utilities/KAT_Generation/lib/KAT_NIST_rng.c: KAT_NIST_seedexpander_init, KAT_NIST_seedexpander"]}
{"id": "C47", "title": "The test vector files are read back as they were written", "statement": "FindMarker stops after the first occurrence of the marker, wherever it is, and fails exactly when there is none; ReadHex reads a non-empty byte string printed by fprintBstr back exactly, and in general reads the first digits on the rest of the line, of either case, and keeps the last ones that fit, giving zeros if the line has none; numbers are printed in decimal and read back. A length of zero is not handled: ReadHex then writes a byte.", "quantifier": "for every file content, marker of at most 49 characters, byte string and number", "why_tests_cant": "File contents and lengths are unbounded.", "anchors": ["Utilities/KAT_Generation/lib/PQCgenKAT_sign.c: FindMarker, ReadHex, fprintBstr"]}
{"id": "C48", "title": "The test vector program writes correct test vectors", "statement": "The program has no undefined behaviour; its request file is the list of the 100 inputs drawn from the generator of C45; each record of its response file is a correct test vector: the keys and the signed message that the specification of C39 and C40 prescribes for that seed and message. It ends with the complete file, except that it stops with an error after a vector whose signature publishes as many seeds as the signature has room for, which cannot happen in five of the seven parameter sets.", "quantifier": "for every parameter set, primitives, block cipher and content of uninitialised memory", "why_tests_cant": "The known answers themselves come from this program, so that comparing with them cannot show that they are right.", "anchors": ["Utilities/KAT_Generation/lib/PQCgenKAT_sign.c: main"]}
{"id": "C49", "title": "Two answers to the same commitments relate the matrices of the key (special soundness)", "statement": "If the rounds of two signatures, checked against the same public key with two challenges, give the same normal forms, then in every round the two matrices of the key that the challenges ask for generate equivalent codes. Hence for a key whose matrices are pairwise inequivalent, every choice of normal forms can be answered for at most one challenge. Signatures of two messages made with the same random bytes give the same normal forms.", "quantifier": "for every parameter set, primitives, public key, pair of signatures and pair of challenges", "why_tests_cant": "It quantifies over dishonest signatures and dishonest keys, whose codes no test enumerates, and inequivalence of codes cannot be observed in a run.", "anchors": ["Reference_Implementation/lib/LESS.c: LESS_verify", "Reference_Implementation/lib/LESS.c: LESS_sign"]}
{"id": "C50", "title": "The functional tests and the benchmark report success, with the exact exceptions", "statement": "Every tester of less_test.c is free of undefined behaviour and prints its line of success and nothing else, whatever the generator yields and whatever uninitialised objects contain. The keygen-sign-verify test returns 1 and the benchmark reports a functional scheme. The test program runs 100 iterations of the scheme as specified and returns 0, except that it stops with -1 at the first signature that publishes as many seeds as the signature has room for, which cannot happen in five of the seven parameter sets; none of its assertions fails.", "quantifier": "for every parameter set, primitives, generator state, values of rand(), number of repetitions and content of uninitialised memory", "why_tests_cant": "These are the tests: each run takes one path with one seed (the test program even starts from the same generator state each time), and the failing case needs a challenge with the worst distribution in the seed tree.", "anchors": ["Reference_Implementation/lib/test/less_test.c: gausselim_tester", "Reference_Implementation/lib/test/less_test.c: LESS_sign_verify_test_multiple", "Reference_Implementation/lib/bench/less_benchmark.c: LESS_sign_verify_speed"]}
{"id": "C51", "title": "The samplers favour no value", "statement": "As many random words lead the rejection samplers to one sequence of field elements as to any other of the same length, and as many lead the challenge expansion to one challenge as to any other of weight W. The shuffle yields a permutation exactly when each of its N-1 words lies in a certain residue class; the classes of an index differ by at most one word in size, and do differ, so that the shuffle is uniform up to this bias only.", "quantifier": "for every parameter set, all target values, challenges and permutations, and all word sequences of any length", "why_tests_cant": "Statistical tests on samples cannot tell equality of counts from a small bias, and cannot enumerate the sequences of words.", "anchors": ["Reference_Implementation/include/fq_arith.h: DEF_RAND_STATE", "Reference_Implementation/lib/utils.c: expand_digest_to_fixed_weight", "Reference_Implementation/lib/monomial.c: yt_shuffle_state"]}
{"id": "C52", "title": "The benchmarks measure what they say, except verification", "statement": "In exact arithmetic the running mean and variance kept by the benchmarks are those of the samples, and a sample is the number of ticks of its call even when the 64-bit counter wraps around. The speed and memory benchmarks never have undefined behaviour; the speed benchmark reports a functional scheme. The memory benchmark of verification signs nothing: each of its verifications rejects, for every hash function, so that it does not measure the verification of a signature.", "quantifier": "for all sequences of samples and counter values, all primitives, parameter sets, memory contents", "why_tests_cant": "The benchmarks print timings only; none of their runs shows whether the running formulas are right for all samples, nor does the memory benchmark look at the verdicts.", "anchors": ["Utilities/Benchmarking/include/timing_and_stat.h: welford_update, welch_t_statistic", "Utilities/Benchmarking/lib/less_benchmark.c", "Utilities/MemoryBenchmarking/lib/less_keygen.c", "Utilities/MemoryBenchmarking/lib/less_sign.c", "Utilities/MemoryBenchmarking/lib/less_verify.c", "Utilities/MemoryBenchmarking/lib/less_benchmark.c"]}
{"id": "C53", "title": "A response reveals no more than the public key", "statement": "For every key, the pair (hashed matrix, response) that the signer makes for a challenged round with an ephemeral monomial Q is the pair that anybody makes from the public component alone with the monomial Qs Q, and Q -> Qs Q is a bijection of the monomial matrices. Two secrets of the same public component therefore give every pair equally often. The pairs that occur are exactly: a well-formed response naming an information set of the public code, with the matrix the verifier recomputes from it. Every response in an honest signature is of this kind, with the matrix that was hashed.", "quantifier": "for all parameter sets, keys, ephemeral monomials, messages, random bytes, hash functions and memory contents", "why_tests_cant": "Tests see single responses; that the answers over all ephemeral monomials are independent of the secret is a statement about all keys and all (about N! 126^N) monomials.", "anchors": ["Reference_Implementation/lib/LESS.c: LESS_sign", "Reference_Implementation/lib/codes.c: prepare_digest_input", "Reference_Implementation/lib/monomial.c: monomial_compose_action, monomial_mat_mul"]}
{"id": "C54", "title": "What the printing functions print can be read back", "statement": "For every matrix, name and monomial of the right sizes, the printing functions stay inside their arrays, and the numbers in the lines of their output are: the rows of the matrix (generator_pretty_print_name); the rows of the value part and, after a heading, the first K of the N-K column positions (generator_rref_pretty_print_name, which reads outside the array exactly when K > N-K); the permutation and the coefficients (monomial_mat_pretty_print, monomial_mat_pretty_print_name); an N x N matrix with coefficient i in row perm(i) and column i and zeros elsewhere (monomial_mat_print_exp_name, which writes outside the array exactly when a permutation entry is not below N). The last matrix is the transpose of the one by which generator_monomial_mul multiplies, and not that matrix itself.", "quantifier": "for all parameter sets, names without digits and line ends, matrices and monomials", "why_tests_cant": "No test looks at the printed text; the functions are debugging aids whose output is trusted by whoever compares it with another tool, for all matrices.", "anchors": ["Reference_Implementation/lib/codes.c: generator_pretty_print_name, generator_rref_pretty_print_name", "Reference_Implementation/lib/monomial.c: monomial_mat_pretty_print, monomial_mat_pretty_print_name, monomial_mat_print_exp_name"]}
{"id": "C55", "title": "The rejection samplers end on all but a vanishing part of the streams", "statement": "The sampler of field elements ends within n 64-bit words exactly if they contain enough chunks in range; of the 2^(64n) sequences of n words exactly 2^n C(9n,j) a^j (128-a)^(9n-j) contain j such chunks (a = 127 or 126), so that for 45n >= 7 num + s at most a part 2^-s of them does not give num elements. The expansion of a digest ends as soon as W positions are filled; of the sequences of n half-words the number that fills w positions satisfies an exact recurrence, at most a part 2^W (1 - q/2^17)^n does not complete a challenge (q half-words fill the last position), and in all seven parameter sets 4(W+s) half-words leave at most a part 2^-s.", "quantifier": "for all numbers of elements, numbers of words, wf parameter sets with room in a half-word, hash functions and digests", "why_tests_cant": "A test sees one stream; a loop that ends on the streams tried may run much longer or forever on others. The statement counts all streams.", "anchors": ["Reference_Implementation/include/fq_arith.h: DEF_RAND, DEF_RAND_STATE", "Reference_Implementation/lib/utils.c: expand_digest_to_fixed_weight"]}
{"id": "C56", "title": "The challenges are at least 2^lambda, and a key nobody has a secret for can be answered for at most one of them", "statement": "There are exactly C(T,W)(nk-1)^W challenges; in each of the seven parameter sets this lies between 2^lambda and 2^(lambda+1), where lambda is the length of a seed in bits. No smaller weight reaches 2^lambda, and no smaller number of rounds does, except in the set with T = 907, where 905 would. All challenges are completed by equally many sequences of half-words of any length. Hence, for a key whose matrices are pairwise inequivalent and for normal forms fixed before the challenge, at most one in C(T,W)(nk-1)^W of the sequences that complete a challenge completes one that can be answered, so at most a part of 2^-lambda.", "quantifier": "for every parameter set (the numbers: for the seven sets of parameters.h), primitives, public key with unrelated matrices, choice of normal forms and number of half-words", "why_tests_cant": "It is a count over more than 2^128 challenges and over all dishonest signers.", "anchors": ["Reference_Implementation/include/parameters.h", "Reference_Implementation/lib/utils.c: expand_digest_to_fixed_weight", "Reference_Implementation/lib/LESS.c: LESS_verify"]}
{"id": "C57", "title": "The seed tree stays the same in a flat array of bytes with 32-bit indices", "statement": "Generation of the seed tree, publication of seeds and reconstruction, run on one array of bytes with node numbers and offsets computed modulo 2^32 and an uninitialised input buffer, give the same nodes, the same published bytes, the same count and the same out-of-bounds cases as the model in which a node is one cell: no offset wraps around, no node overlaps another, and the buffer's initial content does not matter. LESS_sign and LESS_verify with this array, reading salt and digest back from the signature, have the same results on all inputs, so honest signatures verify.", "quantifier": "for every well-formed parameter set, primitives, array content, challenge, key, message, signature memory and initial content of the uninitialised memory", "why_tests_cant": "Offsets and uninitialised bytes depend on the parameter set, the challenge and the stack; a run sees one of them.", "anchors": ["Reference_Implementation/lib/seedtree.c: generate_seed_tree_from_root, compute_seeds_to_publish, seed_tree_path, rebuild_seed_tree_leaves", "Reference_Implementation/lib/LESS.c: LESS_sign, LESS_verify"]}
{"id": "C58", "title": "The hash contexts work in 26 words with the sizes of the C types, up to the exact limits", "statement": "The incremental hash functions on the array of 26 64-bit words, with lengths and counters of the types of the source, absorb, finalise and squeeze as the functions on ideal contexts do, whenever length and counter together are below 2^64, and they implement the primitives of the scheme on any previous content of the state array. Beyond that limit the absorbing loop's condition wraps around and the array is overrun. A request of n random bytes fills n mod 2^32 bytes: from 2^32 bytes on the rest of the buffer silently keeps its old content.", "quantifier": "for every rate up to 200, reachable context, buffer, length and initial state content", "why_tests_cant": "The limits lie at buffers of 2^32 and 2^64 bytes, and the claim covers every content of the state.", "anchors": ["Reference_Implementation/lib/fips202.c: keccak_inc_init, keccak_inc_absorb, keccak_inc_finalize, keccak_inc_squeeze, keccak_squeezeblocks, sha3_256_inc_finalize", "Reference_Implementation/include/sha3.h: xof_shake_update, xof_shake_extract", "Reference_Implementation/include/rng.h: csprng_randombytes, randombytes", "Reference_Implementation/lib/rng.c: initialize_csprng"]}
{"id": "C59", "title": "The sixteen-bit reduction is exact on products, except with the types of category 3 BALANCED", "statement": "With a 32-bit FQ_TRIPLEPREC the optimised br_red16 returns the remainder modulo 127 of every argument below 16510, so of every product of two seven-bit values, and its value on every other 16-bit argument is determined. With the 16-bit FQ_TRIPLEPREC of category 3 BALANCED it is right exactly on the arguments below 508, so it does not reduce products of field elements.", "quantifier": "for every 16-bit argument and every parameter set", "why_tests_cant": "The function is called nowhere, and the error depends on a type that is set in one of seven parameter sets.", "anchors": ["Optimized_Implementation/common/include/fq_arith.h: br_red16", "Optimized_Implementation/common/include/parameters.h: FQ_TRIPLEPREC"]}
{"id": "C60", "title": "What branches and addresses reveal in the functions said to be constant time", "statement": "The sequence of branches taken and array elements accessed by timing_safe_memcmp depends on the length alone, and that of fq_inv on nothing. That of lex_minimize, described as constant time, reveals exactly which entries of the column are zero: the operators && and || skip operands depending on entries. That of lex_compare_with_pivot reveals exactly in how many leading rows the column agrees with the pivot and the result of the comparison.", "quantifier": "for every parameter set, matrix, column, pivot, digest and field element", "why_tests_cant": "Tests see results, not branches and addresses, and timing measurements sample a few inputs.", "anchors": ["Reference_Implementation/lib/LESS.c: timing_safe_memcmp", "Reference_Implementation/include/fq_arith.h: fq_inv", "Reference_Implementation/lib/codes.c: lex_minimize, lex_compare_with_pivot"]}
{"id": "C61", "title": "Addresses reveal exactly the private permutation; coefficients show only in rejections", "statement": "The sequence of branches and addresses of the multiplication by a monomial, of its inversion, of its composition with an action and of the shuffle determines the permutation and nothing of the coefficients or matrix entries. In one round of key generation and of signing the stored addresses spell out the private permutation in order. Two secrets with the same permutation whose random words are accepted and rejected alike give the same sequence.", "quantifier": "for every parameter set, lawful hash, seed, monomial, action, matrix and content of uninitialised memory", "why_tests_cant": "The claim is about pairs of secrets and about every address, which no test observes.", "anchors": ["Reference_Implementation/lib/monomial.c: yt_shuffle_state, monomial_mat_seed_expand_prikey, monomial_mat_inv, monomial_compose_action", "Reference_Implementation/lib/codes.c: generator_monomial_mul", "Reference_Implementation/lib/LESS.c: LESS_keygen, LESS_sign"]}
{"id": "C62", "title": "Two signatures made with the same random bytes give away the private monomials", "statement": "If two messages are signed with the same key in the same state of the random generator, then every round that the first signature opens and the second answers gives K columns of the private monomial that the second challenge names, computed from the public key and the two signatures alone. The program that collects all rounds recovers exactly the columns named in such rounds. Whoever has the private monomials signs every message as LESS_sign does with the secret key, byte for byte, and LESS_verify accepts.", "quantifier": "for every parameter set, lawful hash, key, generator state, pair of messages, round and content of uninitialised memory", "why_tests_cant": "Tests never sign twice in one generator state, and the claim is about every round of every such pair.", "anchors": ["Reference_Implementation/lib/LESS.c: LESS_sign", "Reference_Implementation/lib/monomial.c: monomial_compose_action, expand_to_monom_action", "Reference_Implementation/lib/seedtree.c: rebuild_seed_tree_leaves"]}
{"id": "C63", "title": "Message and signed message in one buffer", "statement": "When the message and the signed message are parts of one buffer: crypto_sign and crypto_sign_open do the same as with separate buffers, and change no other byte, if the parts are disjoint. If the message overlaps its copy, the behaviour is undefined. If the copy is defined but the message lies where the salt is written, crypto_sign signs the overwritten message and returns 0; its output is then refused unless the hash collides.", "quantifier": "for every parameter set, lawful hash, key, buffer and pair of positions", "why_tests_cant": "The tests and the test vector program use separate buffers only.", "anchors": ["Reference_Implementation/lib/sign.c: crypto_sign, crypto_sign_open", "Reference_Implementation/lib/LESS.c: LESS_sign"]}
{"id": "C64", "title": "Byte order of the host", "statement": "On a big-endian host key generation, signing and verification are those of a little-endian host over another generator that is again lawful, so what the library does there is correct and safe in the same sense. In particular a signature made there is accepted there, and verification under a key made there is defined on all signatures of the right length. Keys and signatures do not travel between hosts of different byte order.", "quantifier": "for every parameter set, lawful hash, key, message, signature and state of the generator", "why_tests_cant": "Tests run on one host; correctness on the other and failure between the two need both programs.", "anchors": ["Reference_Implementation/include/fq_arith.h:55", "Reference_Implementation/lib/monomial.c:42", "Reference_Implementation/lib/monomial.c:74", "Reference_Implementation/lib/utils.c:49"]}
{"id": "C65", "title": "Any sequence of API calls", "statement": "In a program that seeds the generator once and then makes key pairs, signs and opens in any order and any number of times, no call leaves its buffers (openings restricted as in C04); everything signed with a key pair opens with that key pair to the signed message, with the exception of C02; and each call takes its random bytes from the part of the stream SHAKE(seed) that begins where the parts of the previous calls end, the parts being 3 SEED_LENGTH_BYTES for a key pair, which are the secret key, and SEED_LENGTH_BYTES + HASH_DIGEST_LENGTH for a signature, the root seed and the salt. So no random bytes are used twice.", "quantifier": "for every parameter set, lawful hash, seed, list of calls with their buffers and contents of uninitialised memory", "why_tests_cant": "Programs of any length with any interleaving of the calls.", "anchors": ["Reference_Implementation/lib/sign.c:33", "Reference_Implementation/lib/sign.c:47", "Reference_Implementation/lib/sign.c:69", "Reference_Implementation/lib/rng.c:36", "Reference_Implementation/include/rng.h:48"]}
{"id": "C66", "title": "What a signature binds of the public key", "statement": "The public key is not hashed. A signature valid under one key is valid under every key that agrees with it on the seed of G_0 and on the components which the challenge asks for; and also if one component is replaced by any code obtained from it by permuting and scaling columns so that the columns named in the responses for it stay in place and are scaled alike. This holds for every signature made by LESS_sign, so each is accepted by LESS_verify under other keys. Conversely signatures with the same digest valid under two keys belong to the same message and salt, and in every round the codes which the challenge asks for in the two keys are equivalent, unless the two strings hashed are a collision.", "quantifier": "for every parameter set, lawful hash, key, message, signature, component, permutation and scaling of columns", "why_tests_cant": "Tests verify under the key that signed; the claim is about all pairs of keys.", "anchors": ["Reference_Implementation/lib/LESS.c:145", "Reference_Implementation/lib/LESS.c:251", "Reference_Implementation/lib/LESS.c:282", "Reference_Implementation/lib/LESS.c:288"]}
{"id": "C67", "title": "Sessions served by different implementations", "statement": "A program seeds the generator once and then makes key pairs, signs and opens in any order; each call may be served by the reference implementation or by the optimised one for either instruction set. No call leaves its buffers, every call is answered, what one library signed another opens (except as in C02), and the answers (return values, keys, signed messages up to their length, opened messages) do not depend on which library served which call nor on uninitialised memory.", "quantifier": "for every parameter set, lawful hash, seed, sequence of calls with buffers of the declared sizes, and assignment of libraries to the calls", "why_tests_cant": "Tests build one implementation at a time and make a fixed sequence of calls; the claim is about all interleavings and all mixtures.", "anchors": ["Reference_Implementation/lib/sign.c:33", "Reference_Implementation/lib/sign.c:46", "Reference_Implementation/lib/sign.c:68", "Optimized_Implementation/common/lib/sign.c:33", "Optimized_Implementation/common/lib/LESS.c:1", "Reference_Implementation/lib/rng.c:36"]}
{"id": "C68", "title": "Work and recursion depth of the column sort", "statement": "Sorting n = N-K columns makes exactly 2n-1 calls of col_lex_quicksort, of which at most n are active at the same time, at most (n^2+5n-6)/2 calls of lex_compare_with_pivot, and at most half as many swaps, less n-1. The bounds on depth and comparisons are attained whenever the columns increase except that the last is the smallest; columns of field elements in this order exist for all seven parameter sets (depth 274 and 38220 comparisons for category 5).", "quantifier": "for every parameter set and every matrix of bytes", "why_tests_cant": "Random columns are far from the worst case; the claim bounds the stack and the work for all of them.", "anchors": ["Reference_Implementation/lib/codes.c:198", "Reference_Implementation/lib/codes.c:222", "Reference_Implementation/lib/codes.c:234"]}
{"id": "C69", "title": "The memory report is the largest stack of each program", "statement": "The script's parser accepts a text exactly if it is a massif file in the sense of a grammar over its lines (header, snapshots, heap trees with as many children as announced, comments between fields but not inside trees), returns its data, and otherwise reports the number of the first line after which no massif file can continue, or one more than the number of lines if the text ends too early; no other exception is possible. The analysis yields the largest heap and stack of the snapshots. If every .massif file has a name of the expected shape and valid content, the script ends normally and each entry of its table is the largest stack of the last file about it, or 0 if there is none; for the 21 programs of the build, in any order and among other files, each entry is the stack of its program, and the entries of the non-existing intermediate sets of categories 3 and 5 stay 0. Other numbers of underscores in a name raise ValueError.", "quantifier": "for every text, every directory of files in every order", "why_tests_cant": "The script is run on a handful of massif outputs; the claim covers every text, including truncated and malformed files.", "anchors": ["Utilities/MemoryBenchmarking/bench.py:107", "Utilities/MemoryBenchmarking/bench.py:146", "Utilities/MemoryBenchmarking/bench.py:194", "Utilities/MemoryBenchmarking/bench.py:235", "Utilities/MemoryBenchmarking/bench.py:275", "Utilities/MemoryBenchmarking/bench.py:321"]}
{"id": "C70", "title": "What computing a commitment reveals through branches and addresses", "statement": "The record of branches and memory addresses of generator_RREF tells the list of pivots taken and nothing else about the matrix: two reductions have the same record exactly if in every step the first independent column and the first independent row in it are the same. Multiplying the columns by nonzero factors does not change the record, so the coefficients of a private monomial leave no trace in it. prepare_digest_input up to the sort has the same record for two ephemeral monomials exactly if their permutations are equal; the whole function tells in addition the record of the sort of the normalised columns, and nothing more. The reduction is not constant time even on matrices of full rank, and the sort reveals more than the permutation: two monomials with the same permutation give different records.", "quantifier": "for every parameter set, every reduced matrix (of full rank for prepare_digest_input), all monomials and all contents of the memory written to", "why_tests_cant": "Timing tests compare samples; the claim determines exactly which inputs cannot be told apart, for all of them.", "anchors": ["Reference_Implementation/lib/codes.c:74", "Reference_Implementation/lib/codes.c:81", "Reference_Implementation/lib/codes.c:198", "Reference_Implementation/lib/codes.c:239"]}
{"id": "C71", "title": "What sorting the columns of a commitment reveals", "statement": "The record of branches and memory addresses of lex_sort_cols shows exactly the order of each pair of columns and the row in which the two begin to differ: two sorts have the same record if and only if every pair of columns is in the same order and agrees on the same leading rows in both matrices, including pairs which the sort never compares. Hence changing the values of each row in an increasing way leaves no trace. prepare_digest_input therefore has the same record for two ephemeral monomials exactly if their permutations are equal and the normalised columns before the sort have the same pattern.", "quantifier": "for every parameter set, every two matrices of K rows of N-K bytes, all generator matrices of full rank and all monomials", "why_tests_cant": "Timing tests compare samples; the claim determines for all pairs of inputs whether they can be told apart.", "anchors": ["Reference_Implementation/lib/codes.c:169", "Reference_Implementation/lib/codes.c:182", "Reference_Implementation/lib/codes.c:198", "Reference_Implementation/lib/codes.c:222", "Reference_Implementation/lib/codes.c:239"]}
{"id": "C72", "title": "The addresses of a commitment and its response give entries of the private permutation", "statement": "From the branches and memory addresses of one call of prepare_digest_input an observer reads off the K positions of the resulting action: the row of the ephemeral monomial read last before each store. With the response that monomial_compose_action computes from this action, these are K different entries of the private permutation. If the responses to several commitments under one private monomial name every column, exactly one list of N positions agrees with the observations, the private permutation.", "quantifier": "for every parameter set, every generator matrix of full rank, all ephemeral and private monomials and any number of observed rounds", "why_tests_cant": "A test shows the attack on sampled keys; the claim is that it never fails and never gives a wrong entry, on any key.", "anchors": ["Reference_Implementation/lib/codes.c:239", "Reference_Implementation/lib/monomial.c:196", "Reference_Implementation/lib/LESS.c:179"]}
