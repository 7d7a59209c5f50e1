# Formal model of LESS (less-sig/LESS) in Rocq

Target: `/repo/Reference_Implementation` (all of the scheme and of its SHA-3 code) and the parts of
`/repo/Optimized_Implementation` that differ from it. All Coq files are in `rocq/theories`
(`-Q theories Verif`). `properties.jsonl` holds the claims C01, C02, ...; `MANIFEST.json` maps each claim to
the theorems that prove it; `seeded/LOG.jsonl` records the wrong programs the theorems were tested on.

## 1. Modelling approach

* C functions become total Gallina functions in an error monad `res A = Ok a | UB | NoFuel`
  (`Base.v`). `UB` is produced by every out-of-bounds array access (`get`, `set`, `rd`, `wr`),
  so "not `UB`" theorems are memory-safety theorems. `NoFuel` is produced by loops whose C termination
  depends on the output of the XOF (rejection sampling). Loops that always terminate in C (quicksort, scans) also
  carry a fuel, which is *proved* never to run out (C19).
* Values are `Z`; each store into a C type writes its truncation explicitly (`u8`, `u16`, `u32`, `u64`, `pos_t`).
* Out-parameters are explicit arguments with arbitrary previous content; uninitialised locals are
  filled from an arbitrary function `junk`, over which every theorem is quantified (C30 is about exactly this).
* API level objects (`pubkey_t`, `prikey_t`, `sign_t`, `sm`) are byte lists, read and written at the
  struct offsets with bounds checks.
* Parameters are a record `params`; theorems are for every record satisfying `wf_params`, and the
  seven parameter sets of `parameters.h` are proved to satisfy it. Examples run on a small record `toy_params`
  that satisfies it too (`Toy.v`).
* The XOF and the hash are a record `prim` of functions; theorems quantify over every `lawful` instance
  (output lengths, bytes, absorbing in pieces). `Fips202Inst.v` builds the instance `lessX` from the model of the Keccak
  code and `C25_less_primitives` proves the laws, so nothing about the hash is assumed; `C01_less`, `C37_less`
  are the instantiated statements.

### Files

| files | content |
|-------|---------|
| `Base`, `Params`, `Prim` | monad, arrays, C integer types; `parameters.h`; interface to XOF and hash |
| `Fq`, `Utils`, `Samplers`, `Monomial`, `Codes`, `SeedTree`, `Less`, `Sign` | model of the reference implementation, function by function |
| `Keccak`, `Fips202`, `Fips202Inst` | model of `keccakf1600.c`, `fips202.c`, `sha3.h` |
| `ParamScript` | model of the script `seed_tree_param_computer.py` |
| `KatRng`, `KatMain` | model of the test vector generator |
| `Vec`, `OptCodes`, `OptLess` | model of the AVX2 and NEON macros and of the optimised `fq_arith.h`, `codes.c`, `monomial.c`, `LESS.c` |
| `Spec`, `SampleSpec`, `KeccakSpec`, `LessSpec`, `KatSpec` | specifications used in the statements; they use no definition of the model |
| `Prop*` | the property theorems, one Example beside each (those of C12, C17 and C33 in `PropCases`), `Print Assumptions` at the end |
| all others | proofs |

## 2. Per property

| id | model | proof | in |
|----|-------|-------|----|
| C01 | `LESS_keygen`, `LESS_sign`, `LESS_verify` on byte buffers | relations between columns are preserved by row operations; RREF uniqueness (C17) shows the verifier's matrix is the signer's up to column permutation/scaling; C19+C20 make V equal; C10, C13, C14 transport data; `C01_prefix`: only the bytes up to the last used seed matter | PropScheme, PropHash |
| C02 | `crypto_sign`, `crypto_sign_open` | from C01 when the largest number of published seeds is below MAX_PUBLISHED_SEEDS (five of the seven sets); `C02_refuted`: in the two others a challenge publishing exactly that number is refused | PropApi |
| C03 | same | frame/offset reasoning on byte lists | PropApi |
| C04 | same | false of the code (`C04_refuted*`); `C04_open_safe_partial` under the length conditions the code does not check; `C04_open_exact`: exactly which inputs are safe | PropApi, PropSafe |
| C05 | `LESS_verify` | invariants; rank argument for RREF success | PropScheme |
| C06 | `LESS_verify` | the hashed strings end with m and salt; different m give different strings | PropScheme |
| C07 | `LESS_keygen` | C16 + C13 + monomial inverse | PropScheme |
| C08 | `LESS_keygen`, `LESS_sign` | loop invariants; C12 for the storage | PropScheme |
| C09 | `expand_digest_to_fixed_weight` | loop invariant on the number of non-zero entries | PropSamplers |
| C10, C11, C12 | seed tree on an array of seeds | induction over heap-ordered complete trees; C12 by counting per level, with a pattern that attains the maximum on every level. Last clause of C12 (bound attained) false for five sets | PropTree, PropParam |
| C13, C14, C32 | codecs, byte state machines | bytes viewed as a little-endian integer; per-state arithmetic | PropCodec |
| C15 | `is_monom_action_valid`, `LESS_verify` | loop invariant on flags | PropCodec, PropScheme |
| C16, C17 | `generator_RREF` | loop invariant (echelon shape, pivots, row space, independence); uniqueness from kernels | PropLinAlg |
| C18, C33 | `prepare_digest_input`, verifier path | from C17, C19, C20 | PropCanon |
| C19 | quicksort | partition invariant, induction on segment length | PropLinAlg |
| C20, C22 | `lex_minimize`, `fq_*` | finite sweep for fq, invariants | PropLinAlg, PropArith |
| C21 | monomials | entrywise | PropMono |
| C23 | samplers, shuffle | invariants; transpositions preserve permutations | PropSamplers |
| C24, C25 | `fips202.c`, `keccakf1600.c` | byte view of the lane array; symbolic evaluation of the unrolled rounds against the bit-level FIPS 202 definition | PropHash |
| C26 | `crypto_sign_open` | false of the code: constructive alterations that still open to the same message; what holds: equal digests force equal message, salt and normal forms, unless the strings hashed for the two signatures are a collision (the hashed strings have parts of fixed length) | PropApi, PropBind |
| C27, C28 | vector code as lanes | finite sweeps lifted to vectors; invariant relating padded and unpadded matrices | PropOpt |
| C29 | `LESS_verify` | false of the code: keys with fewer than K flags, or with unreduced fields, leave the buffers; for all other keys safety is equivalent to the signature being long enough (the reduction of any reduced matrix is safe; the rebuild runs out of seeds before anything else can go wrong) | PropApi, PropSafe |
| C30 | `LESS_sign`, `LESS_keygen` | the functional characterisations determine the result independently of junk | PropDet |
| C31 | `timing_safe_memcmp` | loop invariant | PropArith |
| C34 | `LESS_verify` | functional characterisation | PropScheme |
| C35 | salt expansion | list injectivity, 16-bit little endian injective below 2^16 | PropArith |
| C36 | parameters | computation on the seven sets | PropArith |
| C37 | optimised key generation, signing, verification, API | simulation of each optimised function by its reference version | PropOpt |
| C38 - C42 | reference implementation against `LessSpec.v` | the relational characterisations used for C01, C34 restated in the vocabulary of the specification, in both directions where the specification is deterministic | PropSpec |
| C43 | optimised implementation against `LessSpec.v` | C37 + C39 - C41 | PropSpec |
| C44 | `seed_tree_param_computer.py`, `seed_tree_path` | closed form of the sum per level; false when the number of rounds is a power of two | PropParam |
| C45, C46 | `KAT_NIST_rng.c` | the 16-byte counter viewed as a number modulo 2^128; invariant relating buffer position and position in the key stream | PropKat |
| C47 | `FindMarker`, `ReadHex`, `fprintBstr` | sliding window; arrays viewed as lists of hexadecimal digits | PropKat |
| C48 | `main` of the test vector program | C45, C47 for the files, C39, C40, C42 for the records | PropKat |
| C49 | `LESS_verify` | C33 and C41: every accepted round relates its normal form to a matrix of the key by a monomial; an explicit key with inequivalent matrices shows that the hypotheses can be met | PropBind |
| C50 | `less_test.c`, `less_benchmark.c` | each tester composed from C01, C02 and the lemmas behind the monomial, codec and echelon form properties; the program by induction on its iterations, following the specification of C39 and C40 | TestProofs, PropTest |
| C51 | `DEF_RAND_STATE`, `expand_digest_to_fixed_weight`, `yt_shuffle_state` | explicit bijections between the word sequences that lead to two given results (an involution on accepted chunks; renaming of values and positions, composed from transpositions); residue classes modulo N - i | UniformProofs, PropUniform |
| C52 | `timing_and_stat.h`, the benchmarks of `Utilities` | invariant of the running sums over rational numbers; the programs from the lemmas behind C50; the zero object is not valid in the sense of C41 because its first coefficient is zero | PropBench |
| C53 | `LESS_sign` (one challenged round), `prepare_digest_input`, `monomial_compose_action` | G0 Q and Gx (Qs Q) generate the same code, so both have the same reduced form, pivots and normal form (C18, C21); for the converse a monomial that carries the named columns to the front, whose pivots are then the first K columns; signatures through the specification of C39 and C40 | PropSim |
| C54 | the five printing functions of `codes.c` and `monomial.c`, as text (`Print.v`) | a reader (lines, runs of digits) is specified independently; the text of each array is written in closed form and read back line by line; the printed matrix is compared entry by entry with the product of `generator_monomial_mul`; the claim that it is the multiplying matrix itself is refuted by a witness | PropPrint |
| C55 | the samplers `DEF_RAND*` and `expand_digest_to_fixed_weight`, seen as functions of the stream (C23, C38) | counting with explicit lists without repetition (`Count.v`): chunks and words by bijections, challenges by induction on the stream with the exact number of half-words that make progress; the bound by a potential 2^(W-w) that shrinks by a constant factor | PropEnds |
| C56 | the challenge space (`full_challenge`), the streams that complete a challenge (C51), the rounds of verification (C49) | vectors of given weight by induction on the length; binomial coefficients of the real sets through falling factorials; equal numbers of streams by the bijections of C51; the answers by C49 | PropSpace |
| C57 | `lib/seedtree.c` on a flat array of bytes with 32-bit indices and the uninitialised `csprng_input`; `LESS_sign`, `LESS_verify` with salt and digest read back from the signature (`SeedBytes.v`) | simulation between the flat array and the list of seeds, loop by loop; round trip by C01 | PropBytes |
| C58 | the incremental part of `lib/fips202.c`, `sha3.h`, `rng.h`, `rng.c` on `ctx[26]` with 32- and 64-bit lengths (`IncCtx.v`) | simulation with the contexts of Fips202.v; overflow and truncation by following the conversions | PropInc |
| C59 | `br_red16` with the width of `FQ_TRIPLEPREC` of each parameter set (`OptCodes.v`) | linear integer arithmetic, no sweep | PropRed16 |
| C60 | the comparison of digests, the inverse in the field, the minimisation of a column and the comparison with a pivot, with every branch, load and store recorded (`Leak.v`) | exact computation of the records by loop rules (`LeakProofs.v`), injectivity of the encoding of rounds | PropLeak |
| C61 | the expansion of a private monomial, its inversion, its product with the public matrix and its composition with an action, recorded in the same way; the private part of one round of key generation and of signing (`Leak.v`) | the same; injectivity of the Fisher-Yates shuffle; a decoder that reads the permutation off the record | PropLeak |
| C62 | key generation and signing as in C39 and C40; the programs that compute the private monomials from two signatures, and sign with them, are defined in `PropReuse.v` and are not in the repository | the response of a round and the opened commitment of the same round determine K columns of the private monomial; loop transfer from LESS_sign | PropReuse |
| C63 | crypto_sign, LESS_sign and crypto_sign_open with the message and the signed message in one buffer (`Alias.v`); memcpy of overlapping regions is undefined | the program over the buffer follows the program over the struct (windows), then C01, C02, C06, C08 | PropAlias |
| C64 | The functions that store integers as bytes, on a big-endian host (`Endian.v`): the two samplers of field elements, the shuffle, the round number, the challenge positions; key generation, signing, verification over them | equal to the little-endian functions over other primitives, which are lawful too; then C01, C05. Exchange between hosts is refuted by a run | PropEndian |
| C65 | Programs that call the API (`Session.v`): one generator seeded once, then key generations, signatures and openings in any order, with the key pairs made so far | induction over the calls with the invariant that every key pair is one of C02 and that the generator stands at the sum of the bytes drawn; then C02, C04, C39, C40; SHAKE as one stream from C24/C25 | PropSession |
| C66 | Verification under two keys (`valid` of LessSpec, which C41 proves to be what LESS_verify computes): which parts of the public key a signature binds | C26's argument with two keys for what is bound; C18's invariance of normal forms for what may be replaced; a signer's responses name information sets because they come from the pivots of the commitment | PropSubst |
| C67 | Programs as in C65 whose calls are served by the reference or the optimised implementation in any mixture (`SessionOpt.v`) | every call is a call of the reference with other uninitialised memory (C37); then C65, and C30 call by call for the independence | PropMix |
| C68 | The sort of C19 with counters for comparisons, swaps, calls and depth of the recursion (`SortCost.v`); `C68_result` says that the counters change nothing | the two scans of a partition together pass every column once and at most one twice; induction over the recursion, the quadratic bound because (a-1)(b-1) >= 0; the worst order is followed step by step | PropSort |
| C69 | `Utilities/MemoryBenchmarking/bench.py` and the names of the files from `CMakeLists.txt` and `bench.sh` (`Massif.v`); the format of massif files as a grammar over lines (`MassifSpec.v`) | each function of the parser is a reader of a language of lines in which no word is a proper prefix of another; readers compose, trees by induction over their nesting; the table by induction over the files | MassifProofs, MassifFile, PropMassif |
| C70 | `prepare_digest_input` and all it calls: the product with the ephemeral monomial, the reduction to echelon form, the minimisation of the columns and their sort, with every branch, load and store recorded (`LeakRref.v`) | `PivotSpec.v` says which pivots elimination takes without eliminating: by linear dependence among the given rows; an invariant ties the rows reduced so far to the given ones; the search for a pivot is a prefix code; scaled columns have the same pivots and, by uniqueness of the echelon form, the same zeros | LeakRrefProofs, PropRref |
| C71 | the recorded sort of columns (`lex_sort_cols_t` and all it calls, `LeakRref.v`) and the whole of `prepare_digest_input` | two runs side by side (`runs`): equal records have related results, and equal patterns have equal records; every column of a part is compared with its pivot, and two columns on different sides of a pivot first differ where the first of them leaves the pivot | PropLeakSort |
| C72 | the recorded `prepare_digest_input` (`LeakRref.v`), `monomial_compose_action`, and the programs of an observer (`watch`, `learn`, `PropWatch.v`; not in the repository) | partial correctness of record and result together (`ws`): the row read last before the k-th store is the k-th entry of the action; the product, the reduction and the normalisation store nothing into the action; the response names the column which the private monomial sends to that row | PropWatch |

`LessSpec.v` is one independent description of the scheme: relations saying which keys, signatures and verdicts are right,
written with linear codes, least common vocabulary for bit layouts and the stream of the XOF; no loops, buffers, fuel or error monad.
C39 - C43 therefore detect any change of the model that alters a key, a signature or a verdict.

Claims that are false of the code keep their statement in `properties.jsonl`; the theorem with the suffix `_refuted` proves a
counterexample, the one with the suffix `_partial` proves the part that holds (C02, C04, C12, C26, C29, C44).

## 3. Trusted base

* Coq 8.16.1 kernel, including its virtual machine (`vm_compute` is used for finite sweeps and for examples).
* Axioms: none. Each `Print Assumptions` at the end of the `Prop*.v` files answers "Closed under the global context".
  (`coqchk` may list constants `Coq.ssr.ssrunder.Under_rel.*`: they are the fields of a module type of the standard library that the
  library's `ssreflect` loads; no theorem here depends on them.)
* The specifications: `Spec.v`, `SampleSpec.v`, `KeccakSpec.v`, `LessSpec.v`, `KatSpec.v`, `MassifSpec.v`, `PivotSpec.v` and the statements in `Prop*.v`.
* The faithfulness of the hand translation from C: each definition cites the lines it models and says where it simplifies.
* C semantics assumed: little-endian host, 8-bit bytes, `int` of 32 bits, structs of byte arrays without padding,
  no aliasing between the buffers passed to the API (except in C63), stack large enough. Signed overflow does not occur in the modelled
  functions: their `int` values are indices and small counts.
* The compiler, the C library (`memcpy`, `memset` as list operations) and, for C27, C28, C37, C43, our reading of Intel's and ARM's
  description of the intrinsics used (`Vec.v`).

## 4. What is modelled

`/repo/Reference_Implementation`:

* `include/parameters.h`, the struct layouts of `include/LESS.h` and `include/api.h` - `Params.v`.
* `include/fq_arith.h`: `fq_red` (the variant used by the build), `fq_inv`, the sampler macros `DEF_RAND_STATE`, `DEF_RAND` - `Fq.v`, `Samplers.v`.
* `include/rng.h`, `lib/rng.c`: the generator is a XOF state; `initialize_csprng` = init, absorb, finalise; `randombytes` = extract from the
  global state, passed explicitly - `Prim.v`, `Less.v`.
* `lib/utils.c` - `Utils.v`; `lib/monomial.c` - `Monomial.v`, `Samplers.v`, `Print.v`; `lib/codes.c` - `Codes.v`, `Print.v` (printing);
  with records of branches and addresses - `Leak.v`, `LeakRref.v`;
  `lib/seedtree.c` - `SeedTree.v`, `SeedBytes.v`; `lib/LESS.c` - `Less.v`; `lib/sign.c` - `Sign.v`.
* The same functions in other settings: overlapping buffers - `Alias.v`; a big-endian host - `Endian.v`; counters in the sort of columns -
  `SortCost.v`; programs of many calls of the API - `Session.v`, and with both implementations - `SessionOpt.v`.
* `lib/keccakf1600.c` - `Keccak.v`; `lib/fips202.c`, the part of `include/sha3.h` used by the build - `Fips202.v`, `Fips202Inst.v`, `IncCtx.v`.

`/repo/Optimized_Implementation` (`avx2/lib` and `neon/lib` are links to `common/lib`):

* `include/macro.h` of AVX2 and NEON: the macros used - `Vec.v`; `fq_arith.h` (`br_*`) and `lib/codes.c`, `lib/monomial.c` where
  they differ from the reference - `OptCodes.v`; `lib/LESS.c`, `lib/sign.c` - `OptLess.v`.
* `seedtree.c`, `utils.c`, `rng.c`, `fips202.c`, `keccakf1600.c` differ from the reference only in layout and casts, and share its model.

`lib/test/less_test.c`, `lib/bench/less_benchmark.c` of the reference (those of the optimised implementation and `Utilities/Benchmarking/lib/less_test.c` contain the same
testers) - `TestProg.v`. Messages are kept, the numbers and matrices printed in them are not; `calloc` always succeeds; `rand()` is an arbitrary
sequence of nonnegative numbers; timing is left out. In the optimised build the indicator array of the testers has N_pad elements, here N.

`/repo/Utilities/Benchmarking` and `MemoryBenchmarking`: `include/timing_and_stat.h`, `lib/less_benchmark.c`, `less_keygen.c`, `less_sign.c`, `less_verify.c` - `Bench.v`.
`long double` is the rational numbers, the square root is left out, the cycle counter is an arbitrary sequence.

`/repo/Utilities/MemoryBenchmarking/bench.py` - `Massif.v`. Left out: the details of heap entries, which are never used; digits and spaces beyond ASCII;
Python's limits on recursion and on the digits of an integer.

`/repo/Utilities/Parameter_Generation_Scripts/seed_tree_param_computer.py`: `worst_case_seed_tree_cost` - `ParamScript.v`.

`/repo/Utilities/KAT_Generation` (its two C files are also in `lib/nist` of both implementations):

* `lib/KAT_NIST_rng.c` - `KatRng.v`. AES256_ECB, a call of OpenSSL, is an arbitrary function from keys and blocks to blocks of 16 bytes.
* `lib/PQCgenKAT_sign.c` - `KatMain.v`. Files are lists of characters; names, failures to open them and messages on the terminal are left
  out, `calloc` always succeeds, and `fscanf` is modelled for numbers without sign.

Main simplifications: the byte array `seed_tree` is a list of seeds of SEED_LENGTH_BYTES each (`SeedBytes.v` has the array of bytes, and C57 shows
that both models have the same results); unrolled sums of flags are recursive; the global generator state is an argument and a result;
`incctx` is a pair (lanes, counter) in place of 26 words (`IncCtx.v` has the 26 words and the sizes of the C types, related by C58).

## 5. What is not modelled

* AES (OpenSSL), `m1cycles.h`, rounding of floating-point numbers in the benchmarks, the script `bench.sh` beyond the names of its files.
* `avx2/lib/KeccakP-1600-AVX2.s`: its only use is inside `#if 0`.
* The branches of `sha3.h` and `fq_arith.h` for other libraries and other Q.
* Functions declared but defined nowhere (`compress_columns`, `generator_gausselim`, `generator_compact_rref_normalize`).
* Time, caches and power. `Leak.v` and `LeakRref.v` record branches and addresses of the functions that treat private monomials, of those
  said to be constant time and of the computation of a commitment, in the abstract machine of C (C60, C61, C70, C71, C72); what a compiler makes of
  them is not modelled. Other functions have no record, except the control flow of C31.
* Cryptographic security: that codes are hard to relate, or that the hash behaves like a random function. C06, C33, C49
  and C53 are the unconditional combinatorial parts of such arguments (C49: special soundness, C53: simulation of responses).
* Probability as such: C51 compares numbers of word sequences by bijections and C55 counts the sequences on which a sampler does not end, both without
  measures. Theorems about the scheme speak of runs with enough fuel; C55 says how many streams need more.
