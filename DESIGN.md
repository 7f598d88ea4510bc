# Formal model of bellman / groth16 in Rocq (Coq 8.16.1)

Source: `/repo` (zkcrypto/bellman, pinned).  Everything is hand-modelled from the Rust text;
nothing is extracted or executed.  Each Gallina definition carries a comment with the file and
lines it models and says where it simplifies.  Only the Coq standard library is used.

## 1. How the code is modelled

* **Prime field** (`ff::PrimeField`, external crate): the record `PrimeField` of operations and laws
  (field laws, canonical integer representation, characteristic, NUM_BITS, CAPACITY, two-adicity, root
  of unity, multiplicative generator).  Theorems are for every such record.  `Fields.v` has two
  instances: the 64513-element field of `groth16/src/tests/dummy_engine.rs` and the 64-bit
  Goldilocks field (primality by Pocklington certificates).
* **Groups and pairing** (`group`, `pairing`, external): `FMod P`, a vector space over the field with
  decidable equality (`FModule.v`); `Engine P`, three of them with a bilinear map (`Groth16.v`);
  `Miller E`, Miller-loop results that can be added before a final exponentiation that is a
  homomorphism (`Batch.v`).  The dummy engine is an instance of each.  Affine/projective
  conversion, `batch_normalize` and wNAF are the identity resp. scalar multiplication.
* **Encodings of points** (`GroupEncoding`, `UncompressedEncoding`): `GroupBytes`, fixed-length encodings
  with partial decoders that invert them (`Encoding.v`).  Decoders may accept other strings too.  Because
  group elements are abstract, an unchecked decoding that is *not* an element of the group is not represented.
* **Circuit code** (`Circuit::synthesize`, all gadgets): programs in a free monad `prog` whose
  operations are exactly the `ConstraintSystem` calls (`alloc`, `alloc_input`, `enforce`, namespace
  push/pop) plus `MultiEq::enforce_equal`, with an explicit `Panic`.  `Result` values are data, so
  early exits by `?` and destructors (`Namespace`, `MultiEq`) are visible.  The reply to an
  allocation says whether the value closure was invoked (key generation does not invoke it).
* **Constraint systems** are interpreters (`Machine`) of `prog`: `TestCS`, `KeypairCS`, `ProvingCS`, and
  `MultiEq` as a handler from `prog` to `prog`.  (That gadgets really hold references, namespaces and
  `MultiEq` objects, through which their calls are passed on, is modelled in `Wrappers` and proved to make no
  difference, C73.)  Three reference machines (`HonestCS`, `StrictCS`,
  `ShapeCS`) serve as specification vocabulary; the code's systems are proved to agree with them.
* **Panics** are explicit outcomes (`outcome A := Done | Panicked`), including slice indexing, `unwrap`,
  `chunks(0)`, `step_by(0)`, shifts by >= 64 and failed assertions.
* **Machine integers** are `Z`/`nat` with explicit wrap-around (`u32` words, `as u32` casts) or an
  explicit range hypothesis where overflow could matter.
* **Threads**: `Worker` is `Multicore t` or `Single` (the crate without the `multicore` feature).
  The parallel loops are modelled as the sequential result `par_for` *and* as a small-step system of
  tasks interleaved arbitrarily (`Sched.v`), proved to agree.  `Worker::compute`/`Waiter` is a
  transition system over spawn/execute/send/decrement/wait/drop events (`Compute.v`).  rayon's
  `reduce` is an arbitrary tree over the chunks with identities inserted anywhere (`Batch.v`).
* **Randomness** is an arbitrary sequence of field elements; a rejection loop has fuel, and `None`
  means "still looping".
* **Floating point**: `ln().ceil()` in multiexp is an arbitrary function `ln_ceil`; theorems assume only
  that it is between 1 and 63 for lengths from 32 to 2^32 - 1 (`sane_ln_ceil`); `C68_multiexp`, which is about all lengths, also assumes that it is 0 at 0 and 1,
  and between 1 and 23 at the other 32-bit numbers (`ceil_ln`).
* **I/O**: a reader is the bytes it will deliver plus the error at the end; a writer may have limited room.

### Specification vocabulary (independent of the gadget models)

* `emits p r cs eqs`: against *some* constraint system (arbitrary replies), `p` returns `r` having
  enforced exactly `cs`.  `Sound p Q` (`Spec.v`): every assignment satisfying what any run enforced makes `Q`
  true of the result.  `Complete p s Q`: the honest prover run succeeds, its assignment extends the old one,
  satisfies what was enforced, and `Q` holds.  `SameShape p q R`: key-generation run of `p` and proving run
  of `q` make the same calls.
* `den`, `wden`: the bit / 32-bit word an object denotes under an assignment.
* Hash specifications `Sha256Spec.v` (FIPS 180-4) and `Blake2sSpec.v` (RFC 7693) are written from the
  standards, with published test vectors as Examples.
* Polynomials as coefficient lists (`peval`), QAP polynomials characterised by interpolation
  (`qap_polynomials`), the discrete Fourier transform as a sum, multiexponentiation as the naive sum.

## 2. Files and properties

| files | Rust modelled | properties |
|-------|---------------|-----------|
| `Prelude PrimeField Zp Pocklington Fields FModule Loops` | contracts and helpers | |
| `Circuit` | src/lib.rs 162-300, 374-437, 439-560 | C01 |
| `BooleanGadget` `PropBoolean` | src/gadgets/boolean.rs | C07-C11 |
| `NumGadget` `PropNum` | src/gadgets/num.rs | C12-C15 |
| `LookupGadget Multipack` `PropLookup` | src/gadgets/lookup.rs, multipack.rs | C16-C18, C49 |
| `MultiEq` `PropMultiEq` | src/gadgets/multieq.rs | C19 |
| `UInt32 UInt32Proof WordLogic SpecWord` `PropUInt32` | src/gadgets/uint32.rs | C20, C21 |
| `Sha256Spec Sha256 Sha256Proof` `PropSha256` | src/gadgets/sha256.rs | C22 |
| `Blake2sSpec Blake2s Blake2sProof` `PropBlake2s` | src/gadgets/blake2s.rs | C23 |
| `PropShape` | all gadgets, two runs | C24, C50 |
| `TestCS TestCSProof TestHash` `PropTestCS PropHash` | src/gadgets/test/mod.rs | C02-C05 |
| `Multicore Sched Compute` `PropMulticore` | src/multicore.rs | C29-C31 |
| `Domain FFTProof DomainProof Quotient` `PropDomain` | src/domain.rs, prover.rs 221-242 | C25-C28 |
| `Multiexp MultiexpProof` `PropMultiexp` | src/multiexp.rs | C32-C34 |
| `Assembly AssemblyProof` `PropAssembly` | generator.rs 43-202, prover.rs 19-216 | C06 |
| `Groth16 GeneratorProof ProverProof` `PropGenerator PropGroth16` | generator.rs, prover.rs, verifier.rs | C35-C37, C39, C46-C48 |
| `Batch BatchProof` `PropVerifier` | verifier.rs, verifier/batch.rs | C38, C40-C42 |
| `DummyField` `PropDummy` | groth16/src/tests/dummy_engine.rs 15-364 | C51, C52 |
| `Encoding EncodingProof` `PropEncoding` | groth16/src/lib.rs 39-397 | C43-C45 |
| `Roots` `PropRandom` | counting over `tau` for generator.rs, prover.rs, verifier.rs | C54 |
| `Mimc MimcProof` `PropMimc` | groth16/tests/common/mod.rs | C53 |
| `Session` `PropSession` | generator.rs 19-39, prover.rs 164-179, groth16/tests/mimc.rs | C55 |
| `GRing` `PropProofSpace` | prover.rs, verifier.rs, lib.rs: dependence on the randomness, other accepted proofs, simulation | C56-C58 |
| `PropDeterminism` | prover.rs, generator.rs: independence of threads and windows | C59 |
| `Demo` `PropDemo` | groth16/src/tests/mod.rs: circuits and tests | C60 |
| `PropUnsat` | prover.rs, verifier.rs: proofs from unsatisfying witnesses | C61 |
| `MPoly` `PropSound` | generator.rs, verifier.rs: proofs put together from key elements (zeros of polynomials in several variables) | C62 |
| `PropStorage` | lib.rs, generator.rs, prover.rs, verifier.rs: keys and proofs through files | C63 |
| `PropMatrices` | generator.rs: what a key says about the matrices | C64 |
| `CostSpec` `Cost` `CostProof` `CostRun` `PropCost` | numbers of variables and constraints of the gadgets of src/gadgets | C65 |
| `Scope` `ScopeRun` `PropScope` | gadgets of src/gadgets on the constraint systems of generator.rs, prover.rs, gadgets/test: indices in range | C66 |
| `Covered` `PropCovered` | the same gadgets and generator.rs: allocated variables are constrained (`Scope` has the program logic) | C70 |
| `Sha256d` `Sha256dProof` `PropSha256d` | the circuit and program of the crate documentation, src/lib.rs 5-126 | C67 |
| `PropCorner` | generator.rs, prover.rs, multiexp.rs, verifier/batch.rs: panics and non-termination | C68 |
| `PrettyPrint PrettySpec PrettyProof` `PropPretty` | src/gadgets/test/mod.rs 166-227 (`pretty_print`; `{:?}` of a scalar is a parameter) | C69 |
| `Dense DenseSha` `PropDense` | gadgets, generator.rs and prover.rs: no variable of the circuit of the crate documentation cancels; keys that serve all provers | C71 |
| `PropDoomed` | gadgets, generator.rs and prover.rs: gadget circuits whose variables cancel | C72 |
| `Wrappers` `PropWrappers` | src/lib.rs 439-566 and src/gadgets/multieq.rs as objects that pass calls on | C73 |
| `Straight` `StraightProof` `PropStraight` | user circuits (`Circuit::synthesize`, src/lib.rs 156-159) that are straight-line programs of gadget calls; not a file of /repo | C74 |
| `Sources SourcesSpec SourcesProof` `PropSources` | src/multiexp.rs 18-94, 210-332 and groth16/src/lib.rs 411-474, prover.rs 182-361 for any implementation of the traits | C75 |
| `PropProgram` | the circuits of `Straight` with generator.rs, prover.rs and verifier.rs | C76 |
| `Tidy DenseNum DenseBlake TidyProof` `PropTidy` | a check on the text of the programs of `Straight`, not a file of /repo; gadgets, generator.rs and prover.rs: their circuits can be used | C77 |
| `Bench` `PropBench` | groth16/benches/batch.rs, benches/slow.rs; the MiMC circuit with generator.rs and prover.rs | C78 |
| `Names NamesGadgets NamesFit` `PropNames` | all gadgets and src/gadgets/test/mod.rs 330-460: the names that are given to `alloc`, `enforce` and `namespace` | C79 |
| `UnitTests UnitTestsProof UnitTestsProof2-4 StrictTest` `PropUnitTests` | the unit tests of src/gadgets/num.rs, lookup.rs, multipack.rs and uint32.rs | C80 |
| `LibTests LibTestsProof` `PropLibTests` | the unit tests of src/domain.rs, multiexp.rs and multicore.rs | C81 |
| `BoolTests BoolTestsProof` `PropBoolTests` | the unit tests of src/gadgets/boolean.rs and src/gadgets/test/mod.rs | C82 |
| `HashTests HashTestsProof` `PropHashTests` | the unit tests of src/gadgets/sha256.rs and src/gadgets/blake2s.rs | C83 |
| `SerializeTest SerializeTestProof` `PropSerializeTest` | the test `serialization` of groth16/src/lib.rs; `==` of proofs and keys; the texts of the errors of src/lib.rs and their tests | C84 |
| `PropProofIdentity` | proofs with an identity element (no new model) | C85 |
| `Bls` | scalar field of BLS12-381 (external crate), a concrete field with primality certificate | Example of C67 |

`Prop*.v` hold the property theorems, the small specifications they use, an Example with a concrete
non-trivial case beside each group, and `Print Assumptions`.

### Not modelled

* `Error`/`From` boilerplate, `Debug`, `Display` other than the texts of the errors of src/lib.rs, accessors that return a field;
* rayon's scheduler, `crossbeam_channel::bounded` (assumed to deliver the one value sent, or an error once the sender is gone), allocation failure, stack overflow;
* the closures given to `alloc`/`enforce` having side effects other than recording their value;
* curve arithmetic, wNAF, Miller loops, real random generators;
* tests, except the unit tests of domain.rs, multiexp.rs, multicore.rs, boolean.rs, num.rs, lookup.rs, multipack.rs, uint32.rs,
  sha256.rs, blake2s.rs, gadgets/test/mod.rs and the `lib.rs` of both crates (what their generators draw is an argument, except in `test_blake2s_test_vectors`, for
  which `HashTests.v` has a model of `XorShiftRng` of the crate rand_xorshift; that crate is not in /repo),
  the field of the dummy engine, groth16/src/tests/mod.rs, the MiMC circuit, the MiMC integration
  tests (without their time measurement), and the example of the crate documentation (without its random generators:
  toxic waste and proof randomness are arguments; the number of bytes of the preimage, 80 there, is a parameter);
* criterion, which runs the two benches: how often it runs a closure is a parameter.

## 3. Trusted base

* the Coq 8.16.1 kernel (and `coqchk`);
* axioms: none.  `Print Assumptions` beneath each of the 412 property theorems says `Closed under the global
  context`.  (The gate lists seven constants of `Coq.ssr.ssrunder`; they belong to the loaded library and no
  theorem depends on them.)
* the reading of the Rust source in the definitions;
* the contracts of the external crates: the laws in the records `PrimeField`, `FMod`, `Engine`, `Miller`,
  `GroupBytes`.  Each record is inhabited by a concrete instance used in the Examples.

## 4. What the proofs found

Statements that are false of the code are kept as `_refuted` theorems with a witness; the manifest gives
them status `partial` with a note starting `REFUTED`.

### Backed by a theorem

* **C47**: the prover's density trackers count a variable whose coefficients cancel inside one linear
  combination (`x - x`), while key generation leaves out a query element whose polynomial is zero.  Proving then
  fails (`C47_cancelling_refuted`).  General form, for any variable whose coefficients cancel in every constraint, in the A parts or in
  the B parts: `C47_never_proves`.
* **C72**: public gadgets produce such combinations when they are given the same variable twice: `sha256_ch` choosing between a bit and
  itself, `conditionally_reverse` of a number with itself, `addmany` of words with opposite bits.  Key generation succeeds for these
  circuits and no proof is ever created (`C72_from_gadgets_refuted`, `C72_numbers_and_words`).  Without cancelling variables almost all keys
  serve all provers (`C71_keys_serve`).
* **C48**: without the `multicore` feature `Worker::scope(0, ..)` gives a chunk size of zero and
  `chunks_mut(0)` panics: the empty circuit and a circuit without auxiliary variables panic during
  generation while the multicore build succeeds.  `C48_differ_iff` gives the exact condition.
* **C50**: `sha256_ch` with a constant selector can give a word of constants whose value the key generator does not
  know; `addmany` then allocates 33 bits for the key generator and none for the prover.
* **C52**: the dummy engine's `sqrt` never ends on zero and underflows on every non-residue.
* **C44**: lengths are written `as u32`, so 2^32 or more elements do not round-trip (`C44_length_wraps`).
* **C43**: proofs containing the identity are rejected when read (`C43_rejects`).
* **C37**: whether proving succeeds can depend on `tau` (`C37_prover_succeeds_iff`).
* **C30**: a spawned closure that panics, or whose waiter was dropped before it sent its result, never lowers the
  spawn counter (`C30_leak`); more than 4 * threads of them make every later call run inline (`C30_degrades`).

* **C63**: the generator does not check `ic` and `h` for identities, which `Parameters::read` refuses: for a few values of the toxic
  waste a key is generated and written that cannot be read (`C63_key_comes_back`, `C63_ex`).

* **C68**: `KeypairAssembly` panics on a variable that was not allocated even with coefficient 0, `ProvingAssignment` does not
  (`C06_keygen_defined`, `C68_prover_defined`).
* **C68**: `multiexp` takes the length `as u32`; from 32 exponents on, if their number is 0 or 1 modulo 2^32 the window size is
  `ln(0)` or `ln(1)`, that is 0, and it panics (`C68_multiexp`).
* **C68**: the rejection loop of batch verification does not end if the generator produces fewer non-zero values than there are
  items (`C68_batch`).
* **C25**: `EvaluationDomain` refuses size 2^S although a root of that order exists (`C25_failure`).
* **C20**: `UInt32::shr` takes the amount modulo 32, so shifting by 32 is the identity (`C20_shr`).
* **C69**: `pretty_print` writes a coefficient that is a power of two twice, `2^3 . 8 . x` for 8x: the loop that looks for the power
  ends with `break`, and the number itself is written after it all the same (`C69_text`, `C69_ex`).
* **C32**: bases that are skipped (exponent 0) are not checked for being the identity (`C32_value`, `C33_ex`).

* **C81**: the loop of the test `parallel_fft_consistency` is `for log_cpus in log_d..min(log_d + 1, 3)`, which is empty from eight elements
  on and otherwise runs `parallel_fft` only with as many tasks as elements - a split `best_fft` never chooses.  A `parallel_fft` that panics
  on every call the library makes passes the test (`C81_consistency_blind`, `C81_library_uses`, `C81_ex_blind`).

* **C82**: the tests of the gadgets of two bits try one wrong value for the result, the other bit; a gadget whose constraint has -1 as a
  second solution passes (`C82_blind`).  The gadgets of the library have no second solution (`C82_forced`).

* **C83**: the tests of the hash gadgets with vectors compare values only: a gadget that allocates the right digest without relating it to
  the message passes them (`C83_blind`).  That `sha256` and `blake2s` do relate the two is C22 and C23.

* **C84**: the test `serialization` can fail on a correct implementation: for at most six `tau` per choice of the other values, for zero
  values, for `a = 0` or `b = 1` (then the public input `a` is right), and when an element of a proof is the identity (C85).  The samples of the
  MiMC tests can fail in the last way too, for exactly the draws in `C85_mimc`.

## 5. Mutation testing

`seeded/LOG.jsonl` has one line per attempt: the definition edited, the edit, the claim it breaks, the
proofs that no longer go through, the property theorems that depend on them, and what was tightened.  A
scratch copy of the model is edited and rebuilt; a failing proof is replaced by an admitted one so
that the rest of the tree still builds, and `Print Assumptions` then tells exactly which property theorems
are affected.
