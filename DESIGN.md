# Formal model of lambdaworks_cairo_prover — design

Source of truth: `/repo/src` (read as text, never run).  Prover: Rocq/Coq 8.16.1, `rocq/theories`, logical name `Verif`.

## 1. Approach

Every modelled Rust function is a small total Gallina function with a comment citing file and lines.
Panics are explicit: `outcome A := Ok a | Err e | Panic`.  `&mut` becomes a returned value, loops become folds
or structural recursion, unbounded loops (`sample_z_ood`, the nonce search) take explicit fuel.

External code is *not* axiomatised.  It enters in one of two ways:

* as a record of operations with a separate record of laws (`field_ops`/`field_ok`, `felt_codec`, `transcript_ops`, hash
  functions), universally quantified in the theorems and instantiated on concrete instances in the Examples;
* as a reference implementation (polynomial arithmetic of `lambdaworks-math`, FFT = evaluation / interpolation,
  Merkle tree of `lambdaworks-crypto`), which is what the Rust crates are documented to compute.

## 2. Per property plan

| id | modelled | how proved |
|----|----------|------------|
| C01,C02 | byte-level writers/readers of stark.rs, frame.rs, fri_decommit.rs | parser lemma per field, induction on list lengths |
| C03 | same readers, slices that can panic are `Panic` | case analysis, induction on loop count |
| C04 | PublicInputs::deserialize with the two unchecked slices | reader trace, witness for the panic |
| C05 | maps as association lists, iteration order = any permutation | lookup equality for any permutation of a duplicate-free list |
| C06 | readers | explicit junk insertion; the tail of a buffer is characterised exactly |
| C07 | main.rs file framing | concatenation lemmas; every file shorter than its own header says is an error |
| C08-C10 | TraceTable / Frame on flat lists | index arithmetic, induction |
| C11,C12 | flag and offset decoding on N | bit lemmas (`N.testbit`), finite sweep over the 2- and 3-bit groups |
| C13 | columns computed by build_cairo_execution_trace | case analysis on decoded instruction + `ring`/`field` against an independent Cairo step relation |
| C14 | constraint polynomials on rows | case analysis on flags, field reasoning |
| C15,C16,C17 | get_rc_holes, get_memory_holes, fills, paddings | induction over sorted lists |
| C18 | insertion/merge sort reference of `sort_by` | Permutation + Sorted |
| C19,C21,C22 | permutation columns and constraints | telescoping products, unique factorisation of monic split polynomials |
| C20 | memory_is_increasing | induction over rows |
| C23 | limb decomposition, builtin columns of build_cairo_execution_trace | base-2^16 digits; the built rows one by one |
| C24,C25 | compute_transition, boundary_constraints of CairoAIR | explicit trace construction |
| C26,C27 | fold_polynomial, commit and query phases, layer checks | even/odd polynomial identity, induction over layers |
| C28,C31,C32,C33 | rounds 1-4 of prove and the verifier steps | refinement: verifier transcript replays prover transcript; polynomial identities; root counting |
| C29,C30 | exemption and boundary zerofiers | root products |
| C34-C36,C49,C50 | verifier | inversion of the boolean computation; explicit proof construction |
| C37-C39 | grinding.rs, options.rs on N with explicit 64-bit wrap | arithmetic |
| C40,C41 | transcript.rs | bit/bytes lemmas; loop invariant |
| C42 | Domain::new | order of roots of unity |
| C43 | byte dumps | parser lemmas |
| C44,C45 | CairoAIR::new, from_regs_and_mem | computation on lists |
| C46 | debug.rs | equivalence with a quantified statement |
| C47 | example AIRs | induction on rows |
| C48 | Merkle reference implementation | induction on path |
| C51 | fibonacci_rap.rs | concrete satisfying table whose columns are no permutation, for every field and challenge |
| C52 | prove + verify on the example AIRs | C47 gives a satisfying trace; C33 gives acceptance |
| C53 | generate_prover_args, prove, verify on CairoAIR | a valid run (Spec/CairoRun.v) gives a satisfying trace by C13, C15-C19; C33 gives acceptance |
| C54 | main.rs prove/verify and the file format | C53 composed with C01, C05, C07 |
| C55 | every partial operation of prove | goes through the rounds; each inversion, slice and interpolation is discharged from `proving_ok` |
| C56 | CairoAIR constraints, prove, verify | explicit columns with selector 0 (Proofs/CairoForge.v) completed for every challenge; C55 gives the accepted proof; the false statement by case analysis of its run |
| C57 | CairoAIR auxiliary columns | sorted values solved for after alpha and z (Proofs/LateColumns.v); C55 gives the proof; a program with two values for one cell as false statement |
| C58 | CairoAIR constraints | C14, C20, C21, C22 composed; bad challenges are the roots of differences of products over the finite field (Proofs/RootBound.v); honest traces meet the conditions (Proofs/HonestRepairs.v) |
| C59 | verifier step 2 (Model/Verifier.v), C35's exact form of it | (H - composition)(x^n - 1) is a polynomial; more agreeing points than coefficients make it zero; subtracting two coefficient values isolates one constraint (Proofs/OodFacts.v) |
| C60 | DEEP value of step 4 in exact form (Spec/VerifierSpec.v `deep_value`), openings as functions of the point (Spec/LowDegree.v) | the difference of two coefficient values is one quotient; multiply out |
| C61 | committed words, answers and trees of continuations (Spec/FriTree.v) over the exact query check | one fold per challenge determines even and odd part; induction on rounds and on the tree (Proofs/LowDegreeFacts.v, FriSoundness.v) |
| C62 | C34's exact acceptance; hashes evaluated by an opening (Spec/HashSpec.v) | openings of any length bind up to a coincidence (Proofs/BindingFacts.v); counting vectors; inner nodes opened with short paths |
| C63 | families of transcripts for fixed words (Spec/StarkTree.v) over steps 2 and 4 and the query check | C61 makes every DEEP word low-degree, C60 makes columns and halves polynomials, C59 makes the constraints hold (Proofs/StarkSoundness.v); converse from honest answers (Proofs/FriComplete.v, StarkComplete.v) |
| C64 | C63 for the Cairo AIR | C63 with C58; cairo constraints as expressions (Proofs/CairoAdmissible.v) |
| C65 | verifier, as C35 | zero words for composition and FRI with honest trees and answers; the even part solves step 2; at every query the opened value of one column is solved from the DEEP equation, its path is junk (Proofs/FullForge.v) |
| C66 | Codec.v, PublicInputs.v as C01-C07 | every reader returns a value whose encoding is at most what it consumed (Proofs/CodecBack.v); map insertion keeps keys distinct |
| C67 | Release.v: the verifier of either build profile | the checked verifier refines to the wrapping one step by step; boundary points g^(s-1) depend on s modulo the order of g (Proofs/ReleaseFacts.v) |
| C68 | codec and Domain::new as in C01, C28; the order of the verifier's checks | the first eight bytes are the length; lengths of the domain lists (Proofs/DomainFacts.v) |
| C69 | Main.v: argument dispatch, printed lines, files as a map, the VM as a function | case analysis over the commands; C54 for the accepted runs |
| C70 | Main.v: the range computed from segment sizes | the fold over sizes is the length of the preceding segments |
| C71 | words, combinations and folds on a domain (Spec/Proximity.v) over the exact query check | two good coefficients determine both words; more than e + 1 of them would disagree too often (Proofs/LineFacts.v); induction on the rounds (Proofs/FriRound.v) |
| C72 | one accepted run with the words behind its commitments (Spec/Rounds.v) | C71 makes the DEEP word near a polynomial, peeling off one term at a time makes the columns and halves so, uniqueness and C59 make the constraints hold (Proofs/RoundFacts.v, RoundSoundness.v); honest proofs are such runs (Proofs/HonestRound.v) |
| C73 | C72 for the Fibonacci and the Cairo AIR | C72 with C58 and the characterisation of Fibonacci traces; premises met by the proof of any provable run (Properties/RoundHonestProperties.v) |
| C74 | openings of rows of words (Spec/Openings.v) | Merkle binding applied to the rows (Proofs/OpeningFacts.v), completeness of the prover's trees and paths (Proofs/HonestOpenings.v) |
| C75 | the builds: `parallel`, `debug_assertions` (Model/Features.v) | a repeated list and an index modulo its length agree; a debug build refines the release build step by step; the validator is total on fitting shapes |
| C76 | transcripts as lists of absorptions and squeezes, the schedule of the protocol (Spec/Schedule.v) | the replay is followed step by step (Proofs/ScheduleFacts.v); binding by induction on the chain of hashed blocks; prover side by C28 |
| C77 | the interactive protocol as a game between a strategy and a tape of challenges (Spec/Game.v) | a losing strategy that wins meets an exceptional entry of the tape (C72) or lucky queries; tapes with an exceptional entry are counted coordinate by coordinate (Proofs/CountFacts.v); `tape_of` reads the challenges of an accepted proof as a tape (Proofs/TapeFacts.v) |
| C78 | statements that make the same claim (Spec/Claim.v) | the verifier reads a statement through its layout, its transitions and, for the challenges it draws, its boundary values (Proofs/ClaimFacts.v `verify_drawn`); the last boundary value is a product over the public cells; binding by the two Schwartz-Zippel steps of C20 |
| C79 | rows that execute an arbitrary word (Spec/AnyWord.v) | uniqueness by the 15 CPU formulas of C14 without `defined_instruction`; existence by rows built from a word and its operands (Proofs/AnyWordFacts.v `built_executes`); the whole trace is the honest table of another program with its first row patched |
| C80 | a strategy of the game of C77 that ignores its commitments (Proofs/GambleFacts.v `gamble`) | the stated value is computed as the verifier does; the first layer interpolates the DEEP composition on the 2^r positions hoped for, and the polynomial is folded honestly; products are counted |
| C81 | prove, serializers of stark.rs, fri_decommit.rs, frame.rs | the parts of an honest proof counted along the rounds; lengths of the encoders added up |
| C82 | the protocol of C77 with an oracle for the transcript (Spec/Oracle.v): questions, replies, adaptive provers, forgeries | a forgery contains a question whose reply is bad: a lost root completed, an exceptional challenge or lucky positions, each determined by the question and its reply (`exception_local`); bad replies to one question are counted as in C77, and adaptively chosen questions by induction on their number (Proofs/OracleCount.v) |
| C83 | debug.rs:84-98 and its call, evaluator.rs:281-298, file_writer.rs (Model/Leftover.v); long division of polynomials as reference implementation | the remainder by X - g is the value at g (correctness of long division by induction on the rounds); the folds of the verifier are rewritten into the sum; induction on the writes |
| C84 | a reader of proofs (Spec/Witness.v: replay, Newton interpolation through the stated values) | the openings and the frame of an honest proof are values of its column polynomials (`honest_parts`); interpolation through enough points is exact; roots determine the leaves unless evaluated hashes coincide, by induction on the depth; counterexample with the flags of the dummy air |
| C85 | a prover against the oracle of C82 that follows the strategy of C80 and asks with one nonce after the other (Spec/Retry.v) | its questions are all different and its table is computed (`retrying_table`); one good reply completes a forgery (`retrying_forges`); the replies that lose lie in a product of lists, which is counted |
| C86 | the walk down from a root along known hash evaluations (Spec/Extract.v); openings as in Spec/VerifierSpec.v | a comb of complete trees, one for each leading bit and each word (`comb_opens`); an opening with known evaluations is retraced from the root (`path_below`); the soundness proof of C72 and C77 is repeated with values in place of roots (`says_fold`, `valued_wins`) |
| C87 | the machine of Spec/CairoSpec.v, runs of Spec/CairoRun.v, tables that describe runs as in C58 | a step is a function of the cells it reads (`step_unique`); induction over the run; two runs of a program that jumps to the cell at fp as counterexample |
| C88 | the parts of a proof that are checked (Spec/Surplus.v) | the loops run over zips of lists, which cut to the shorter one; a verdict once false stays false, so a true one is true for every beginning of the loop (`ofold_begin`) |
| C89 | provers and verifiers that differ only in two options (Spec/Levels.v) | the number of queries only enters the last draw of positions, whose result for fewer is a beginning of that for more; the verifier is split there (`verify_iff`) |
| C90 | one proof verified for two statements with the same boundary cells (Spec/Restated.v) | the transcript does not contain the statement, so only step 2 differs; its two sides differ by the weighted sum of the value differences. The impossible end is a solution of that equation with a first coordinate of 2^64 |
| C91 | the conditions on a table that mention no challenge (Spec/Fitting.v) | one direction as C58; for the other the running products are the quotients of the two vanishing products, whose last values are the boundary values because the multisets are equal. Cell 0: counting (0, 0) on both sides of the permutation. The loop is checked to fit by a verified decision procedure |
| C92 | the same conditions without the one on the memory, and those on the execution columns alone (Spec/Fitting.v) | soundness as C91, where the missing first-row equation of the memory product leaves nothing to conclude about the memory; completeness by solving for the running products, whose first value is free, and for statements by the table of C24 whose step selector is zero in every row |
| C93 | nothing new: the airs of C47 in the games of C77 and C82 | the general bounds of C77 and C82 with the characterisation of C47: if challenges existed for which the columns were near a solution, they would decode to the sequence; for the second column of the randomized air the completeness theorem, since the running quotient exists for every second column |
| C94 | nothing new: the prover's first two rounds and the verifier's second step (Spec/WrongTable.v names the halves the prover computes and the pairs that pass) | the replay of C28 gives the verifier the prover's challenges without assuming a valid trace; C59 leaves one coefficient for which the check passes often; a count of pairs by their first component |
| C95 | nothing new: the auxiliary columns as the prover builds them (Spec/Contradiction.v says which cells are used) | the sorted columns list exactly the used cells in ascending order; equal addresses are adjacent there, so the constraints of neighbouring entries would make their values equal, and leave no gap; then C94 |
| C96 | nothing new: the running product and its boundary constraint (Spec/Dropped.v says which accesses are left out) | the running product telescopes; the kept accesses cancel; products of linear factors that agree on too many points have the same factors; then C94 |
| C97 | nothing new: the sorted offsets, their running product and the boundary constraints on them (Spec/Offsets.v) | the sorted columns are a sorted permutation of the half-words; steps of zero or one leave no gap; the running product telescopes; equal products on too many points have the same factors; then C94 |
| C98 | nothing new: the conditions of C95-C97 collected (Spec/SoundTable.v) | each group of constraints from its meaning on the sorted lists, and back by C95-C97; then C33 for acceptance and C94 for the converse; for runs the steps of the proof of C53, read off the table |
| C99 | FibonacciRAP::new with its subtraction (Model/RapNew.v); transition_exemptions_verifier | case analysis on the subtraction; a product of monic linear factors is monic |
| C100 | load_proof_and_pub_inputs and the timed call of the verifier benchmarks (Model/Bench.v) | case analysis; the round trip of files and the number of answers of an honest proof, as for C54 |

C72 in numbers (proved as C77): with N = 2^(r+b), width w, k rows in the frame, q queries and challenges drawn uniformly from F after what they depend on, a union bound
over its exceptional values gives an error of at most (#constraints + out-of-domain bound + (w k + 2)(e + 1) + sum_i (e/2^(i+1) + 1)) / |F| + ((N - e - 1)/N)^q.

Not expressible: timing, memory use, rayon thread scheduling (only its order-preserving `map`/`collect` semantics), the Cairo VM itself
(cairo-rs) and the concrete hash functions (abstract).

## 3. Trusted base

* Coq's kernel (the audit with `coqchk` re-checks the compiled files).
* What `Print Assumptions` prints beneath each theorem of `Properties/`.  It is "Closed under the global context" for every
  one of them: no axiom of the standard library or of any other library is used.
* The reading of the Rust code into Gallina, listed in section 4, with the simplifications of section 5.
* The statements in `Spec/`, which say what is claimed in words independent of the model.

Premises of theorems are never axioms.  The recurring ones, all of them instantiated in `Examples/`:

| premise | says | instantiated by |
|---------|------|-----------------|
| `field_ok`, `fft_ok` | field laws, decidable equality, a root of unity of order 2^two_adicity | F97, Stark252 |
| `env_ok` | the above, and the embedding of integers sends 2 to 1+1 | Toy, Stark252, Calm |
| `cairo_ok C p` | prime field of p elements with canonical representatives, p > 2^65 | Stark252, Calm |
| `sampling_ok` | drawing a challenge or an index does not panic (32-byte digests) | Toy, Calm |
| `perfect_hash` | leaf and node hashes have no coincidences (only for the converse in C63) | StarkSoundnessProperties |
| `statement_ok`, `admissible` | trace length and blowup powers of two, widths as declared, domain fits the two-adicity, no square in the coset | each AIR |
| `proving_ok` | prover side counterpart (degrees fit, exemptions fewer than rows) | each AIR |
| `boundary_computable` | computing the boundary constraints does not panic | each AIR |
| `z_found`, `nonce_found` | the two unbounded searches end within the fuel | Toy, Calm |
| `digest_hashes` | digests have 32 bytes | Calm |
| `codec_ok`, `fits_usize` | elements have a fixed-width encoding; lengths are below 2^64 | Stark252 |
| `valid_run`, `provable_run` | the run is one of the Cairo machine; program and builtin cells are in memory; output cells are accessed | MiniRun |

## 4. What is modelled

| source | model | left out |
|--------|-------|----------|
| starks/proof/options.rs | Options.v, Air.v | |
| starks/proof/stark.rs | Codec.v | tests |
| starks/proof/errors.rs | constructors of `outcome` errors | messages |
| starks/config.rs | type aliases; hash functions abstract | |
| starks/context.rs, traits.rs, constraints/boundary.rs | Air.v | |
| starks/constraints/evaluator.rs, evaluation_table.rs | Evaluator.v (`parallel`), Features.v (default features), Leftover.v (`compute_constraint_composition_poly_evaluations_sum`, never called) | |
| starks/debug.rs | Debug.v, Features.v (its call), Leftover.v (`check_boundary_polys_divisibility`, only called on empty lists) | printing |
| starks/domain.rs | Domain.v | |
| starks/example/*.rs | ExampleAirs.v, RapNew.v (constructor of the Fibonacci RAP) | |
| starks/frame.rs, trace.rs | Trace.v, Codec.v | `get_row_mut` (aliasing; unused) |
| starks/fri/*.rs | Fri.v | `fri_commitment.rs` holds only a struct |
| starks/grinding.rs, transcript.rs | Transcript.v | `test_fiat_shamir` variants |
| starks/prover.rs | Prover.v | `instruments` timing, `test_fiat_shamir` |
| starks/verifier.rs | Verifier.v (overflow checks on), Release.v (either profile) | `instruments` timing, `test_fiat_shamir` |
| starks/utils.rs | Codec.v | |
| cairo/air.rs | CairoAir.v, PublicInputs.v, CairoTrace.v (segments) | |
| cairo/decode/*.rs | CairoDecode.v | |
| cairo/execution_trace.rs | CairoTrace.v | |
| cairo/cairo_mem.rs, register_states.rs | CairoRunner.v, CairoTrace.v | `from_file` (file access) |
| cairo/runner/run.rs | CairoRunner.v, Main.v | the call into the Cairo VM: the relocated trace, memory and segment sizes it returns are inputs |
| cairo/runner/vec_writer.rs | CairoRunner.v | |
| cairo/runner/file_writer.rs | Leftover.v (never used) | what the file system does with a write; `flush` |
| cairo/runner/errors.rs | not modelled (messages) | |
| cairo/cairo_layout.rs | Main.v | |
| main.rs | Cli.v (proving and verifying), Main.v (dispatch, printed lines, files) | timings; a failed write leaves the file unchanged |
| lambdaworks-crypto Merkle tree | Merkle.v (reference implementation) | |
| lambdaworks-crypto DefaultTranscript | abstract; Spec/Schedule.v `sponge` (reference implementation, C76) | |
| lambdaworks-math polynomials, FFT, fields | Base/ (reference implementation: lists of coefficients, evaluation and interpolation) | |
| benches/criterion_verifier.rs, criterion_verifier_70k.rs | Bench.v | the contents of the files in benches/proofs; the timing harness |
| fuzz/, tests/, other benches | not modelled | |

## 5. Simplifications

* Build: default features.  `debug_assert!` is ignored, except in Features.v (C75).  Arithmetic is that of a build with overflow checks, except in Release.v, which
  is the verifier with the wrapping subtraction of `[profile.release]` (Cargo.toml has no `overflow-checks`); C67 relates the two.  Index out of range, unwrap of None/Err, division by zero
  and `usize` underflow are `Panic`; overflow of `usize` additions in lengths is ruled out by `fits_usize` where it matters, and options.rs,
  whose findings are about wrapping, is modelled with explicit 64-bit wrap.
* `sample_z_ood`, the nonce search and the memory-hole loop take fuel; theorems either hold for every fuel or assume the search ends.
* FFT evaluation and interpolation are pointwise evaluation and Lagrange interpolation on the domain, not the butterfly algorithm.
* `sort_by` and `sort_by_key` are a stable sort; `par_iter` is `iter`.
* HashMap iteration is any permutation of a duplicate-free association list.
* `FibonacciRAP::new` uses truncated subtraction, except in RapNew.v (C99); `AIR::new` is total otherwise.
* The conversion of an offset cell to `u16` keeps the low 16 bits of the canonical representative, the conversion to `u64` keeps the low 64.
* `compute_transition` checks the width of the frame rows up front; the Rust code panics on the first missing cell.
* In Cli.v the files are byte strings.

## 6. Findings proved about the code

| property | finding |
|----------|---------|
| C04 | two unchecked slices make `PublicInputs::deserialize` panic |
| C06 | the nonce is read from the end of the buffer, so proofs are malleable |
| C16, C44 | some honest runs (unfilled holes with outputs; output segment without range-check segment) cannot be proved |
| C21, C51 | the first cell of the permutation columns is not constrained: neither the memory argument nor FibonacciRAP enforces its permutation |
| C23 | the limbs of the range-check builtin are not range-checked; range-checked cells beyond the number of steps are dropped from the trace |
| C56 | hence a trace without any instruction proves any statement of two steps or more |
| C57 | the sorted memory columns are committed after alpha and z, so contradictory memory accesses pass, even with the first-row equation of C21 added |
| C58 | the dummy cell (0, 0) makes address 0 possibly two-valued even in the repaired AIR |
| C24, C25 | the selector column and the initial frame pointer are free |
| C32 | frame offsets other than 0,1,2,.. make honest proofs fail |
| C33, C41 | if the coset contains a square the out-of-domain point may hit a pole and the verifier panics |
| C35, C36, C49, C50 | empty query lists are accepted; trace openings are not compared with the commitment; crafted proofs make the verifier panic; the statement is not in the transcript |
| C62 | path lengths are not checked and two-element leaves are hashed like inner nodes, so children of inner nodes are accepted openings |
| C65 | because the trace openings are not checked, every statement has accepted proofs with all layers, answers, openings and full paths: checking lengths alone does not repair C35 |
| C67 | the number of steps in the public inputs counts only modulo the trace length; a release build accepts a run that fills its trace as a run of zero steps |
| C68 | the claimed trace length is eight bytes of the proof and the verifier builds lists of that length before checking anything else |
| C75 | a debug build panics on boundary rows beyond the table, and its Cairo verifier on claimed lengths that are no powers of two; an invalid trace is proved by debug builds too |
| C76 | the row width of the out-of-domain frame, incomplete rows, surplus roots and the claimed length are read from the proof but not absorbed; positions are drawn with replacement |
| C78 | the names and ranges of the declared segments and the public cell (0, 0) are not bound by a proof |
| C79 | no constraint says that at most one flag of a group is set: words that no Cairo machine runs have satisfying traces; a conditional jump with ap += res lets the prover choose ap |
| C80 | guessing the positions wins a fraction 2^(-b q) of all runs whatever is committed; options accepted at any provable level from 3 bits on lose every second run |
| C84 | proofs are not blinded: the trace can be read from proofs with enough queries, and any guess of it can be confirmed |
| C85 | the guess of C80 can be repeated with every nonce: N nonces fail for at most (1 - 2^(-b q))^N of the oracle's replies |
| C86 | openings are accepted with paths of any length, so one root can open every position but 0 to any number of values without a collision |
| C87 | two provable runs of one public program with the same first pc and ap end differently, because fp is free (C25) |
| C88 | every accepted proof can be extended by arbitrary queries, and stays accepted without any opening or authentication path |
| C89 | every accepted proof becomes a proof for any higher number of queries by appending arbitrary values |
| C90 | every accepted Cairo proof is also accepted for final registers that no run can have |
| C91 | with the gaps of C58 closed, the rows of an accepted table may still disagree about the value of cell 0 |
| C92 | whether a statement has an accepted table depends only on its number of steps and its offset bounds; the public memory, and from two steps on the registers, do not matter |
| C93 | the randomized Fibonacci example accepts any second column: the prover's own code turns such a table into an accepted proof |
| C95 | the integration test on a changed output changes the first program counter instead; it is rejected for that |
| C99 | the verifier of the Fibonacci RAP panics on a proof that declares too few rows, and its work is quadratic in the rows a proof declares |
| C100 | the verifier benchmarks check proofs with three answers against options for 80 queries and discard the result: they time the refusal |
| C83 | the divisibility check of debug builds is called on empty lists and reports nothing |
| C69 | the command exits with status 0 whether or not verification succeeds; a directory name decides whether a program is run as Cairo 1 |
| C70 | a range-check builtin without recorded stop pointer is declared with an empty range |
| C37-C39 | zeros are counted at the low end; the security checks underflow, or are inverted |

### Comparison with the files in benches/proofs

These are tests of the model, not proofs, and nothing in MANIFEST.json rests on them.  The model was extracted to OCaml outside this
repository, with Keccak-256 for the hash functions, and run on benches/proofs/fibonacci_500.proof.

* Agrees: the file decodes and encodes back to the same bytes; the public inputs decode; the Merkle openings of the trace and of the FRI layers verify at the drawn
  positions; the three answers give the same folding challenge in each of the 12 layers; from the first folding challenge on, the transcript
  `sponge` of Spec/Schedule.v gives the other challenges, the grinding value and the three positions.  The lengths of all three
  files are those of C81 (`C100_sizes`).
* Does not agree: replaying the transcript from its start does not give the first folding challenge, so the model's verifier rejects
  the file with `default_test_options`.  The steps concerned (roots, coefficients, out-of-domain point and values) were read again
  against the source and no difference was found.  An older prover may have made the file; this could not be checked here.

## 7. Layout of rocq/theories

`Base/` outcomes, lists, fields, polynomials, words.  `Model/` definitions following the Rust code, nothing else.  `Spec/` statements.
`Proofs/` lemmas.  `Properties/` the theorems `CNN_…` named in MANIFEST.json, each followed by `Print Assumptions` and concrete cases.
`Examples/` instances of the environments.  `tools/` generates properties.jsonl and MANIFEST.json.  `seeded/LOG.jsonl` records the wrong
programs tried.
