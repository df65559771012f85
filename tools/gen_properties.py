#!/usr/bin/env python3
"""Writes /verif/properties.jsonl (one JSON object per line)."""
import json, os
P = []
def p(id, title, statement, quantifier, why, anchors):
    P.append(dict(id=id, title=title, statement=statement, quantifier=quantifier,
                  why_tests_cant=why, anchors=anchors))

p("C01", "A serialized STARK proof deserializes to the same proof",
  "Serializing a StarkProof and deserializing the bytes returns exactly the same proof (trace length, commitments, out-of-domain frame, composition evaluations, FRI roots, last value, query openings, DEEP openings and nonce), for every proof whose lengths fit in 64 bits, whose OOD frame is well-formed and whose openings have the shape the prover produces. Appended to a longer buffer, every field except the nonce (which is read from the END of the buffer) is still recovered.",
  "for every proof value of any size, every field-element byte codec that is a fixed-width round trip, and every Merkle-path content",
  "tests round-trip a handful of generated proofs; number and size of layers, openings, columns and roots are unbounded",
  ["src/starks/proof/stark.rs: StarkProof::serialize, StarkProof::deserialize"])
p("C02", "Frames, FRI decommitments and DEEP openings round-trip",
  "Each nested structure (Frame, FriDecommitment, DeepPolynomialOpenings) deserializes to itself after serialization, also when followed by arbitrary trailing bytes.",
  "for every structure value of any size and every trailing byte string",
  "unbounded sizes; trailing data is a whole language of suffixes",
  ["src/starks/frame.rs: Frame::serialize, Frame::deserialize", "src/starks/fri/fri_decommit.rs: FriDecommitment::serialize/deserialize", "src/starks/proof/stark.rs: DeepPolynomialOpenings::serialize/deserialize"])
p("C03", "Proof deserializers never panic",
  "Deserializing a Frame, FriDecommitment, DeepPolynomialOpenings or StarkProof from an arbitrary byte string returns a value or an error; it never reaches an out-of-range slice or other panic.",
  "for every byte string",
  "the input space is all byte strings; fuzzing only samples it",
  ["src/starks/frame.rs: Frame::deserialize", "src/starks/fri/fri_decommit.rs: FriDecommitment::deserialize", "src/starks/proof/stark.rs: StarkProof::deserialize"])
p("C04", "Public-input deserialization: exact set of panicking inputs",
  "Expected: deserializing Cairo public inputs from arbitrary bytes never panics. Claimed of the code: there are truncated inputs on which it panics (two unchecked two-byte slices for the range-check bounds), and it panics ONLY there: if the buffer does not end inside one of those two two-byte fields, deserialization returns Ok or Err.",
  "for every byte string",
  "the panic set is a set of truncation points of every valid prefix; tests only deserialize complete inputs",
  ["src/cairo/air.rs: PublicInputs::deserialize"])
p("C05", "Cairo public inputs round-trip for any hash-map iteration order",
  "Serializing public inputs and deserializing them gives public inputs with equal registers, step count, range-check bounds, and equal memory and segment maps, whichever order the hash maps happen to be iterated in; two different iteration orders give byte strings that decode to equal maps.",
  "for every public input value and every iteration order of its two hash maps",
  "HashMap iteration order is randomized per process; a test observes one order per run",
  ["src/cairo/air.rs: PublicInputs::serialize, PublicInputs::deserialize"])
p("C06", "Proof encoding is not canonical",
  "Expected: a byte string that decodes to a proof is the unique encoding of that proof. Claimed of the code: for every encodable proof there are infinitely many distinct byte strings that deserialize to it (malleable encoding), because bytes placed between the DEEP openings and the final nonce are ignored; likewise for public inputs and frames.",
  "for every proof, for every junk byte string",
  "tests only decode encoder output",
  ["src/starks/proof/stark.rs: StarkProof::deserialize (nonce)", "src/cairo/air.rs: PublicInputs::deserialize"])
p("C07", "The proof file written by `prove` is what `verify` reads back",
  "The CLI file layout (8-byte big-endian proof length, proof bytes, public-input bytes) is split by the reader into exactly the proof bytes and public-input bytes that were written, so decoding the file yields the original proof and public inputs; and a file shorter than its header or declared length is reported as an error, never misread.",
  "for every proof and public input value, and every possibly truncated file",
  "unbounded sizes and truncation points",
  ["src/main.rs: main", "src/starks/utils.rs: serialize_proof, deserialize_proof"])
p("C08", "Trace table column/row views agree",
  "A trace table built from equal-length columns returns those columns from `cols()`, row i column j of it is element i of column j, `rows()` are the transposed columns, and flattening is row-major; construction fails (panics) exactly when a later column is shorter than the first or there are no columns.",
  "for every list of columns",
  "any number and length of columns",
  ["src/starks/trace.rs: TraceTable::new_from_cols, cols, rows, get_row, get, n_rows"])
p("C09", "Column selection and trace concatenation",
  "Selecting columns and concatenating two traces of equal height produce tables whose columns are exactly the selected columns, respectively the columns of the first followed by those of the second.",
  "for every pair of tables and every list of column indices",
  "any sizes",
  ["src/starks/trace.rs: TraceTable::get_cols, TraceTable::concatenate"])
p("C10", "Evaluation frames read cyclically shifted LDE rows",
  "The frame read at LDE step s holds, for the k-th offset o_k, the table row (s + o_k*blowup) mod n_rows, for every step including those that wrap around.",
  "for every trace table, step, blowup and offset list",
  "all steps and wraparounds",
  ["src/starks/frame.rs: Frame::read_from_trace, Frame::get_row, Frame::num_rows"])
p("C11", "Instruction flag decoding is exact",
  "Decoding a Cairo instruction succeeds exactly when each multi-bit flag group of its low 63 bits is one of the encodings allowed by the Cairo architecture, and the 16 flag columns written to the trace are exactly bits 48..63 of the instruction word (the last one 0) in the order the AIR uses.",
  "for every field element (every 252-bit word)",
  "2^63 distinct flag/offset combinations",
  ["src/cairo/decode/instruction_flags.rs: CairoInstructionFlags::try_from, to_trace_representation"])
p("C12", "Instruction offset decoding is exact",
  "Decoded offsets are the three 16-bit fields of the instruction minus 2^15, and the unbiased representation written to the trace equals the original 16-bit fields; so flags and offsets re-encode to the instruction word.",
  "for every 63-bit instruction word",
  "2^48 offset combinations",
  ["src/cairo/decode/instruction_offsets.rs: InstructionOffsets::new, decode_offset, to_trace_representation"])
p("C13", "Execution-trace rows of a valid Cairo run satisfy the CPU constraints",
  "For every register trace and memory that follow the Cairo step relation, the main trace columns built from them satisfy every instruction, operand, register-update, opcode and flag constraint on every step row where the AIR enforces it.",
  "for every program, memory and trace length",
  "tests run a dozen programs; this is all programs",
  ["src/cairo/execution_trace.rs: build_cairo_execution_trace, compute_res, compute_dst, compute_op0, compute_op1, update_values", "src/cairo/air.rs: compute_instr_constraints, compute_operand_constraints, compute_register_constraints, compute_opcode_constraints"])
p("C14", "CPU constraints imply the Cairo step semantics when the selector is one",
  "If a row with selector 1 (and its successor) satisfies the CPU constraints, the row's flags encode an instruction and the next pc, ap, fp are those of the Cairo architecture's state-transition function on that instruction, with dst, op0, op1, res as the architecture prescribes.",
  "for every pair of rows of field elements",
  "soundness is about all adversarial rows, not honest ones",
  ["src/cairo/air.rs: compute_instr_constraints, compute_operand_constraints, compute_register_constraints, compute_opcode_constraints, enforce_selector"])
p("C15", "Range-check columns cover a contiguous interval",
  "After hole filling, the multiset of offsets in the three offset columns covers every 16-bit value between its minimum and maximum, the reported bounds are the true minimum and maximum over the steps, and the sorted range-check columns start at the minimum, end at the maximum and move by 0 or 1.",
  "for every offset multiset",
  "all patterns of holes",
  ["src/cairo/execution_trace.rs: get_rc_holes, fill_rc_holes, build_main_trace"])
p("C16", "Memory addresses have no holes after filling",
  "After memory-hole filling, accessed addresses together with the public memory 1..codelen are contiguous when the first accessed address is at most codelen+1; Claimed limit of the code: when the public memory also contains output cells (so its size exceeds the program length) holes may be left unfilled and the honest trace is rejected.",
  "for every multiset of accessed addresses and every program length",
  "all patterns of holes",
  ["src/cairo/execution_trace.rs: get_memory_holes, fill_memory_holes, build_main_trace"])
p("C17", "Padding yields a power-of-two trace and keeps the execution prefix",
  "The main trace has a power-of-two number of rows, all columns have equal length, the first num_steps rows are the executed steps, and rows after them replicate or zero-fill as documented.",
  "for every raw trace",
  "all lengths",
  ["src/cairo/execution_trace.rs: build_main_trace, pad_with_last_row, pad_with_last_row_and_zeros, add_pub_memory_dummy_accesses"])
p("C18", "Sorted memory columns are a stable sorted permutation of accesses plus public memory",
  "The sorted address/value columns are a permutation of the accesses with the trailing dummy accesses replaced by the public memory, ascending in address.",
  "for every access list",
  "all permutations",
  ["src/cairo/air.rs: sort_columns_by_memory_address, add_pub_memory_in_public_input_section, CairoAIR::build_auxiliary_trace"])
p("C19", "Permutation columns are the running quotient products",
  "The memory and range-check permutation columns computed by the prover equal the prefix quotients of the products over original and sorted entries, satisfy the permutation transition constraints on every row, and end in the final value required by the boundary constraints.",
  "for every column content and every challenge with nonzero denominators",
  "all traces, all challenges",
  ["src/cairo/air.rs: generate_memory_permutation_argument_column, generate_range_check_permutation_argument_column, permutation_argument, permutation_argument_range_check, boundary_constraints"])
p("C20", "Continuity and consistency constraints make memory single-valued",
  "If the sorted address/value columns satisfy the continuity and single-value constraints on every row, then equal addresses carry equal values, and the set of addresses is an interval (when the trace is shorter than the field).",
  "for every sorted column content",
  "adversarial columns",
  ["src/cairo/air.rs: memory_is_increasing"])
p("C21", "The memory permutation argument does not bind the sorted columns",
  "Expected: satisfying the memory permutation constraints and its boundary constraint forces the sorted columns to be a permutation of accesses plus public memory. Claimed of the code: the first running product is not constrained, so for any accesses, any public memory and ANY sorted columns there are permutation columns satisfying all constraints (for challenges where no factor vanishes). With the missing first-row equation added, the products are forced equal, and equality as polynomials forces a permutation.",
  "for every accesses/sorted column pair and every nondegenerate challenge",
  "a soundness gap is about all malicious traces",
  ["src/cairo/air.rs: permutation_argument, boundary_constraints, CairoAIR::new (transition_exemptions)"])
p("C22", "Range-check constraints bound the offsets",
  "If the range-check columns satisfy the step constraints, the boundary values and the cyclic product constraints, the sorted values are all between the public minimum and maximum, and the products of (z - value) over original and sorted values are equal.",
  "for every column content",
  "adversarial columns",
  ["src/cairo/air.rs: permutation_argument_range_check, boundary_constraints"])
p("C23", "Range-check builtin decomposition",
  "The prover's eight 16-bit limbs recombine to the value exactly when it is below 2^128; in a built trace row k holds cell k of the segment, and the builtin constraint holds exactly when those cells are below 2^128. Claimed of the code: cells of the segment beyond the number of steps are in no row, and the constraint itself accepts every field element, because limbs are not range-checked.",
  "for every field element, every run, memory and segment",
  "2^252 values",
  ["src/cairo/execution_trace.rs: decompose_rc_values_into_trace_columns", "src/cairo/air.rs: evaluate_range_check_builtin_constraint"])
p("C24", "A disabled selector disables all CPU constraints",
  "Expected: a trace accepted by the AIR describes an execution of the program. Claimed of the code: the selector column is prover-chosen and unconstrained; any rows with selector 0 satisfy all fifteen CPU constraints, so for any public inputs (with at least two steps, ordered range-check bounds, a table long enough to hold every value between them, and challenges other than two values) there is a full trace satisfying every constraint without executing any instruction.",
  "for every public input",
  "a soundness gap is about all malicious traces",
  ["src/cairo/air.rs: enforce_selector, compute_transition, boundary_constraints"])
p("C25", "The initial frame pointer is not bound by the AIR",
  "Expected: the AIR fixes ap, fp and pc at the start. Claimed of the code: changing fp_init in the public inputs changes no boundary constraint and no transition constraint, so acceptance is independent of it.",
  "for every trace and every pair of public inputs differing only in fp_init",
  "quantifies over all proofs",
  ["src/cairo/air.rs: boundary_constraints, PublicInputs"])
p("C26", "FRI folding identity",
  "For every polynomial p, point x and challenge zeta, folding satisfies fold(p, zeta)(x^2) = (p(x)+p(-x))/2 + zeta (p(x)-p(-x))/(2x) up to the code's scaling, and folding halves the number of coefficients (rounding up), so after the number of rounds the prover performs the result is constant.",
  "for every polynomial, point, challenge and number of rounds",
  "unbounded degree",
  ["src/starks/fri/fri_functions.rs: fold_polynomial", "src/starks/fri/mod.rs: fri_commit_phase"])
p("C27", "Honest FRI query openings are accepted at every query index",
  "For every polynomial of admissible degree, every set of challenges and every query index, the decommitment the prover produces passes the verifier's layer checks (both Merkle openings and the folding consistency, ending in the last value).",
  "for every polynomial, challenge sequence and index",
  "2^k indices times all polynomials",
  ["src/starks/fri/mod.rs: fri_commit_phase, fri_query_phase", "src/starks/verifier.rs: verify_query_and_sym_openings"])
p("C28", "Prover and verifier replay the same transcript",
  "On the proof returned by the prover, the verifier derives exactly the same RAP challenges, composition coefficients, out-of-domain point, DEEP coefficients, FRI challenges and query indices as the prover used.",
  "for every AIR, trace, options and transcript hash",
  "all protocol histories",
  ["src/starks/prover.rs: prove", "src/starks/verifier.rs: step_1_replay_rounds_and_recover_challenges"])
p("C29", "Transition exemption polynomials agree and vanish exactly on exempted rows",
  "The prover's exemption polynomial for e exemptions vanishes exactly on the last e rows of the trace domain, and the verifier's evaluation of it at any point agrees with the prover's polynomial.",
  "for every domain size, exemption list and point",
  "all sizes and points",
  ["src/starks/traits.rs: AIR::transition_exemptions, transition_exemptions_verifier", "src/starks/constraints/evaluator.rs: evaluate_transition_exemptions"])
p("C30", "Boundary zerofiers vanish exactly at constrained steps",
  "For each column, the boundary zerofier is zero at trace-domain point i iff a boundary constraint on that column names step i. The steps and columns named are listed once each, and columns meet the constraints exactly when they take the listed values at the listed points.",
  "for every constraint list and domain",
  "all constraint sets",
  ["src/starks/constraints/boundary.rs: BoundaryConstraints::compute_zerofier, steps_for_boundary, values, cols_for_boundary"])
p("C31", "The out-of-domain composition check accepts honest proofs",
  "For every trace satisfying the AIR, the composition evaluation the verifier recomputes from the out-of-domain frame equals H1(z^2) + z H2(z^2) of the prover's committed composition parts.",
  "for every AIR of admissible degree, valid trace and challenges",
  "all traces and challenges",
  ["src/starks/constraints/evaluator.rs: ConstraintEvaluator::evaluate", "src/starks/prover.rs: round_2, round_3", "src/starks/verifier.rs: step_2_verify_claimed_composition_polynomial"])
p("C32", "DEEP reconstruction at query points",
  "For every query point outside the excluded set, the verifier's reconstruction of the DEEP composition polynomial from honest openings equals the prover's polynomial at this point, provided the AIR's frame offsets are 0,1,2,...; for other offsets (which the API accepts) the values differ.",
  "for every trace, point and coefficients; offsets 0..k",
  "all points and traces; shipped AIRs all use 0..k",
  ["src/starks/prover.rs: compute_deep_composition_poly", "src/starks/verifier.rs: reconstruct_deep_composition_poly_evaluation"])
p("C33", "End-to-end completeness",
  "If the trace satisfies the AIR, the options are admissible and the prover returns a proof, then the verifier accepts this proof under the same public inputs and options.",
  "for every AIR with degree-bounded polynomial constraints and offsets 0..k, every valid trace, every option set and hash functions",
  "tests prove and verify a few programs",
  ["src/starks/prover.rs: prove", "src/starks/verifier.rs: verify"])
p("C34", "What acceptance guarantees",
  "If the verifier accepts then: the number of query decommitments is at least the configured number, the nonce meets the grinding factor, the out-of-domain identity holds, and for every index/decommitment/opening actually paired, composition-polynomial Merkle openings verify, the FRI folding chain is consistent down to the last value and layer 0 equals the reconstructed DEEP value.",
  "for every proof, public input, options and hash functions",
  "adversarial proofs",
  ["src/starks/verifier.rs: verify, step_2..step_4"])
p("C35", "Universal forgery: empty openings are accepted",
  "Expected: the verifier rejects proofs without openings. Claimed of the code: for every AIR, public inputs, options and transcript there is a proof with no FRI layers, no DEEP openings and an arbitrary trace commitment that the verifier accepts whenever a grinding nonce exists and the out-of-domain denominators are invertible.",
  "for every AIR, public inputs and options",
  "a soundness failure against all statements",
  ["src/starks/verifier.rs: step_3_verify_fri, step_4_verify_deep_composition_polynomial, verify"])
p("C36", "Trace openings are not checked against the trace commitment",
  "Expected: openings of trace rows must verify against the trace Merkle roots. Claimed of the code: replacing the trace authentication paths of a proof by arbitrary ones never changes the verifier's answer.",
  "for every proof and every replacement of authentication paths",
  "adversarial proofs",
  ["src/starks/verifier.rs: step_4_verify_deep_composition_polynomial"])
p("C37", "Grinding nonces",
  "The generated nonce is the least one whose digest has at least grinding_factor trailing zero bits, the verifier accepts exactly such nonces, and no nonce exists for factors above 64.",
  "for every transcript challenge, hash function and factor",
  "2^64 nonces, all digests",
  ["src/starks/grinding.rs: hash_transcript_with_int_and_get_trailing_zeros, generate_nonce_with_grinding"])
p("C38", "Checked security options",
  "new_with_checked_security returns options only if grinding + log2(blowup)*queries - 1 > requested bits for power-of-two blowup (exact acceptance condition), and every preset of new_secure reaches its advertised level; when grinding and blowup bits are both zero the unsigned subtraction wraps in release builds and insecure options are returned.",
  "for every security target, blowup, query count, grinding factor and field size",
  "large parameter space with overflow corners",
  ["src/starks/proof/options.rs: ProofOptions::new_with_checked_security, new_secure, check_field_security"])
p("C39", "Checked provable security is inverted",
  "Expected: new_with_checked_provable_security returns options only when grinding + log2(blowup)*queries/2 reaches the target. Claimed of the code: it uses leading instead of trailing zeros and rejects exactly when the (mis)computed level EXCEEDS the target; so options far below the target are accepted and adequate ones are rejected.",
  "for every parameter tuple",
  "large parameter space",
  ["src/starks/proof/options.rs: ProofOptions::new_with_checked_provable_security"])
p("C40", "Challenge sampling stays in the field",
  "Turning 32 transcript bytes into a field element keeps the low bits, one fewer than the modulus' bit length, and yields a canonical element or rejects; different masked byte strings below the modulus give different elements.",
  "for every 32-byte string",
  "2^256 strings",
  ["src/starks/transcript.rs: transcript_to_field, randomness_to_field"])
p("C41", "Out-of-domain point avoids both domains",
  "The sampled z is not in the trace domain and not in the LDE coset, hence all denominators at z used by prover and verifier for trace terms are nonzero; z^2 is outside the LDE coset when the coset offset is a non-square and the LDE roots are squares, but nothing checks this in general.",
  "for every transcript and domain",
  "all transcripts",
  ["src/starks/transcript.rs: sample_z_ood", "src/starks/domain.rs: Domain::new"])
p("C42", "Domain construction",
  "The trace domain consists of exactly trace_length distinct roots of unity, the LDE domain of blowup*trace_length distinct coset points disjoint from the trace domain when the offset lies outside the subgroup, and every blowup-th LDE point is the offset times a trace-domain point.",
  "for every power-of-two size the field supports",
  "all sizes",
  ["src/starks/domain.rs: Domain::new"])
p("C43", "Trace and memory dumps round-trip",
  "Reading back the register trace and memory bytes written by the runner gives the same register states and memory contents; a trace buffer whose length is not a multiple of a row is rejected.",
  "for every register trace and memory",
  "unbounded lengths",
  ["src/cairo/runner/vec_writer.rs", "src/cairo/register_states.rs: RegisterStates::from_bytes_le", "src/cairo/cairo_mem.rs: CairoMemory::from_bytes_le"])
p("C44", "Declared columns disagree with built columns when only the output segment exists",
  "Expected: the AIR's declared column count equals the width of the trace the prover builds. Claimed: they agree exactly when the range-check builtin segment is present or no segment is; an output-only segment map makes the AIR declare more columns than the trace has.",
  "for every segment map",
  "all segment maps",
  ["src/cairo/air.rs: CairoAIR::new", "src/cairo/execution_trace.rs: build_main_trace"])
p("C45", "Public memory extracted from a run",
  "Public inputs built from a run contain exactly the program cells 1..=len and the output cells with their memory values, the first/last registers of the trace and the step count.",
  "for every run",
  "all programs",
  ["src/cairo/air.rs: PublicInputs::from_regs_and_mem, get_pub_memory_addrs"])
p("C46", "Trace validation is exact",
  "validate_trace returns true iff every boundary constraint holds and every transition constraint vanishes on every non-exempted row of the trace.",
  "for every AIR and trace",
  "all traces",
  ["src/starks/debug.rs: validate_trace"])
p("C47", "Example AIRs: their constraints characterise the computation",
  "For the Fibonacci, two-column Fibonacci and quadratic example AIRs the trace builder's output satisfies the AIR and any satisfying trace is the builder's sequence. For the dummy AIR the second column is forced to be the Fibonacci sequence and the first only to be boolean. For the Fibonacci RAP AIR exactly the first `steps` entries of the first column and the running-quotient relation of the third column are forced.",
  "for every initial value and length",
  "unbounded lengths and adversarial traces",
  ["src/starks/example/simple_fibonacci.rs", "src/starks/example/fibonacci_2_columns.rs", "src/starks/example/quadratic_air.rs", "src/starks/example/dummy_air.rs", "src/starks/example/fibonacci_rap.rs"])
p("C48", "Merkle openings bind",
  "Two accepted openings of the same root at the same index with paths of equal length and different leaf values contain a collision of the leaf or node hash among the hashes evaluated in checking them; an accepted opening of any length of the root of a tree of 2^k leaves opens the committed leaf with a path of length k or makes two evaluated hashes (two nodes, or a node and a leaf) coincide; and honest openings always verify; positions behind the leaves open the last leaf.",
  "for every tree, index, path and hash function",
  "adversarial paths",
  ["src/starks/verifier.rs: verify_query_and_sym_openings", "src/starks/fri/fri_commitment.rs: FriLayer::new"])
p("C49", "Verifier can be made to panic",
  "Expected: verify returns a boolean for every proof. Claimed: there are proofs (decodable from bytes) on which verify panics: no trace commitment, an empty decommitment, a trace length that is zero or divisible by a power of two without root of unity, more FRI layers than the LDE depth (with overflow checks); and on proofs without these shapes verify returns.",
  "for every AIR and options (existence per statement)",
  "adversarial proofs",
  ["src/starks/verifier.rs: verify, step_1_replay_rounds_and_recover_challenges, verify_query_and_sym_openings"])
p("C50", "Public inputs are outside the transcript",
  "Expected: challenges depend on the public inputs. Claimed: two statements whose AIRs differ only in public inputs that do not change the shape (columns, offsets, number of constraints, RAP sampling) derive identical challenges on every proof.",
  "for every proof and every pair of such public inputs",
  "all proofs and statements",
  ["src/starks/verifier.rs: step_1_replay_rounds_and_recover_challenges"])
p("C51", "Fibonacci RAP does not enforce its permutation",
  "Expected: a satisfying trace of the Fibonacci RAP example has a second column that is a rearrangement of the first. Claimed of the code: no boundary constraint closes the running product, so for every second column (and every challenge that is not the negative of one of its entries) a satisfying auxiliary column exists.",
  "for every second column, length and challenge",
  "adversarial traces",
  ["src/starks/example/fibonacci_rap.rs"])
p("C52", "Shipped examples prove and verify end to end",
  "For each example AIR, every power-of-two length, all initial values and usable options: if the prover returns a proof of the builder's trace, the verifier accepts it.",
  "for every length, initial value, options and transcript",
  "unbounded sizes; the repository tests a handful of instances",
  ["src/starks/example/*.rs", "src/starks/prover.rs: prove", "src/starks/verifier.rs: verify"])
p("C53", "Proofs of valid Cairo runs verify",
  "For every VM run obeying the instruction semantics (in any field with more than 2^65 elements, with or without range-check builtin and output segment): the prover's arguments are built, and any proof generate_cairo_proof returns for them with usable options is accepted by verify_cairo_proof. In the Stark field the default options are usable, because 3 is not a square there.",
  "for every program, run, memory, options and transcript",
  "programs and traces are unbounded; the repository tests a dozen programs",
  ["src/cairo/runner/run.rs: generate_prover_args", "src/cairo/air.rs: generate_cairo_proof, verify_cairo_proof", "src/starks/proof/options.rs: default_test_options"])
p("C54", "Command line: prove then verify",
  "A file that the prove command writes for a valid run is read back and accepted by the verify command, whatever iteration orders the hash maps of the public inputs have in the two processes; the answer of the verifier does not depend on that order at all. prove_and_verify never reports failure on a valid run.",
  "for every run, both iteration orders, every 32-byte hash and fixed-width element codec",
  "the iteration order is random per process and no test goes through the files",
  ["src/main.rs", "src/cairo/air.rs: PublicInputs::serialize, deserialize", "src/starks/proof/stark.rs"])
p("C55", "The prover does not panic on valid traces",
  "For an admissible statement whose evaluation domain exists in the field and a trace that satisfies it, prove returns a proof and verify accepts it, unless the auxiliary table cannot be built for the challenges drawn after the commitment to the main table. The four example programs without auxiliary columns are always proved; the RAP example unless its challenge is the negative of a cell of the second column; a Cairo run unless z equals a + alpha v for an accessed or public memory cell, or the range-check challenge equals an offset. Premises: the loops that look for an out-of-domain point and for a nonce end.",
  "for every environment, statement, trace, run and options",
  "panics depend on challenges, on index arithmetic over all lengths and on inversions of field elements",
  ["src/starks/prover.rs: prove, round_1 to round_4", "src/starks/constraints/evaluator.rs", "src/starks/fri/mod.rs", "src/cairo/air.rs: build_auxiliary_trace", "src/main.rs: prove_and_verify"])
p("C56", "False Cairo statements can be proved with an empty execution",
  "Expected: only public inputs of an actual run have accepted proofs. Claimed of the code: for any public inputs of at least two steps (with an offset interval that fits) there is a main trace with selector zero and no instruction on every row such that the prover's own rounds return a proof that verify_cairo_proof accepts, unless the challenge drawn is one of a short list of values; in particular for a statement that no run has.",
  "for every public inputs, options, environment and transcript",
  "adversarial traces; the repository only tests honest ones and mutated proofs",
  ["src/cairo/air.rs: compute_transition, boundary_constraints, verify_cairo_proof"])
p("C57", "The sorted memory columns are committed after the challenges",
  "Expected: the memory argument makes the accesses of the execution single-valued and consistent with the public memory. Claimed of the code: the sorted columns belong to the auxiliary trace, which is built and committed after alpha and z are drawn; so for any main columns, whatever they access, sorted columns and running products exist that satisfy every memory constraint, even if the missing first-row equation is added. The prover's rounds turn them into accepted proofs, in particular of a program that asserts that one cell holds both 3 and 4.",
  "for every main trace, public inputs and challenges outside an explicit list",
  "adversarial auxiliary traces, chosen after the challenges",
  ["src/cairo/air.rs: build_auxiliary_trace, build_rap_challenges, number_auxiliary_rap_columns", "src/starks/prover.rs: round_1_randomized_air_with_preprocessing"])
p("C58", "The constraints are sound once three gaps are closed",
  "If the main and all sorted columns are fixed before the challenges, the selector is one on every stepping row and the first running product is tied to the first entries, then outside explicit bounds on the number of bad challenges (at most 4m^2 values of alpha, 2m of z and 3n of the range-check challenge, m = 4n + public cells) every satisfying trace describes a run: the memory is single-valued at every address but 0 and contains the public memory, the registers start and end as claimed, and each row with a defined instruction takes a step of the machine. The trace of every provable run meets these conditions.",
  "for every trace, public inputs, options and challenges outside the bad lists",
  "quantifies over all adversarial traces and counts challenges in a 252-bit field",
  ["src/cairo/air.rs: compute_transition, boundary_constraints"])
p("C59", "The out-of-domain check binds the constraints",
  "Fix column polynomials of at most m <= n+1 coefficients. If for two different values of the second coefficient of a constraint (everything else equal) some composition polynomials of bounded degree, chosen after the coefficients, make step 2 of the verifier succeed at more points than max(2h+1+n, B+n+m) (h bounds the halves, B the AIR's composition bound), then that constraint holds on the trace the columns stand for. So a violated transition constraint leaves at most one bad value of its coefficient, and if every constraint passes in this way the columns satisfy the AIR.",
  "for every admissible AIR, columns, composition polynomials, coefficients and set of points",
  "soundness: quantifies over all adversarial polynomials and counts points of a large field",
  ["src/starks/verifier.rs: step_2_verify_claimed_composition_polynomial", "src/starks/constraints/evaluator.rs"])
p("C60", "DEEP quotients bind columns and composition halves",
  "Let S be points away from the poles. If the word that step 4 of the verifier expects as first FRI layer is, on S, a polynomial with m coefficients for two values of the coefficient of one column and frame row, then that column is on S a polynomial with m+1 coefficients whose value at the out-of-domain point is the one stated in the proof; likewise for the even and the odd half of the composition polynomial.",
  "for every proof, opening function, set of points and coefficients",
  "quantifies over all openings an adversary may hold ready, at all points of the domain",
  ["src/starks/verifier.rs: reconstruct_deep_composition_poly_evaluation, step_4_verify_deep_composition_polynomial"])
p("C61", "FRI folding binds the first layer to low degree",
  "If a committed word on 2^m points is continued for two different challenges in every one of k rounds such that in every run the verifier's query checks pass at every index, with answers in which no two evaluated hashes coincide, then the word is a polynomial with at most 2^k coefficients.",
  "for every word, tree of continuations, number of rounds and domain",
  "quantifies over all continuations and all query indices",
  ["src/starks/verifier.rs: verify_query_and_sym_openings, step_3_verify_fri", "src/starks/fri/mod.rs: fri_commit_phase"])
p("C62", "An accepted query checks the folding at its point; openings of inner nodes are accepted",
  "If verify accepts and the FRI roots are those of given words, each complete answer either makes two evaluated hashes coincide or shows that at its query point the words fold into each other and into the last value, and that the first word has the DEEP value there; at most (N-k)^q of the vectors of q indices avoid k bad points. Expected: an index has one opening. Claimed of the code: path lengths are not checked, and as two-element leaves and inner nodes are hashed alike, the children of an inner node are an accepted opening whenever they encode field elements.",
  "for every accepted proof, every words and every query",
  "adversarial proofs; the values at points that are not queried",
  ["src/starks/verifier.rs: verify_query_and_sym_openings, step_4_verify_deep_composition_polynomial", "src/starks/config.rs"])
p("C63", "Words that convince the verifier again and again are satisfying traces",
  "Fix words for the trace columns. If, for every constraint, there are two values of its coefficient and for each of them composition words fixed before the out-of-domain point such that at more points than an explicit bound the verifier's steps are passed (step 2 succeeds, and FRI answers every query for the word of step 4, for two values of each of its coefficients), then the words are polynomials with at most n+1 coefficients whose values on the trace domain satisfy every constraint of the AIR. Conversely every satisfying trace yields such words.",
  "for every admissible AIR with polynomial constraints, words, domain and challenges",
  "end-to-end soundness: quantifies over all adversarial words and over families of transcripts",
  ["src/starks/verifier.rs: step_2_verify_claimed_composition_polynomial, step_3_verify_fri, step_4_verify_deep_composition_polynomial, verify_query_and_sym_openings"])
p("C64", "Convincing words for the repaired Cairo AIR describe a run",
  "Fix words for the main and all sorted columns of a Cairo statement. For all but 4m^2 values of alpha, 2m of z and 3n of the range-check challenge, every extension of these words that convinces the verifier again and again (C63) and closes the gaps named in C58 (selectors one on stepping rows, first running product tied to the first entries) describes a run of the Cairo machine on the claimed public memory.",
  "for every public inputs, options, words and challenges outside the bad lists",
  "end-to-end statement about all provers",
  ["src/starks/verifier.rs: verify", "src/cairo/air.rs: compute_transition, boundary_constraints"])
p("C65", "False statements have complete proofs",
  "Expected: once the number of layers, answers and openings is checked, a false statement has no accepted proof except by guessing challenges. Claimed of the code: because the result of checking the trace openings is dropped, for every statement, every trace commitments and every out-of-domain frame there is a proof with all FRI layers, answers, openings and paths of full size which is accepted, as long as at each query point some column has non-zero weight in the DEEP value; in particular for every Cairo statement with range-check bounds.",
  "for every statement, commitments, frame and environment",
  "an adversary's strategy against every statement; tests only try honest proofs",
  ["src/starks/verifier.rs: step_4_verify_deep_composition_polynomial, reconstruct_deep_composition_poly_evaluation, verify"])
p("C66", "Buffers that decode: size, well-formedness and re-encoding of the decoded value",
  "Whatever buffer decodes to a proof, public inputs or a proof file, the decoded value has an encoding that is no longer than the buffer and decodes to the same value (so decoding allocates no more elements than the buffer pays for, and public inputs are well formed: distinct keys, 16-bit bounds); except that a proof with a decommitment without evaluations decodes but makes the serializer panic. An address listed twice in the public memory of a file keeps the last value.",
  "for every byte string and every element codec that reads at least its width",
  "quantifies over all byte strings, including hostile ones; the fuzz targets sample a few",
  ["src/starks/proof/stark.rs: StarkProof::deserialize, StarkProof::serialize", "src/cairo/air.rs: PublicInputs::deserialize", "src/main.rs: main"])
p("C67", "Release arithmetic and the number of steps",
  "Expected: building without overflow checks changes no verdict, and the number of steps in the public inputs is that of the proved run. Claimed of the code: whatever the verifier answers with overflow checks it also answers without; the two agree unless the public inputs claim zero steps or the proof has more FRI layers than the domain has halvings; without checks such layers cause no panic; but the number of steps counts only modulo the claimed trace length, so an accepted proof is accepted for more steps than the trace has rows and, without overflow checks, a proof of a run that fills its trace is accepted for zero steps.",
  "for every statement, proof, trace length 2^r and pair of step counts",
  "tests run the debug profile on honest step counts",
  ["Cargo.toml: profile.release", "src/starks/verifier.rs: verify, verify_query_and_sym_openings", "src/cairo/air.rs: CairoAIR::boundary_constraints"])
p("C68", "What a claimed trace length costs the verifier",
  "Expected: the verifier's work is bounded in terms of the size of the proof it reads. Claimed of the code: replacing the claimed trace length of any proof changes eight bytes of its encoding; before any check but that on the number of answers the verifier builds one list with as many elements as the claimed length and one with that times the blowup factor; so for every power of two of which the field has roots there is a buffer of one and the same size (552 bytes with the options of the command line) that makes it build lists of that many elements.",
  "for every proof, field, blowup factor and trace length 2^r below 2^64",
  "tests use lengths of honest proofs; the largest claims exhaust memory before any assertion runs",
  ["src/starks/verifier.rs: verify", "src/starks/domain.rs: Domain::new", "src/starks/proof/stark.rs: StarkProof::deserialize"])
p("C69", "The command as a whole",
  "Expected: verify exits with a failure status when verification fails, and the file extension decides how a program is run. Claimed of the code: verify changes no file and prints success exactly if the file decodes to a proof and public inputs that the verifier accepts, and failure exactly if it rejects them; only prove writes, only to its output path, the file of the proof it made; after a prove that reports having written, verify on the output prints success, and prove_and_verify never prints failure, for every VM and program with a provable run; but the exit status is 0 for missing, undecodable, rejected and accepted files alike, and a program is run as Cairo 1 exactly if .casm occurs anywhere in its path, so also below a directory of such a name.",
  "for every file system, argument list, VM, program and hash-map order",
  "no test runs the binary; quantifies over all programs and file contents",
  ["src/main.rs: main, generate_proof, verify_proof", "src/cairo/runner/run.rs: run_program, generate_prover_args"])
p("C70", "Addresses of the range-check segment",
  "The range-check range of the public inputs addresses, in the memory the code loads, exactly the cells of the builtin's segment below its stop offset, in order, whatever the other segments are; it lies behind the program segment; it is the only segment the command declares. Expected: the range covers the cells the program range-checked. Claimed of the code: if the VM recorded no stop offset the range is empty whatever the segment holds.",
  "for every list of segments, segment index and stop offset",
  "tests have one or two segment layouts",
  ["src/cairo/runner/run.rs: run_program, create_memory_segment_map", "src/cairo/air.rs: PublicInputs::from_regs_and_mem"])
p("C71", "Proximity survives random combination and folding",
  "For two words that are not both low-degree where their random combination is, at all but e of N points with 3e + d <= N, at most e + 1 coefficients can be the cause; in every FRI round at most e/2^(i+1) + 1 challenges are exceptional for the committed word; and in one run of FRI, with any words whatsoever, if the verifier's checks can be answered at all but e positions and no challenge is exceptional, the first word is, at these positions, a polynomial with as many coefficients as the rounds allow.",
  "for every field, domain, error e with 3e + d <= N, words, challenges and answers",
  "tests fold honest polynomials only; the claim is about all words and all but few challenges",
  ["src/starks/fri/mod.rs: fri_commit_phase", "src/starks/verifier.rs: verify_query_and_sym_openings, step_3_verify_fri"])
p("C72", "Round-by-round soundness of the verifier",
  "For a single accepted proof: if the openings are what the commitments say and no challenge is exceptional given what is fixed before it, then all columns agree at all but e points with polynomials that satisfy every boundary and transition constraint, or all queries fell among the fewer than N - e positions where the committed words are consistent (at most (N-e-1)^q of the N^q vectors of queries). Each challenge has few exceptional values: one for every constraint coefficient, the out-of-domain bound for z, e + 1 for each DEEP coefficient, e/2^(i+1) + 1 for each FRI challenge. Whatever the prover returns for a valid trace is such a run, without exceptional challenges, and its columns are those of the trace.",
  "for every admissible AIR, proof, committed words, error e with 3e + 2^r <= 2^(r+b)",
  "soundness quantifies over all dishonest provers; tests can only try some",
  ["src/starks/verifier.rs: verify, step_1_replay_rounds_and_recover_challenges, step_2_verify_claimed_composition_polynomial, step_3_verify_fri, step_4_verify_deep_composition_polynomial"])
p("C73", "Round-by-round soundness of the two AIRs",
  "C72 read for Fibonacci: the committed column is, but for e values, a polynomial whose values on the trace domain are the Fibonacci numbers, unless all queries were lucky. For Cairo: with the first-phase words fixed, all but few alpha, z and zrc make every accepted, truthful, unexceptional proof describe a run of the Cairo machine with the declared public inputs, unless all queries were lucky; given that the selector column is 1 on all steps and the permutation argument is anchored in the first row (which the code does not enforce, see C58). The proof of a provable run meets all these premises but the excluded challenges.",
  "for every proof, public inputs, committed words and error e with 3e + 2^r <= 2^(r+b)",
  "as C72",
  ["src/starks/verifier.rs: verify", "src/starks/example/simple_fibonacci.rs: FibonacciAIR", "src/cairo/air.rs: CairoAIR"])
p("C74", "What the openings bind, and that the commitments would suffice",
  "The verifier checks the openings of the composition polynomial: in an accepted proof whose root commits to two words the opened values are those of the words, or hashes coincide. It also computes whether the openings of the columns check, and forgets the result (C36). With that result, complete answers and no coincidences the opened columns are the committed ones, and then acceptance alone yields the satisfying trace of C72, unless a challenge is exceptional or the queries lucky. Keeping the result would not reject any honest proof: for these it is always true, given that the air builds as many auxiliary columns as it announces, as Cairo's does.",
  "for every AIR, proof, committed words, query and hash function",
  "the forgotten result leaves no trace in what the verifier returns, so no test of the verifier sees its value; binding quantifies over all openings",
  ["src/starks/verifier.rs: step_4_verify_deep_composition_polynomial", "src/starks/prover.rs: open_deep_composition_poly, interpolate_and_commit"])
p("C75", "Compile-time features and debug assertions do not change proofs and verdicts",
  "Expected: every build of the crate returns the same proofs and the same verdicts. Claimed of the code: with and without the feature `parallel` the constraint evaluator and the prover compute the same; a proof or verdict returned by a build with debug assertions is the one a release build returns; a debug build returns the proof whenever tables and declarations fit together, whether or not the trace satisfies its constraints (the verdict of `validate_trace` is dropped), and so for every provable Cairo run. It can stop where a release build goes on: when a boundary constraint names a row beyond the table, and in the Cairo verifier exactly when a proof with enough queries claims a length that is no power of two.",
  "for every AIR, trace, proof, public input and build",
  "tests run one build at a time",
  ["src/starks/constraints/evaluator.rs: evaluate", "src/starks/prover.rs: prove", "src/starks/debug.rs: validate_trace", "src/starks/trace.rs: new_from_cols", "src/cairo/air.rs: CairoAIR::new", "src/starks/verifier.rs: verify"])
p("C76", "The Fiat-Shamir schedule and what it binds",
  "Expected: every challenge depends on all the prover has sent before, and on all of it. Claimed of the code: whenever the verifier derives challenges, and whenever the prover returns a proof, the transcript absorbs in order the first trace root, the second one if there is one, the composition root, the even and odd values and the complete rows of the frame at the out-of-domain point, the FRI roots, the last value and the nonce; between them digests are squeezed, one for each challenge, none is skipped or used twice; a field element is the low bits-1 bits of its digest, a position its first eight bytes modulo the domain size, the zeros those of the hash of the grinding digest with the nonce. With the transcript of lambdaworks-crypto over a hash function, equal digests at the end of a round mean equal messages up to there, or a collision. Nothing else enters: the row width of the frame, incomplete rows, further roots and the claimed length are not absorbed, so proofs with the same challenges, openings and decommitments can have different verdicts. Positions and numbers below 2^(bits-1) have equally many preimages; positions may repeat.",
  "for every AIR, proof, hash function and number of challenges",
  "an omission on both sides leaves all honest proofs accepted, so no test of prover and verifier together notices it",
  ["src/starks/verifier.rs: step_1_replay_rounds_and_recover_challenges", "src/starks/prover.rs: prove, round_1..round_4", "src/starks/transcript.rs: transcript_to_field, transcript_to_usize, batch_sample_challenges", "src/starks/grinding.rs"])
p("C77", "The soundness error of the interactive protocol",
  "Let a prover answer each of the verifier's challenges by a function of the challenges before it: with words for the columns, for the halves of the composition polynomial and for the FRI layers, and with the values at the point. If, of the challenges of the randomized AIR, at most rho in size let its columns be within e errors of a trace that satisfies every constraint, then, of all tapes of challenges with entries from any sets of at least size elements (the point from outside of the domain) and all vectors of q positions, the fraction for which the verifier's out-of-domain check and all consistency checks at the positions succeed is at most (rho + weight)/size + ((N-e-1)/N)^q, where the weight is one per constraint, the out-of-domain bound, e + 1 per DEEP coefficient and e/2^(i+1) + 1 per folding. An accepted proof that states and commits to what the strategy says for its challenges, and opens it truthfully, is such a win. For Fibonacci rho is 0 unless the column is near the Fibonacci numbers, and the weight is at most 3*2^r + 6e + r + 11. For Cairo rho is 4m^2 + 2m + 3*2^r, with m the number of memory accesses, unless the first-phase words stand for a run of the machine; given the selector and the first row of the memory argument, which the code does not enforce (C57, C58).",
  "for every adaptive strategy, admissible AIR, error e with 3e + 2^r <= 2^(r+b), number of queries and sample sets",
  "a fraction over all tapes of challenges and all adaptive strategies; tests see one tape of one prover",
  ["src/starks/verifier.rs: verify, step_1_replay_rounds_and_recover_challenges, step_2_verify_claimed_composition_polynomial, step_3_verify_fri, step_4_verify_deep_composition_polynomial", "src/starks/example/simple_fibonacci.rs: FibonacciAIR", "src/cairo/air.rs: CairoAIR"])
p("C78", "Which part of a Cairo statement a proof is about",
  "Expected: a proof is about the whole statement, so that it is accepted for no other. Claimed of the code: statements with the same pc and ap at the start and the end, the same bounds of the range check, the same number of steps and the same public cells in any order get the same verdict on every proof, as long as both or none declare a memory segment. So the names and the address ranges of the segments are not bound, nor (unless the challenge is 0) whether and how often the cell with address 0 and value 0 is public. The rest is bound: but for at most 4m^2 values of alpha, m the number of public cells of both, and for each other alpha at most 2m + 1 values of z, no columns satisfy the constraints of two statements with equally many steps and the same layout unless these agree on the registers, the bounds and the public cells other than (0, 0).",
  "for every two statements, proof, options and table of columns",
  "quantifies over all statements for one proof; the tests verify a proof against its own statement or against one other",
  ["src/cairo/air.rs: CairoAIR::new, PublicInputs, boundary_constraints, compute_transition, verify_cairo_proof", "src/starks/verifier.rs: verify"])
p("C79", "What the CPU constraints do with undefined instructions",
  "Expected: a row whose instruction the Cairo architecture leaves undefined is rejected, so that a proof is about a run of the machine whatever the program. Claimed of the code: nothing relates the flags of a group. Every word without the flags of conditional jump, call and assertion is executed in every state with all operands, with the flags of a group added up; a trace of a program whose first word sets the flags of both the sum and the product, and which the decoder rejects, satisfies every constraint (also with the repairs of C57 and C58). A conditional jump with the flag of ap += res passes the decoder, and if it does not jump, the constraints allow any next ap. On the other hand the next registers are determined by memory for every word which is not a conditional jump with a second jump flag or the flag of ap += res, and if the sum of each group of flags were constrained to be a bit, the flags would be allowed.",
  "for every instruction word, state, operands, table of columns and challenges",
  "the VM that makes the traces of the tests rejects undefined instructions, so no test ever contains one",
  ["src/cairo/air.rs: compute_instr_constraints, compute_operand_constraints, compute_register_constraints, compute_opcode_constraints", "src/cairo/decode/instruction_flags.rs: CairoInstructionFlags::try_from"])
p("C80", "The error of the protocol is at least that of guessing positions",
  "Expected: options that pass a check for a security level make cheating as unlikely as the level says. Claimed of the code: for every air that the protocol can be played for, every words that a prover commits to as columns and halves of the composition polynomial, whatever the claim, there are stated values and FRI layers that win with every tape of challenges (the point outside the trace domain, the boundary constraints computable) as soon as all queried positions are multiples of the blowup factor; so a fraction of exactly 2^(-b*q) of all challenges and positions, with blowup 2^b and q queries, is won. The bits counted by the conjectured check are therefore an upper limit. The check of the provable level accepts blowup 2 with a single query at every level from 3 bits on (the field being large enough), and then half of all runs are won.",
  "for every air, committed words, tape, samples of the challenges, number of queries, blowup factor and level",
  "a test sees one tape; the strategy must answer every prefix of every tape, and the fraction is over all of them",
  ["src/starks/verifier.rs: step_2_verify_claimed_composition_polynomial, step_3_verify_fri, step_4_verify_deep_composition_polynomial", "src/starks/fri/fri_functions.rs: fold_polynomial", "src/starks/proof/options.rs: new_with_checked_provable_security"])
p("C81", "The size of a proof",
  "Whatever the prover returns for a valid trace has all its parts (one FRI layer per bit of the trace length, one answer and one opening per query, paths of full length), so it can be encoded, and the length of the encoding is an explicit function of the number of rows and columns, the options and the width of field elements: it depends on nothing else of trace and claim, and doubling the rows adds a number of bytes linear in their logarithm. A Cairo proof has 52 columns, 61 with a range-check segment, in two trees.",
  "for every AIR, valid trace, options and hash with 32-byte digests",
  "sizes of sample proofs say nothing about other lengths and options",
  ["src/starks/prover.rs: prove, round_4_compute_and_run_fri_on_the_deep_composition_polynomial", "src/starks/proof/stark.rs: serialize", "src/starks/fri/mod.rs: fri_commit_phase, fri_query_phase"])
p("C82", "The error of the non-interactive protocol with an ideal hash function",
  "Let the challenges that follow each message be the reply of an oracle to all messages and challenges before it, and let a prover ask the oracle Q questions, in any order, about any messages and depending on earlier replies, before it claims a proof. If the columns behind the first root of the claim cannot be completed to a solution (except for a share rho of the challenges of the randomized AIR), then the share of the oracle's replies for which the claim wins is at most Q times the larger of two numbers: the largest share of exceptional values for the challenges that follow one message, and ((N-e-1)/N)^q for the positions. An accepted proof whose challenges are the oracle's replies is such a claim. For the Fibonacci air the exceptional values number at most max(3*2^r+3, 5(e+1)); for the Cairo air the same holds with rho as in C77. A prover with a fixed script of messages needs one question per message.",
  "for every AIR that is playable, every adaptive prover, every number of questions, every words behind the commitments and every lists the oracle draws from",
  "the bound counts the replies of an ideal function to an unbounded prover that chooses its questions",
  ["src/starks/verifier.rs: step_1_replay_rounds_and_recover_challenges", "src/starks/transcript.rs: Transcript", "src/starks/prover.rs: prove", "src/starks/fri/mod.rs: fri_commit_phase"])
p("C83", "Code without an effect: a divisibility check, a sum and a file writer",
  "Expected: the debug build reports the boundary constraints whose polynomial is not divisible by its zerofier. Claimed of the code: the check would report exactly the constraints whose polynomial does not vanish at the point of its zerofier, but its only call passes two empty lists, so nothing is ever reported. The function that sums the quotients of the constraints has no caller; it computes the sum its comment describes, and what the verifier computes for boundary and for transition constraints is that sum for the stated numerators, denominators and degree adjustments. The file writer, which nothing uses either, appends what it is given and counts it, and the index in its error is the number of bytes written before.",
  "for every list of polynomials and points, constraint evaluations, denominators, adjustments and coefficients, every AIR, and every sequence of writes",
  "no test calls these functions, and the debug check prints instead of failing",
  ["src/starks/debug.rs: check_boundary_polys_divisibility", "src/starks/constraints/evaluator.rs: compute_constraint_composition_poly_evaluations_sum, evaluate", "src/starks/verifier.rs: step_2_verify_claimed_composition_polynomial", "src/cairo/runner/file_writer.rs: FileWriter"])
p("C84", "What a proof tells about the trace",
  "Expected of a zero-knowledge proof system: a proof tells nothing about the trace but that the claim holds. Claimed of the code: the prover draws no randomness and does not blind the columns. If the queried positions and the points outside the domain at which a proof states the columns contain as many different points as the trace has rows, then anyone can compute every column from the proof by replaying the transcript and interpolating. With fewer points a guess of the trace can still be confirmed: proofs of two valid traces of the same claim have the same first root exactly if the traces are equal, unless two of the hashes evaluated in committing to them coincide. Two traces of one claim with different proofs exist.",
  "for every AIR, valid trace, options and number of queries",
  "no test looks for the trace in a proof; what the openings determine follows from interpolation at all positions",
  ["src/starks/prover.rs: prove, interpolate_and_commit, open_deep_composition_poly", "src/starks/verifier.rs: step_1_replay_rounds_and_recover_challenges", "src/starks/proof/stark.rs: StarkProof, DeepPolynomialOpenings"])
p("C85", "What asking for positions again and again wins",
  "A prover may draw the positions of the queries as often as it likes, with another nonce each time, after all other challenges are known. Claimed: with the transcript replaced by an oracle, a prover that commits to arbitrary columns, guesses that all positions are multiples of the blowup factor and tries N nonces fails for at most a fraction of (1 - 2^(-b q))^N of all replies, where 2^b is the blowup factor and q the number of queries; so the bound of C82 cannot be improved below the guessing bound. With one query and blowup factor two, which the constructors accept as offering any provable level from three bits on, N nonces fail for at most one reply in 2^N.",
  "for every AIR, trace length, blowup factor, number of queries, choice of columns and number of nonces",
  "the space of replies of the oracle cannot be enumerated and no test is a dishonest prover",
  ["src/starks/prover.rs: round_4_compute_and_run_fri_on_the_deep_composition_polynomial", "src/starks/grinding.rs", "src/starks/verifier.rs: step_1_replay_rounds_and_recover_challenges", "src/starks/proof/options.rs: new_with_checked_provable_security"])
p("C86", "What a Merkle root binds when the tree may have any shape",
  "Expected: without collisions of the hash function a root determines the value that can be opened at each position. Claimed of the code: openings are checked without looking at the length of the path, so that a prover can put any number of words behind one root, and every position but 0 then opens to the values of all of them, for every hash function; an answer to a query can use any two prepared values that fold into the last one. Only position 0 is bound. Paths of one length bind: whoever knows the evaluated hashes can compute the value that an opening of that length shows at each position, unless two of them collide. If the verifier checked the lengths of the paths, and used the check of the columns that it computes and forgets (C36), then every accepted proof, whatever its roots are roots of, would win the game of C82 with the words computed in this way. Both checks pass for proofs whose roots commit to words, such as honest ones.",
  "for every hash function, number of levels, list of words, position, and every AIR, proof and set of evaluated hashes",
  "tests only open trees that the library has built; the dishonest roots and the words behind arbitrary roots are not in reach of examples",
  ["src/starks/verifier.rs: verify_query_and_sym_openings, step_3_verify_fri, step_4_verify_deep_composition_polynomial", "src/starks/fri/fri_decommit.rs: FriDecommitment", "src/starks/config.rs: FriMerkleTreeBackend, BatchedMerkleTreeBackend"])
p("C87", "Which results a Cairo statement can claim",
  "Expected: a statement that can be proved names the registers with which the program ends. Claimed: the memory and the first registers determine a run. If a table describes a run (as in C58) and its memory has all cells that the machine reads when started with the same registers, then it shows the machine's registers in every step; so if the machine reads only public cells, other than cell 0, the claimed final pc and ap are the machine's, and with the repairs of C58 another claim fails for all but few challenges. The first fp, which the code does not bind (C25), is needed for this: two provable runs of one public program that start with the same pc and ap end with different pc.",
  "for every program, memory, run, public inputs, table and challenges outside the bad lists",
  "tests run given programs forward; that no other table shows another result quantifies over all tables",
  ["src/cairo/air.rs: CairoAIR::boundary_constraints, compute_transition", "src/cairo/air.rs: PublicInputs", "src/cairo/execution_trace.rs: build_main_trace"])
p("C88", "What can be added to and left out of an accepted proof",
  "Expected: an accepted proof cannot be changed into another accepted one, and a proof without its openings is rejected. Claimed of the code: the verifier's answer does not depend on trace commitments from the third on, queries and openings beyond the configured number, layers beyond the committed ones, parts of a layer without counterparts, and trace paths. So any number of queries can be appended to an accepted proof. Openings and layers only cause rejections: an accepted proof stays accepted if any number of openings are left out from the end, and of each query any number of last layers. In particular all openings and all authentication paths can be left out of every accepted proof.",
  "for every AIR, options, accepted proof and every such change",
  "tests verify honest proofs as they are; the claim is about all changes of all accepted proofs",
  ["src/starks/verifier.rs: verify, step_3_verify_fri, verify_query_and_sym_openings, step_4_verify_deep_composition_polynomial", "src/starks/proof/stark.rs: StarkProof, DeepPolynomialOpenings", "src/starks/fri/fri_decommit.rs: FriDecommitment"])
p("C89", "How proofs and verdicts depend on the security parameters",
  "Expected: a proof made for one number of queries does not pass at a higher one. Claimed of the code: a proof accepted with some number of queries and grinding factor is accepted with any smaller ones. The proof for fewer queries is the proof for more, cut after them. A proof returned by the prover is rejected by a verifier asking for more queries. But any accepted proof, extended by answers that consist of one arbitrary value each, is accepted with any larger number of queries. The six levels of new_secure differ in the number of queries alone, so with the default coset a Cairo proof accepted at the lowest level is turned into one accepted at the highest without the trace.",
  "for every AIR that only stores its options, all options, traces and accepted proofs",
  "the one test in the repository with two levels takes an unchanged proof of one program; the claim is about all proofs, levels and additions",
  ["src/starks/proof/options.rs: ProofOptions::new_secure", "src/starks/verifier.rs: verify, step_1_replay_rounds_and_recover_challenges", "src/starks/fri/mod.rs: fri_query_phase", "tests/integration_tests.rs: test_verifier_rejects_proof_with_different_security_params"])
p("C90", "Which other statements an accepted proof is accepted for",
  "Expected: an accepted proof is accepted for one statement. Claimed of the code: the verdict on an accepted proof for another statement about the same cells is decided by one linear equation in the differences of the boundary values. So a proof of a Fibonacci sequence is accepted exactly for the pairs of first values on a line, never for one pair only. A Cairo proof is accepted for all public inputs with the same number of steps and layout whose claims satisfy one such equation; segments and the first frame pointer do not enter it. If they differ in one claim only, it is rejected unless one combination of two coefficients with the n-th power of the out-of-domain point is 0. But every accepted Cairo proof, including all proofs of provable runs, is also accepted for a final pc and ap that no run can have, because they do not fit in 64 bits.",
  "for every AIR, options, accepted proof and every other statement about the same cells",
  "tests verify a proof for the statement it was made for or for one other; the claim determines the verdict for all statements and all accepted proofs",
  ["src/starks/verifier.rs: verify, step_1_replay_rounds_and_recover_challenges, step_2_verify_claimed_composition_polynomial", "src/cairo/air.rs: CairoAIR::boundary_constraints, PublicInputs", "src/starks/example/simple_fibonacci.rs: boundary_constraints"])
p("C91", "Which tables the repaired Cairo constraints accept, and what they leave open about cell 0",
  "Expected: once the gaps of C58 are closed, an accepted table gives every memory cell one value. Claimed: for all but few challenges the repaired constraints accept exactly the tables that fit: registers begin and end as claimed, the constraints of single steps hold, the sorted columns go up in steps of one without two values at one address, and they list the accesses, with as many accesses to (0, 0) as there are public cells exchanged for the public memory. So every cell other than 0 has one value. Cell 0 need not: if an access gives it a value other than 0, then exactly as many accesses give it 0 as there are public cells. A loop that reads cell 0 as 0 in its first rows and as 5 in the later ones is accepted. If (0, 0) is an entry of the sorted columns, as in an honest table, cell 0 has one value too.",
  "for every public input, number of rows, table, and challenges outside lists of bounded length",
  "tests check that honest tables satisfy the constraints; which tables do is a statement about all tables and all challenges",
  ["src/cairo/air.rs: CairoAIR::build_auxiliary_trace, boundary_constraints, compute_transition, add_pub_memory_in_public_input_section", "src/cairo/air.rs: memory_is_increasing, permutation_argument, permutation_argument_range_check", "src/cairo/execution_trace.rs: add_pub_memory_dummy_accesses"])
p("C92", "Which tables, execution columns and statements the Cairo constraints of the code accept",
  "Expected: only statements of runs have tables that satisfy the constraints. Claimed of the code: if the execution columns and the sorted columns are fixed before the challenges, then for all but few challenges exactly those tables are accepted that fit but for the memory: the sorted memory columns need not list the accesses. As the code is, the sorted columns are chosen after the challenges; then the execution columns are accepted exactly if they begin, end and step as they should and some values that climb from the lower to the upper offset bound have the same product as the offsets at the one point that is known. A statement has accepted tables exactly if its steps fit in the rows, the offset bounds are ordered and closer than three times the number of rows, and, if there is one step, the registers end as they begin. The public memory, and from two steps on the registers, do not matter.",
  "for every public input, number of rows, table, and challenges outside lists of bounded length",
  "tests check honest tables; which statements have some table that satisfies all constraints is a statement about all tables",
  ["src/cairo/air.rs: CairoAIR::boundary_constraints, compute_transition, transition_exemptions, build_auxiliary_trace", "src/cairo/air.rs: memory_is_increasing, permutation_argument, permutation_argument_range_check"])
p("C93", "Soundness error of the example AIRs, and what the randomized one does not guarantee",
  "Expected: a prover whose committed columns do not decode to the computation convinces the verifier of an example AIR only with a small chance, and for the randomized example the computation includes that the second column rearranges the first. Claimed of the code: in the interactive protocol and against a prover with oracle queries the chance is bounded, with explicit numbers, for the two-column Fibonacci, the quadratic and the dummy AIR; for the randomized one the same bound holds for the first `steps` entries of the first column only: a table with any second column whatsoever is proved and accepted by the code, unless the challenge is the negative of one of its entries.",
  "for every number of rows, blowup factor, decoding radius, prover strategy, number of queries and set of challenges",
  "tests run the honest prover; a bound on the chance of any prover is a statement about all strategies, and a test with a wrong second column was not written",
  ["src/starks/example/fibonacci_2_columns.rs: Fibonacci2ColsAIR", "src/starks/example/quadratic_air.rs: QuadraticAIR", "src/starks/example/dummy_air.rs: DummyAIR", "src/starks/example/fibonacci_rap.rs: FibonacciRAP", "src/starks/verifier.rs: verify"])
p("C94", "What verification says about proofs made from tables that violate a constraint",
  "If the prover's own code is run on a rectangular table whose completion (with the auxiliary columns built for the drawn challenges) violates a transition or boundary constraint, the proof is accepted only if the second coefficient drawn for that constraint and the out-of-domain point form a passing pair; of all pairs of a coefficient from any set S and a point from any set Z at most |Z| + B |S| pass, where B is an explicit number of the order of the size of the evaluation domain. In particular this holds for a Cairo table in which one range-checked value is not the one its eight limbs stand for. No assumption on the hash functions is made.",
  "for every AIR meeting the stated conditions, every rectangular table, every violated constraint, every transcript and all sets S and Z; for every Cairo table and every row of it",
  "the integration tests change one cell of one trace of one program (a range-checked value, an output) and see the proof rejected; they cannot say how many of the possible challenges would have let it through",
  ["tests/integration_tests.rs: test_verifier_rejects_proof_with_changed_range_check_value", "src/starks/prover.rs: round_1_randomized_air_with_preprocessing, round_2_compute_composition_polynomial", "src/starks/verifier.rs: step_2_verify_claimed_composition_polynomial", "src/cairo/air.rs: evaluate_range_check_builtin_constraint"])
p("C95", "Tables whose accesses contradict each other or the public memory, and tables with other end registers",
  "Count as used the cells that the rows of a Cairo table access (but for the last accesses, as many as there are public cells, whose place the public memory takes) and the public cells. If one address is used with two values, then whatever the challenges the auxiliary columns that the prover adds violate one of the four constraints that make the sorted memory single-valued; if an address between two used ones is not used, they violate one of the four constraints that make the sorted addresses continuous. In both cases, and likewise when the first or last pc or ap in the table is not the one in the public inputs, the proof made from that table is accepted only if the coefficient drawn for a violated constraint and the out-of-domain point are one of the few passing pairs of C94. So a changed output or program word is caught although its constraint is about the sorted columns only. (Finding: the integration test named for a changed output looks for the first address column that is not 19, so that it changes the pc of the first row (unless that is 19) and not an output; that case is the one about the registers.)",
  "for every Cairo table of the declared width, all public inputs, all challenges, every contradicting pair of cells, every skipped address and all four register claims",
  "the integration test changes one cell of one trace of one program and does not change the cell it is named for; a contradiction can be between any two of the accesses and public cells, and where it ends up in the sorted columns depends on all the others",
  ["tests/integration_tests.rs: test_verifier_rejects_proof_with_changed_output", "src/cairo/air.rs: add_pub_memory_in_public_input_section, sort_columns_by_memory_address, build_auxiliary_trace, boundary_constraints, memory_is_increasing"])
p("C96", "The last accesses of a table, whose place the public memory takes",
  "The prover puts the public memory in the place of the last accesses of the table without looking at them. When the public addresses are those of the public memory, each once, the auxiliary columns it builds meet the boundary constraint on the last running product exactly if the product of z - (a + alpha v) over those accesses (a, v) is z to their number. If one of them is not an access to the cell (0, 0), then for every alpha but one this holds for no more values of z than there are public cells. The proof made from such a table is accepted only for those challenges, or if the coefficient drawn for that constraint and the out-of-domain point are one of the few passing pairs of C94. The table that the code builds from a provable run is such a table: it ends in accesses to (0, 0), has offsets below 2^16, and is sound as soon as the columns can be completed for some drawn challenges.",
  "for every Cairo table of the declared width, all public inputs whose public addresses agree with the public memory, and all challenges",
  "the tests only use tables that end in dummy accesses; that anything else there is refused depends on the number of roots of a polynomial in the challenges",
  ["src/cairo/air.rs: add_pub_memory_in_public_input_section, generate_memory_permutation_argument_column, boundary_constraints", "src/cairo/execution_trace.rs: add_pub_memory_dummy_accesses"])
p("C97", "Tables whose instruction offsets are not in the claimed range",
  "The prover sorts the low sixteen bits of the offset cells of a Cairo table. Whatever the challenges, the auxiliary columns it builds meet the boundary constraints on the ends of the sorted offsets exactly if the claimed bounds are the least and the greatest of these half-words; if a value between two of them is none of them, one of the three constraints that make the sorted offsets continuous is violated; and they meet the boundary constraint on the last running product exactly if the product of z - x over the offsets x equals the product over their half-words, which, if some offset is not below 2^16, holds for no more values of z than there are offsets. The proof made from a table that fails one of these conditions is accepted only for those z, or if the coefficient drawn for the constraint and the out-of-domain point are one of the few passing pairs of C94.",
  "for every Cairo table of the declared width, all claimed bounds, all offsets and all challenges",
  "the tests range-check the offsets of a few valid programs; truncation to sixteen bits hides a wrong offset from the sorted columns, and only the count of roots shows that it is found out",
  ["src/cairo/air.rs: build_auxiliary_trace, generate_range_check_permutation_argument_column, boundary_constraints, permutation_argument_range_check"])
p("C98", "Which tables the prover's own proofs are accepted for",
  "For a Cairo table of the declared width and public inputs with the claimed bounds below 2^16, between one step and as many as rows, and public addresses that are those of the public memory, each once: the table that the prover completes satisfies every constraint exactly if (1) the execution columns are sound, which does not depend on the challenges: the claimed registers are in the claimed cells, the row constraints hold, the kept accesses and the public cells give no address two values and leave no address out, and the low half-words of the offsets go from the lower claimed bound to the upper without a gap, (2) the accesses left out pass as accesses to the cell (0, 0), and (3) the offsets pass as their low half-words. Every proof that the prover makes of sound columns that end in accesses to (0, 0) and have offsets below 2^16 is accepted. Conversely, a proof that the prover makes from any such table is accepted only if (1), (2) and (3) hold, or if the coefficient drawn for a violated constraint and the out-of-domain point are one of the few passing pairs of C94.",
  "for every Cairo table of the declared width, all public inputs in the stated ranges, all options that can be used, all challenges",
  "the tests prove and verify a few honest programs and one table with a changed cell; no finite set of tables shows that the conditions are exactly what the constraints ask for",
  ["src/cairo/air.rs: build_auxiliary_trace, boundary_constraints, compute_transition, generate_cairo_proof, verify_cairo_proof", "src/starks/prover.rs: prove", "src/starks/verifier.rs: verify"])

p("C99", "What the declared number of rows makes the Fibonacci RAP verifier do",
  "Expected: an air can be built for every trace length that a proof declares, and the verifier's work does not grow with the rows that a constraint skips. Claimed of the code: FibonacciRAP::new computes 3 + trace_length - steps - 1. With steps <= trace_length + 2 it is the air of the other properties in both build profiles; with fewer rows it panics if overflow checks are on, so that a proof with enough queries and a small trace_length makes the verifier panic (and a small table the prover); without them it exempts 2^64 + 2 + trace_length - steps rows. For every air, the verifier computes one polynomial of each degree from 1 to the largest number e of exempted rows, e(e + 3)/2 coefficients, although it uses at most one per constraint: for the Fibonacci RAP (n + 2 - steps)(n + 5 - steps)/2 where n is declared by the proof; for the Cairo air two.",
  "for every environment, profile, number of steps and rows, table and proof",
  "the tests use one honest table whose length fits the number of steps",
  ["src/starks/example/fibonacci_rap.rs: new", "src/starks/traits.rs: transition_exemptions_verifier", "src/starks/verifier.rs: verify", "src/starks/prover.rs: prove"])

p("C100", "What the benchmarks of the verifier time",
  "Expected: the benchmarks of the verifier time the acceptance of a proof. Claimed of the code: they read a file as the command does, and panic where it prints an error, but check the proof with options for 80 queries and discard the result. On every file with fewer than 80 answers the timed call returns false, whatever else is in the file. The files that the command writes for provable runs have three answers: the command accepts each of them, and the benchmarks time its refusal.",
  "for every environment, every file, every order of the public maps, every provable run",
  "a benchmark discards the value it computes, so no run of it shows which value this is",
  ["benches/criterion_verifier.rs: load_proof_and_pub_inputs, run_verifier_bench", "benches/criterion_verifier_70k.rs: load_proof_and_pub_inputs, run_verifier_bench", "src/starks/verifier.rs: verify", "src/starks/proof/options.rs: new_secure", "src/main.rs: generate_proof"])

out = os.path.join(os.path.dirname(__file__), "..", "properties.jsonl")
with open(out, "w") as f:
    for r in P: f.write(json.dumps(r) + "\n")
print(len(P))
