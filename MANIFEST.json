{
 "claims": [
  {
   "property": "C01",
   "status": "proved",
   "theorems": [
    "C01_stark_proof_round_trip",
    "C01_stark_serialize_injective",
    "C01_proof_in_a_longer_buffer"
   ],
   "note": "For every proof meeting the Rust type invariants whose encoding fits in 64-bit lengths and every fixed-width element codec."
  },
  {
   "property": "C02",
   "status": "proved",
   "theorems": [
    "C02_frame_round_trip",
    "C02_fri_decommitment_round_trip",
    "C02_fri_serialize_panics_iff_empty",
    "C02_deep_openings_round_trip",
    "C02_merkle_path_round_trip"
   ],
   "note": "With arbitrary trailing bytes. Also: FriDecommitment::serialize panics exactly on empty layers_evaluations."
  },
  {
   "property": "C03",
   "status": "proved",
   "theorems": [
    "C03_proof_readers_never_panic"
   ],
   "note": "All byte strings; element decoding is an abstract non-panicking function."
  },
  {
   "property": "C04",
   "status": "proved",
   "theorems": [
    "C04_public_inputs_panic_exactly",
    "C04_public_inputs_never_panics_refuted"
   ],
   "note": "FINDING: air.rs:334 and 355 slice without a length check. Exact panic set proved."
  },
  {
   "property": "C05",
   "status": "proved",
   "theorems": [
    "C05_public_inputs_round_trip_any_map_order"
   ],
   "note": ""
  },
  {
   "property": "C06",
   "status": "proved",
   "theorems": [
    "C06_proof_encoding_malleable",
    "C06_unique_encoding_refuted",
    "C06_trailing_bytes_ignored"
   ],
   "note": "FINDING: the nonce is read from the end of the buffer, anything in between is ignored."
  },
  {
   "property": "C07",
   "status": "proved",
   "theorems": [
    "C07_cli_file_round_trip",
    "C07_cli_file_truncation_detected",
    "C07_short_files_are_errors"
   ],
   "note": ""
  },
  {
   "property": "C08",
   "status": "proved",
   "theorems": [
    "C08_views_of_a_table_built_from_columns",
    "C08_construction_panics_iff"
   ],
   "note": ""
  },
  {
   "property": "C09",
   "status": "proved",
   "theorems": [
    "C09_get_cols_selects_columns",
    "C09_get_cols_rejects_bad_index",
    "C09_concatenate_appends_columns"
   ],
   "note": ""
  },
  {
   "property": "C10",
   "status": "proved",
   "theorems": [
    "C10_frame_rows"
   ],
   "note": ""
  },
  {
   "property": "C38",
   "status": "proved",
   "theorems": [
    "C38_checked_security_exact",
    "C38_presets_reach_their_level",
    "C38_underflow_refuted",
    "C38_zero_blowup_accepted"
   ],
   "note": "Exact acceptance condition. FINDING: usize underflow (panic in debug, acceptance in release) and blowup factor 0 counted as 8 bits."
  },
  {
   "property": "C39",
   "status": "proved",
   "theorems": [
    "C39_checked_provable_security_exact",
    "C39_no_security_accepted_refuted",
    "C39_enough_queries_rejected",
    "C39_own_presets_rejected"
   ],
   "note": "FINDING: the comparison is inverted and leading zeros are used; the library's own provable presets are rejected."
  },
  {
   "property": "C46",
   "status": "proved",
   "theorems": [
    "C46_validate_trace_exact",
    "C46_validate_trace_total"
   ],
   "note": "For boundary constraints naming existing cells."
  },
  {
   "property": "C47",
   "status": "proved",
   "theorems": [
    "C47_fibonacci",
    "C47_fibonacci_2_columns",
    "C47_quadratic",
    "C47_dummy",
    "C47_fibonacci_rap"
   ],
   "note": ""
  },
  {
   "property": "C51",
   "status": "proved",
   "theorems": [
    "C51_rap_permutation_not_enforced",
    "C51_rap_permutation_refuted"
   ],
   "note": "FINDING."
  },
  {
   "property": "C52",
   "status": "proved",
   "theorems": [
    "C52_fibonacci_end_to_end",
    "C52_fibonacci_2_columns_end_to_end",
    "C52_quadratic_end_to_end",
    "C52_dummy_end_to_end",
    "C52_fibonacci_rap_end_to_end"
   ],
   "note": "For every environment satisfying the field laws; options whose coset contains no square."
  },
  {
   "property": "C26",
   "status": "proved",
   "theorems": [
    "C26_folding_identity",
    "C26_folding_halves",
    "C26_folds_to_a_constant"
   ],
   "note": ""
  },
  {
   "property": "C27",
   "status": "proved",
   "theorems": [
    "C27_honest_fri_queries_accepted"
   ],
   "note": "Any number of layers up to the depth of the domain."
  },
  {
   "property": "C28",
   "status": "proved",
   "theorems": [
    "C28_log_is_the_prover",
    "C28_verifier_replays_the_prover"
   ],
   "note": ""
  },
  {
   "property": "C29",
   "status": "proved",
   "theorems": [
    "C29_prover_exemptions_vanish_on_last_rows",
    "C29_prover_and_verifier_exemptions_agree"
   ],
   "note": ""
  },
  {
   "property": "C30",
   "status": "proved",
   "theorems": [
    "C30_boundary_zerofier_vanishes_exactly",
    "C30_steps_and_columns",
    "C30_points_and_values"
   ],
   "note": ""
  },
  {
   "property": "C31",
   "status": "proved",
   "theorems": [
    "C31_out_of_domain_check_accepts"
   ],
   "note": "At every point outside the trace domain, not only sampled ones."
  },
  {
   "property": "C32",
   "status": "proved",
   "theorems": [
    "C32_deep_reconstruction",
    "C32_other_offsets_refuted"
   ],
   "note": "FINDING: offsets other than 0,1,2,.. make honest proofs fail."
  },
  {
   "property": "C33",
   "status": "proved",
   "theorems": [
    "C33_completeness",
    "C33_square_coset_refuted"
   ],
   "note": "Needs a coset without squares; FINDING: otherwise the verifier can panic on an honest proof."
  },
  {
   "property": "C37",
   "status": "proved",
   "theorems": [
    "C37_nonce_is_least",
    "C37_no_nonce_above_64",
    "C37_zeros_are_low_order",
    "C37_verifier_counts_the_same_zeros",
    "C37_verifier_requires_enough_zeros"
   ],
   "note": ""
  },
  {
   "property": "C40",
   "status": "proved",
   "theorems": [
    "C40_challenge_value",
    "C40_challenges_injective_and_range"
   ],
   "note": "For codecs reading canonical 32-byte big-endian values. Elements with canonical value 2^(bits-1) or more are never drawn."
  },
  {
   "property": "C41",
   "status": "proved",
   "theorems": [
    "C41_out_of_domain_denominators",
    "C41_composition_denominators_without_squares",
    "C41_square_in_coset_refuted"
   ],
   "note": ""
  },
  {
   "property": "C42",
   "status": "proved",
   "theorems": [
    "C42_domain_construction",
    "C42_domain_total"
   ],
   "note": ""
  },
  {
   "property": "C48",
   "status": "proved",
   "theorems": [
    "C48_honest_openings_verify",
    "C48_openings_bind",
    "C48_openings_of_a_tree",
    "C48_index_modulo",
    "C48_padding_repeats_the_last_leaf"
   ],
   "note": ""
  },
  {
   "property": "C34",
   "status": "proved",
   "theorems": [
    "C34_verdict_exact"
   ],
   "note": "Exact: the verdict is true iff the written-out conditions hold."
  },
  {
   "property": "C35",
   "status": "proved",
   "theorems": [
    "C35_universal_forgery",
    "C35_forger_succeeds",
    "C35_soundness_refuted",
    "C35_cairo_statements"
   ],
   "note": "FINDING."
  },
  {
   "property": "C36",
   "status": "proved",
   "theorems": [
    "C36_trace_paths_ignored"
   ],
   "note": "FINDING."
  },
  {
   "property": "C49",
   "status": "proved",
   "theorems": [
    "C49_well_shaped_proofs_never_panic",
    "C49_cairo_well_shaped_proofs_never_panic",
    "C49_no_trace_commitment_panics",
    "C49_bad_trace_length_panics",
    "C49_empty_decommitment_panics",
    "C49_too_many_layers_panics"
   ],
   "note": "FINDING; the last one with overflow checks (debug profile)."
  },
  {
   "property": "C50",
   "status": "proved",
   "theorems": [
    "C50_challenges_ignore_the_statement",
    "C50_statement_switching"
   ],
   "note": "FINDING."
  },
  {
   "property": "C11",
   "status": "proved",
   "theorems": [
    "C11_decoding_succeeds_iff_allowed",
    "C11_flag_columns_are_the_bits",
    "C11_rejection_names_the_group"
   ],
   "note": "Decoding succeeds iff every group is zero or one bit; the flag columns are bits 48..62 and a zero; otherwise an error naming a bad group."
  },
  {
   "property": "C12",
   "status": "proved",
   "theorems": [
    "C12_offsets_are_the_biased_fields",
    "C12_offset_columns_are_the_fields",
    "C12_word_is_re_encoded"
   ],
   "note": "Offsets are the 16-bit fields minus 2^15, the columns are the fields, and offsets with flags re-encode every 63-bit word."
  },
  {
   "property": "C14",
   "status": "proved",
   "theorems": [
    "C14_cpu_constraints_imply_the_step"
   ],
   "note": "Rows with selector 1 satisfying the CPU constraints, over any table read as memory, perform one step of the Cairo machine."
  },
  {
   "property": "C20",
   "status": "proved",
   "theorems": [
    "C20_memory_is_single_valued",
    "C20_addresses_are_an_interval"
   ],
   "note": "The memory constraints make the sorted columns an interval of addresses with one value each (on tables shorter than the field)."
  },
  {
   "property": "C21",
   "status": "proved",
   "theorems": [
    "C21_permutation_argument_refuted",
    "C21_repaired_products_equal",
    "C21_equal_products_force_a_permutation"
   ],
   "note": "FINDING: the first permutation cell is unconstrained, so the argument proves nothing; with that one equation added, it forces a permutation outside a bounded set of challenges."
  },
  {
   "property": "C22",
   "status": "proved",
   "theorems": [
    "C22_sorted_offsets_are_bounded",
    "C22_products_are_equal",
    "C22_boundary_values",
    "C22_offset_cells_are_in_range",
    "C22_satisfying_traces_are_in_range"
   ],
   "note": "Sorted offsets stay inside the public bounds, the cyclic product forces equality of products, and the offset cells are in range outside a bounded set of challenges."
  },
  {
   "property": "C23",
   "status": "proved",
   "theorems": [
    "C23_decomposition_exact_iff_128_bits",
    "C23_built_columns_pass_iff_128_bits",
    "C23_builtin_values_are_not_range_checked"
   ],
   "note": "FINDING: range-checked cells beyond the number of steps are dropped from the built trace; limbs recombine exactly for 128-bit values, but nothing in the AIR range-checks the limb columns."
  },
  {
   "property": "C24",
   "status": "proved",
   "theorems": [
    "C24_zero_selector_disables_the_cpu",
    "C24_execution_refuted"
   ],
   "note": "FINDING: the selector column is free; a trace that executes nothing satisfies the AIR for a given statement."
  },
  {
   "property": "C25",
   "status": "proved",
   "theorems": [
    "C25_initial_fp_is_not_bound",
    "C25_constraints_ignore_initial_fp"
   ],
   "note": "FINDING: no constraint mentions the initial frame pointer of the statement."
  },
  {
   "property": "C43",
   "status": "proved",
   "theorems": [
    "C43_trace_roundtrip",
    "C43_trace_bad_length_rejected",
    "C43_trace_reader_total",
    "C43_memory_roundtrip",
    "C43_memory_bad_length_rejected",
    "C43_memory_reader_total"
   ],
   "note": "64-bit register traces and 256-bit memory cells survive the dump; lengths that are not whole rows are rejected; the readers never panic."
  },
  {
   "property": "C44",
   "status": "proved",
   "theorems": [
    "C44_declared_width_iff",
    "C44_runner_segments_agree_iff",
    "C44_output_only_runs_cannot_be_proved"
   ],
   "note": "FINDING: widths agree iff no segment or the range-check segment; a run with output and no range-check segment cannot be proved at all."
  },
  {
   "property": "C45",
   "status": "proved",
   "theorems": [
    "C45_public_inputs_of_a_run",
    "C45_public_inputs_succeed_iff",
    "C45_public_addresses_are_the_keys"
   ],
   "note": "The public memory is exactly the program and output cells; registers and step count are those of the trace."
  },
  {
   "property": "C13",
   "status": "proved",
   "theorems": [
    "C13_honest_cpu"
   ],
   "note": "For every valid run and every memory the built main trace satisfies all CPU constraints wherever the AIR enforces them."
  },
  {
   "property": "C15",
   "status": "proved",
   "theorems": [
    "C15_offsets_cover_interval",
    "C15_sorted_offsets"
   ],
   "note": "The offsets cover the interval between the reported bounds, which are the extremes over the executed steps; the sorted columns walk it."
  },
  {
   "property": "C16",
   "status": "proved",
   "theorems": [
    "C16_holes_filled",
    "C16_contiguous",
    "C16_unfilled_hole_rejected",
    "C16_contiguity_refuted"
   ],
   "note": "FINDING: holes below the number of public cells are left unfilled when there are output cells; such an honest trace violates memory continuity."
  },
  {
   "property": "C17",
   "status": "proved",
   "theorems": [
    "C17_step_rows",
    "C17_padding"
   ],
   "note": "Row count is a power of two, the first rows are the executed steps, the other rows replicate the last step or hold the fillers."
  },
  {
   "property": "C18",
   "status": "proved",
   "theorems": [
    "C18_sorted_memory",
    "C18_public_section"
   ],
   "note": "Sorted columns: a stable ascending rearrangement of the accesses with the trailing dummies replaced by public cells; exactly the public memory when the computed addresses are its keys."
  },
  {
   "property": "C19",
   "status": "proved",
   "theorems": [
    "C19_running_quotients",
    "C19_permutation_constraints",
    "C19_final_values"
   ],
   "note": "Prefix quotients, permutation constraints and boundary values of both running-product columns."
  },
  {
   "property": "C53",
   "status": "proved",
   "theorems": [
    "C53_cairo_end_to_end",
    "C53_default_options"
   ],
   "note": "Completeness for every provable run; in the Stark field with the default options no premise about the coset remains."
  },
  {
   "property": "C54",
   "status": "proved",
   "theorems": [
    "C54_map_order_is_irrelevant",
    "C54_prove_then_verify",
    "C54_prove_and_verify"
   ],
   "note": "Premises: 32-byte digests, fixed-width codec, lengths below 2^64. Reading and writing the file itself is not modelled."
  },
  {
   "property": "C55",
   "status": "proved",
   "theorems": [
    "C55_proof_or_bad_challenges",
    "C55_fibonacci",
    "C55_fibonacci_2_columns",
    "C55_quadratic",
    "C55_dummy",
    "C55_fibonacci_rap",
    "C55_cairo",
    "C55_prove_and_verify"
   ],
   "note": "Premises: challenge derivation does not panic (sampling_ok), the out-of-domain point is found within the fuel, some nonce meets the grinding factor."
  },
  {
   "property": "C56",
   "status": "proved",
   "theorems": [
    "C56_empty_execution_is_proved",
    "C56_false_statement_refuted"
   ],
   "note": "The prover runs with its own rounds and another function for the auxiliary table; premises on sampling as in C55."
  },
  {
   "property": "C57",
   "status": "proved",
   "theorems": [
    "C57_memory_argument_binds_nothing_refuted",
    "C57_contradictory_accesses_are_proved",
    "C57_false_statement_refuted"
   ],
   "note": "The concrete refutation is in the Stark field with a constant challenge."
  },
  {
   "property": "C58",
   "status": "proved",
   "theorems": [
    "C58_repaired_air_is_sound",
    "C58_honest_trace_meets_conditions"
   ],
   "note": "About the constraints, not the whole protocol. Address 0 is excepted because of the dummy (0, 0) accesses; fp is unconstrained at the start (C25)."
  },
  {
   "property": "C59",
   "status": "proved",
   "theorems": [
    "C59_transition_constraint_holds",
    "C59_boundary_constraint_holds",
    "C59_violation_leaves_one_coefficient",
    "C59_columns_satisfy"
   ],
   "note": "The two-values form counts the verifier's coefficients and points; the fraction of all challenges is C77. It assumes committed polynomials; C60 and C61 are about where those come from."
  },
  {
   "property": "C60",
   "status": "proved",
   "theorems": [
    "C60_column_is_polynomial",
    "C60_composition_is_polynomial"
   ],
   "note": "The low-degree premise is C61's conclusion for the DEEP word. The verifier never checks the trace openings against their roots (C36), so for the code as it is the openings are only functions of the point if the prover is taken to fix them."
  },
  {
   "property": "C61",
   "status": "proved",
   "theorems": [
    "C61_folding_words",
    "C61_fri_low_degree"
   ],
   "note": "The case where all points are answered; closeness to low degree when only most points are is C71."
  },
  {
   "property": "C62",
   "status": "proved",
   "theorems": [
    "C62_accepted_query",
    "C62_escaping_queries",
    "C62_inner_nodes_open_refuted"
   ],
   "note": "The last theorem takes as premise that the batched backend hashes the concatenated encodings, without separating leaves from nodes; that code is in a dependency."
  },
  {
   "property": "C63",
   "status": "proved",
   "theorems": [
    "C63_convincing_words_satisfy",
    "C63_satisfying_words_convince",
    "C63_satisfying_columns_convince",
    "C63_fibonacci"
   ],
   "note": "A counting statement in the style of special soundness; the soundness error is C77. The openings are taken to be functions of the point, which the code does not enforce for trace openings (C36), and all points are answered in FRI. The converse assumes hash functions without coincidences."
  },
  {
   "property": "C64",
   "status": "proved",
   "theorems": [
    "C64_cairo_words_describe_run"
   ],
   "note": "Combines C58 and C63, with the caveats of both: the code does not commit to the sorted columns before the challenges (C57), nor constrain the selectors (C56)."
  },
  {
   "property": "C65",
   "status": "proved",
   "theorems": [
    "C65_complete_forgery",
    "C65_cairo_statements",
    "C65_false_statement_refuted"
   ],
   "note": "FINDING. Unlike C35 it does not use missing length checks. The premise on the columns' weights is about challenges drawn by the forged proof; the concrete theorem discharges it."
  },
  {
   "property": "C66",
   "status": "proved",
   "theorems": [
    "C66_decoded_proofs_encode",
    "C66_every_decoded_proof_encodes_refuted",
    "C66_decoded_public_inputs_encode",
    "C66_decoded_files_encode",
    "C66_last_cell_wins"
   ],
   "note": "The element decoder (external) is assumed to read at least as many bytes as it writes."
  },
  {
   "property": "C67",
   "status": "proved",
   "theorems": [
    "C67_answers_carry_over",
    "C67_debug_is_the_model",
    "C67_profiles_agree",
    "C67_cairo_profiles_agree",
    "C67_release_never_panics_on_layers",
    "C67_steps_count_modulo_the_trace",
    "C67_more_steps_than_rows_refuted",
    "C67_zero_steps_refuted"
   ],
   "note": "FINDING. Model/Release.v is the verifier with the subtraction of either build profile; for Cairo the profiles differ only at num_steps - 1 and at the shift of the FRI domain length."
  },
  {
   "property": "C68",
   "status": "proved",
   "theorems": [
    "C68_claimed_length_is_eight_bytes",
    "C68_work_bounded_by_size_refuted",
    "C68_domain_before_other_checks"
   ],
   "note": "FINDING. Work is measured by the lengths of the two lists of Domain::new; running time is not modelled."
  },
  {
   "property": "C69",
   "status": "proved",
   "theorems": [
    "C69_version_of_a_path",
    "C69_extension_decides_the_version_refuted",
    "C69_success_is_acceptance",
    "C69_exit_status_tells_the_verdict_refuted",
    "C69_only_the_output_is_written",
    "C69_prove_then_verify",
    "C69_prove_and_verify"
   ],
   "note": "FINDING (exit status, version by directory name). The VM is an arbitrary function; files are a map from paths to contents."
  },
  {
   "property": "C70",
   "status": "proved",
   "theorems": [
    "C70_range_check_segment",
    "C70_unrecorded_stop_pointer_refuted",
    "C70_segment_is_public"
   ],
   "note": "How the VM lays out its segments (one after the other from address 1) is a premise."
  },
  {
   "property": "C71",
   "status": "proved",
   "theorems": [
    "C71_few_coefficients_hide",
    "C71_few_exceptional_foldings",
    "C71_fri_run"
   ],
   "note": "e is at most a third of the redundancy."
  },
  {
   "property": "C72",
   "status": "proved",
   "theorems": [
    "C72_few_constraint_coefficients",
    "C72_few_points",
    "C72_few_terms",
    "C72_accepted_queries_consistent",
    "C72_accepted_run_satisfies",
    "C72_lucky_queries",
    "C72_honest_run_unexceptional",
    "C72_honest_proof_is_a_run"
   ],
   "note": "Exceptional values are counted for the words fixed before each challenge; that the transcript draws challenges independently of them is the Fiat-Shamir assumption. Truthful openings of columns and halves are a premise; the code does not check those of the columns (C35, C65)."
  },
  {
   "property": "C73",
   "status": "proved",
   "theorems": [
    "C73_fibonacci_run",
    "C73_cairo_run",
    "C73_honest_cairo_run"
   ],
   "note": "The premises on the selector column and the first row are those of C58."
  },
  {
   "property": "C74",
   "status": "proved",
   "theorems": [
    "C74_composition_openings_bind",
    "C74_discarded_check",
    "C74_committed_run_is_accepted_run",
    "C74_committed_run_satisfies",
    "C74_honest_columns_check",
    "C74_honest_proof_is_committed",
    "C74_cairo_announces_columns"
   ],
   "note": "The coincidences excluded are of the hashes evaluated in the openings and the trees, and of rows of the words with the opened row. That the check is forgotten, with what follows for the code as it is, is C35 and C65."
  },
  {
   "property": "C75",
   "status": "proved",
   "theorems": [
    "C75_parallel_evaluator",
    "C75_release_builds",
    "C75_builds_agree",
    "C75_debug_build_proves",
    "C75_cairo_asserts",
    "C75_cairo_builds",
    "C75_verdicts_agree",
    "C75_cairo_verifier_builds",
    "C75_debug_build_refuted"
   ],
   "note": "Rayon's parallel iterators are taken to yield the items of the sequential ones in order. Overflow checks, the other difference between the profiles, are C67."
  },
  {
   "property": "C76",
   "status": "proved",
   "theorems": [
    "C76_verifier_follows_the_schedule",
    "C76_prover_follows_the_schedule",
    "C76_airs_draw",
    "C76_digests_bind_the_messages",
    "C76_only_the_messages",
    "C76_frame_width_not_absorbed",
    "C76_surplus_not_absorbed",
    "C76_same_challenges_same_verdict_refuted",
    "C76_positions_are_uniform",
    "C76_field_values_are_uniform",
    "C76_field_values_are_below_the_top_bit",
    "C76_positions_repeat"
   ],
   "note": "The schedule is stated for any transcript, the binding for a reference implementation of DefaultTranscript (append to a buffer; a challenge is the hash of the buffer and replaces it) over any hash function of 32 bytes. Binding compares runs that squeezed equally many digests before. That the statement is not absorbed is C50."
  },
  {
   "property": "C77",
   "status": "proved",
   "theorems": [
    "C77_winning_runs_are_few",
    "C77_error_weight",
    "C77_accepted_proofs_win",
    "C77_fibonacci_error",
    "C77_fibonacci_weight",
    "C77_cairo_error"
   ],
   "note": "Fractions are counts of tapes, stated without division. The game is the interactive protocol: that a transcript which hashes the messages draws like an independent verifier is the Fiat-Shamir assumption. Truthful openings are a premise of the link to accepted proofs; the code does not check those of the columns (C35, C65)."
  },
  {
   "property": "C78",
   "status": "proved",
   "theorems": [
    "C78_verdict_reads_the_claim",
    "C78_segments_are_bound_refuted",
    "C78_zero_cell_is_bound_refuted",
    "C78_claim_is_bound"
   ],
   "note": "The last theorem is about tables of columns; C64 and C77 relate these to proofs. That the initial fp is not bound is C25, and that nothing of the statement is absorbed by the transcript is C50."
  },
  {
   "property": "C79",
   "status": "proved",
   "theorems": [
    "C79_successor_is_unique",
    "C79_any_flags_execute",
    "C79_successor_is_unique_refuted",
    "C79_flag_groups_are_enforced_refuted",
    "C79_group_sums_suffice"
   ],
   "note": "The step relation for defined instructions is C14. The whole trace with an undefined instruction has 8 rows and one choice of challenges."
  },
  {
   "property": "C80",
   "status": "proved",
   "theorems": [
    "C80_guessed_positions_win",
    "C80_winning_runs_exist",
    "C80_checked_level_refuted"
   ],
   "note": "The counterpart of C77, in the same game: words and challenges, without commitments, and without the grinding of the transcript. C77 bounds the fraction from above. The positions of a proof are drawn from a digest (C76)."
  },
  {
   "property": "C81",
   "status": "proved",
   "theorems": [
    "C81_size_of_an_honest_proof",
    "C81_doubling_the_rows",
    "C81_size_of_a_cairo_proof"
   ],
   "note": "Exact number of bytes for every admissible statement; the proofs are complete in the sense used for the forgeries of C65."
  },
  {
   "property": "C82",
   "status": "proved",
   "theorems": [
    "C82_forgeries_are_few",
    "C82_accepted_proofs_forge",
    "C82_fibonacci_forgeries",
    "C82_cairo_forgeries",
    "C82_scripted_prover"
   ],
   "note": "The statement (public inputs, options) is fixed before the questions, as the transcript absorbs none of it (C50). A question is the list of messages and challenges, not its digest; C76 proves that the digests of the code determine them. One fresh tape and vector of positions per question is counted, of which the reply is a part. Grinding earns nothing in the bound. The words behind the commitments are an arbitrary fixed assignment; truthful openings are a premise as in C77."
  },
  {
   "property": "C83",
   "status": "proved",
   "theorems": [
    "C83_divisibility_check",
    "C83_debug_build_reports_violations_refuted",
    "C83_composition_sum",
    "C83_verifier_boundary_sum",
    "C83_verifier_transition_sum",
    "C83_file_writer"
   ],
   "note": "Division of polynomials is a reference implementation of the library function, proved correct for every non-zero divisor (Proofs/LeftoverFacts.v). Writing to a file is a parameter that appends or fails."
  },
  {
   "property": "C84",
   "status": "proved",
   "theorems": [
    "C84_proof_reveals_the_trace",
    "C84_enough_positions_reveal_the_trace",
    "C84_first_root_identifies_the_trace",
    "C84_proof_hides_the_trace_refuted"
   ],
   "note": "About proofs that the prover of the code makes for valid traces of admissible airs. That the positions differ is a premise: they are drawn with replacement (C76). The theorem about the root needs that the air builds as many auxiliary columns as it announces (C74 for Cairo)."
  },
  {
   "property": "C85",
   "status": "proved",
   "theorems": [
    "C85_retrying_loses_rarely",
    "C85_retrying_guesses_wins",
    "C85_checked_level_refuted"
   ],
   "note": "In the model of C82. A root names the challenges it depends on, by an encoding of challenges as bytes that must be injective, so that the words behind the roots are a fixed assignment. Nonces are tried from zero on; in the code one in 2^g of them passes the grinding check, where g is the grinding factor, so that a try costs 2^g hashes."
  },
  {
   "property": "C86",
   "status": "proved",
   "theorems": [
    "C86_one_root_many_words",
    "C86_prepared_answers",
    "C86_binding_refuted",
    "C86_position_zero_binds",
    "C86_length_binds",
    "C86_checked_proofs_forge",
    "C86_committed_proofs_known"
   ],
   "note": "Path verification is the external library's, in reference form. The words computed from the evaluated hashes are a fixed assignment as in C82, so the evaluations are those of all runs of the prover, and the premise of no collisions is about all of them. That the proof has all its parts, such as one root per layer, is a premise; the verifier does not check it (C35)."
  },
  {
   "property": "C87",
   "status": "proved",
   "theorems": [
    "C87_runs_are_unique",
    "C87_described_run_is_the_run",
    "C87_public_results_are_right",
    "C87_wrong_results_are_rejected",
    "C87_frame_pointer_free_refuted"
   ],
   "note": "That a table describes a run is C58's conclusion, with its three repairs. Cells that are not public are the prover's choice, so for runs that read them only the weaker theorem about one memory applies."
  },
  {
   "property": "C88",
   "status": "proved",
   "theorems": [
    "C88_surplus_is_ignored",
    "C88_parts_are_accepted",
    "C88_bare_proofs_are_accepted",
    "C88_accepted_proofs_are_malleable"
   ],
   "note": "The incomplete last row of the out-of-domain frame is a further surplus, see C76; other encodings of one proof are the subject of C06."
  },
  {
   "property": "C89",
   "status": "proved",
   "theorems": [
    "C89_airs_keep_options",
    "C89_fewer_queries_accepted",
    "C89_proofs_are_beginnings",
    "C89_more_queries_rejected",
    "C89_more_queries_forged",
    "C89_cairo_levels"
   ],
   "note": "Blowup factor and coset offset stay the same on both sides. The invented answers are accepted because of the missing length checks (C35); if the claimed length is no power of two or the coset contains a square, the verifier may panic on them instead."
  },
  {
   "property": "C90",
   "status": "proved",
   "theorems": [
    "C90_other_verdicts",
    "C90_fibonacci_verdicts",
    "C90_fibonacci_never_alone",
    "C90_cairo_verdicts",
    "C90_one_change",
    "C90_impossible_ends_accepted",
    "C90_honest_proofs_prove_too_much"
   ],
   "note": "Sharpens C50, which gives one direction of the general statement. Other public inputs with no range-check bounds, or whose public cells have product 0 under the challenges, make the verifier panic."
  },
  {
   "property": "C91",
   "status": "proved",
   "theorems": [
    "C91_what_is_accepted",
    "C91_fitting_is_accepted",
    "C91_cell_values",
    "C91_cell_zero_is_not_bound"
   ],
   "note": "Repaired means: the main and sorted columns are fixed before the challenges and the first-row equation of the memory product is enforced, as in C58. Exactness is about the constraints; that a table whose constraints hold can be proved with an accepted proof is C33 and C65."
  },
  {
   "property": "C92",
   "status": "proved",
   "theorems": [
    "C92_which_tables",
    "C92_which_main_columns",
    "C92_which_statements"
   ],
   "note": "The equivalences are about the constraints of the code, as they are. The challenges are excluded where the running products would divide by zero; the number of excluded values is bounded, or the condition on them is written out."
  },
  {
   "property": "C93",
   "status": "proved",
   "theorems": [
    "C93_fibonacci_2_columns_error",
    "C93_quadratic_error",
    "C93_dummy_error",
    "C93_fibonacci_rap_error",
    "C93_fibonacci_2_columns_forgeries",
    "C93_quadratic_forgeries",
    "C93_dummy_forgeries",
    "C93_fibonacci_rap_forgeries",
    "C93_fibonacci_rap_any_second_column"
   ],
   "note": "The games are those of C77 and C82, with their idealisations (challenges from sets that exclude the evaluation domain, hash answers as fresh coins). The last theorem is about prove and verify as they are."
  },
  {
   "property": "C94",
   "status": "proved",
   "theorems": [
    "C94_accepted_only_where_the_check_passes",
    "C94_transition_violation_rarely_passes",
    "C94_boundary_violation_rarely_passes",
    "C94_violating_table",
    "C94_cairo_tables_are_shaped",
    "C94_cairo_changed_range_check_value"
   ],
   "note": "About prove and verify as they are, with the challenges the transcript gives; the count ranges over the one coefficient and the point, the first round and the other coefficients staying fixed. B is max(2^(r+b) + 2^r + 1, degree bound + 2^(r+1)). The example includes a violating table whose proof is accepted over the field of 97 elements, where passing pairs are common."
  },
  {
   "property": "C95",
   "status": "proved",
   "theorems": [
    "C95_two_values_violate",
    "C95_skipped_address_violates",
    "C95_contradicting_table_rarely_accepted",
    "C95_changed_register_rarely_accepted"
   ],
   "note": "Contradiction.v defines used cells, two values and skipped addresses on the execution columns and the public memory alone. The examples are over the 252-bit field: a word that differs from the public one, and a first pc that leaves a gap and is not the claimed one."
  },
  {
   "property": "C96",
   "status": "proved",
   "theorems": [
    "C96_product_constraint",
    "C96_rarely_pass_as_zero",
    "C96_wrong_tail_rarely_accepted"
   ],
   "note": "Dropped.v defines the accesses left out and what it is for them to pass as accesses to (0, 0). In the example the last access is to address 3 and passes for no challenges at all."
  },
  {
   "property": "C97",
   "status": "proved",
   "theorems": [
    "C97_end_constraints",
    "C97_missing_value_violates",
    "C97_rarely_pass_as_low",
    "C97_wrong_offsets_rarely_accepted"
   ],
   "note": "Offsets.v defines the offsets, their half-words and the conditions on them. In the example one offset is 2^16 + 5 and all conditions fail."
  },
  {
   "property": "C98",
   "status": "proved",
   "theorems": [
    "C98_completed_table",
    "C98_sound_table_accepted",
    "C98_accepted_table",
    "C98_run_table"
   ],
   "note": "SoundTable.v collects the conditions of C95 and C97 and of Fitting.v. The example is the table that the code builds for a three-step run: it is sound, ends in accesses to (0, 0), has offsets below 2^16, and can be completed."
  },
  {
   "property": "C99",
   "status": "proved",
   "theorems": [
    "C99_exemption_work",
    "C99_constructor",
    "C99_enough_rows",
    "C99_short_proof_panics",
    "C99_long_proof_work",
    "C99_cairo_work"
   ],
   "note": "FINDING: the verifier of the Fibonacci RAP panics on a proof that declares too few rows, and does work quadratic in the declared rows. RapNew.v models the constructor with its subtraction. In the example one proof is accepted for three steps and is a panic for eleven."
  },
  {
   "property": "C100",
   "status": "proved",
   "theorems": [
    "C100_loader",
    "C100_few_answers",
    "C100_files_of_the_command"
   ],
   "note": "FINDING: the benchmarks of the verifier time the refusal of proofs with too few answers. Bench.v models what they load and time. The examples are the files of a three-step run, and the sizes that C81 gives for the three files in benches/proofs, which are the ones their length fields hold."
  }
 ]
}