{
 "claims": [
  {
   "property": "C01",
   "status": "proved",
   "theorems": [
    "C01_enumeration_exact",
    "C01_enumeration_one_exact"
   ],
   "note": ""
  },
  {
   "property": "C02",
   "status": "proved",
   "theorems": [
    "C02_list_accepted",
    "C02_list_rejected",
    "C02_list_round_trip",
    "C02_mask_round_trip",
    "C02_control_values_read_back",
    "C02_control_values_checked",
    "C02_control_values_filled"
   ],
   "note": ""
  },
  {
   "property": "C03",
   "status": "proved",
   "theorems": [
    "C03_gate_updates_safe"
   ],
   "note": ""
  },
  {
   "property": "C04",
   "status": "proved",
   "theorems": [
    "C04_one_target_gates",
    "C04_cx_gate",
    "C04_cz_gate",
    "C04_ccx_gate"
   ],
   "note": ""
  },
  {
   "property": "C05",
   "status": "proved",
   "theorems": [
    "C05_global_phase",
    "C05_identity"
   ],
   "note": ""
  },
  {
   "property": "C06",
   "status": "proved",
   "theorems": [
    "C06_swap",
    "C06_ecr"
   ],
   "note": ""
  },
  {
   "property": "C07",
   "status": "proved",
   "theorems": [
    "C07_dense_matrix"
   ],
   "note": ""
  },
  {
   "property": "C08",
   "status": "proved",
   "theorems": [
    "C08_lanes_agree"
   ],
   "note": ""
  },
  {
   "property": "C09",
   "status": "proved",
   "theorems": [
    "C09_sparse_matrix",
    "C09_sparse_equals_dense"
   ],
   "note": ""
  },
  {
   "property": "C10",
   "status": "proved",
   "theorems": [
    "C10_target_order"
   ],
   "note": ""
  },
  {
   "property": "C11",
   "status": "proved",
   "theorems": [
    "C11_permutation",
    "C11_permutation_runs",
    "C11_accepted_iff_permutation"
   ],
   "note": ""
  },
  {
   "property": "C12",
   "status": "proved",
   "theorems": [
    "C12_pauli_gate",
    "C12_apply_to_state"
   ],
   "note": ""
  },
  {
   "property": "C13",
   "status": "proved",
   "theorems": [
    "C13_pauli_rotation"
   ],
   "note": ""
  },
  {
   "property": "C14",
   "status": "proved",
   "theorems": [
    "C14_product_is_composition",
    "C14_product_associative",
    "C14_identity_neutral",
    "C14_dagger_adjoint",
    "C14_scalar"
   ],
   "note": ""
  },
  {
   "property": "C15",
   "status": "partial",
   "theorems": [
    "C15_round_trip",
    "C15_legal_text_accepted",
    "C15_illegal_text_rejected_partial",
    "C15_malformed_text_rejected",
    "C15_identity_letters_refuted",
    "C15_negative_qubit_accepted",
    "C15_lists_accepted",
    "C15_lists_rejected",
    "C15_ids_accepted",
    "C15_ids_rejected"
   ],
   "note": "Round trip, acceptance of legal texts and rejection of malformed texts, unknown letters, and repeated or too large qubits of X, Y, Z letters proved for all texts. Qubits of I letters are not checked (C15_identity_letters_refuted). Characters are bytes in the C locale, reading numbers follows std::num_get."
  },
  {
   "property": "C16",
   "status": "partial",
   "theorems": [
    "C16_pauli_expectation",
    "C16_pauli_transition",
    "C16_pauli_expectation_batched",
    "C16_operator_expectation_partial",
    "C16_operator_transition_partial",
    "C16_operator_expectation_values_partial",
    "C16_operator_expectation_batched_partial",
    "C16_operator_transition_batched_partial",
    "C16_operator_no_qubits_refuted",
    "C16_operator_transition_no_qubits_refuted",
    "C16_expectation_values_refuted",
    "C16_pauli_transition_batched_refuted",
    "C16_pauli_transition_batched_pair_refuted",
    "C16_pauli_transition_batched_partial",
    "C16_pauli_transition_sizes_refuted"
   ],
   "note": "PauliOperator expectation values (single and batched) and transition amplitudes (single) proved in full; Operator versions proved for registers with at least one qubit (get_expectation_values: 1 to 31 qubits). The rest is false of the code: Operator loops are empty for 0 qubits, get_expectation_values casts its bound to int, the batched PauliOperator transition amplitude is wrong (C16_pauli_transition_batched_partial says for all inputs what it is instead), and differing bra/ket sizes are not rejected (the _refuted theorems)."
  },
  {
   "property": "C17",
   "status": "proved",
   "theorems": [
    "C17_sum",
    "C17_difference",
    "C17_negation",
    "C17_scalar",
    "C17_pauli_sum_difference",
    "C17_product",
    "C17_pauli_product",
    "C17_adjoint",
    "C17_optimize",
    "C17_optimize_programs",
    "C17_optimize_view",
    "C17_new",
    "C17_full_matrix",
    "C17_pauli_full_matrix_ignoring_coef",
    "C17_apply_to_state",
    "C17_apply_to_state_completes",
    "C17_pauli_full_matrix_partial",
    "C17_pauli_full_matrix_refuted"
   ],
   "note": "All operations proved, including the constructor of n terms and the refusal to optimize a view; PauliOperator::get_full_matrix, which is outside the claim, ignores the coefficient (C17_pauli_full_matrix_refuted)."
  },
  {
   "property": "C18",
   "status": "partial",
   "theorems": [
    "C18_is_hermitian_partial",
    "C18_product_refuted",
    "C18_pauli_product_refuted",
    "C18_shared_terms_refuted"
   ],
   "note": "Proved for every program over Operator variables without products and without in-place changes of shared terms. The full claim is false of the code: Operator*Operator and Operator*PauliOperator compute the flag wrongly, and copies share terms but not flags (the _refuted theorems)."
  },
  {
   "property": "C19",
   "status": "partial",
   "theorems": [
    "C19_inverse_partial",
    "C19_inverse_available",
    "C19_inverse_refuted"
   ],
   "note": "Proved for every factory gate with an inverse whose Pauli coefficient squares to 1 and whose declared-unitary DenseMatrix is unitary. The full claim is false of the code: PauliGate::get_inverse returns the gate itself whatever the coefficient (C19_inverse_refuted)."
  },
  {
   "property": "C20",
   "status": "partial",
   "theorems": [
    "C20_circuit_inverse_partial",
    "C20_not_invertible",
    "C20_closed_partial",
    "C20_pauli_refuted",
    "C20_optimized_refuted"
   ],
   "note": "For every circuit put together from factory gates with an inverse, results of get_inverse() on gates and on circuits included (parametric gates and conditions too): C20_closed_partial also says that the inverse is again such a circuit, so inverses can be taken any number of times. Partial because, as for C19, a PauliGate whose coefficient does not square to 1 is excluded: the code returns the gate itself (C19_inverse_refuted). Probabilistic gates are excluded; C20_not_invertible: measurements and gates without inverse make get_inverse throw. C20_pauli_refuted shows the error on a circuit, C20_optimized_refuted that optimize() can take the inverse away."
  },
  {
   "property": "C21",
   "status": "proved",
   "theorems": [
    "C21_norm_preserved"
   ],
   "note": ""
  },
  {
   "property": "C22",
   "status": "proved",
   "theorems": [
    "C22_matrix_is_update",
    "C22_reported_operands"
   ],
   "note": ""
  },
  {
   "property": "C23",
   "status": "proved",
   "theorems": [
    "C23_expansion"
   ],
   "note": ""
  },
  {
   "property": "C24",
   "status": "proved",
   "theorems": [
    "C24_merge",
    "C24_permutation_throws"
   ],
   "note": "All pairs of factory gates and their inverses. The claim itself is up to the code's 1e-12 snapping; the theorem shows that only RZ merges can lose such a phase (delta). Probabilistic gates are rejected (see the circuit model)."
  },
  {
   "property": "C25",
   "status": "partial",
   "theorems": [
    "C25_optimize_partial",
    "C25_safe_circuits_partial",
    "C25_returns_partial",
    "C25_optimize_refuted",
    "C25_permutation_refuted"
   ],
   "note": "optimize is modelled as the scheduling algorithm of circuit.cpp:328-486. Proved: for circuits without inverted probabilistic gates and controlled RZ gates, whenever no merged gate has fewer operands than the gates it replaces (a condition on the run, implied by never_cancels on the gates), runs of both circuits with the same random numbers agree in all registers and up to one angle below (gates+1)*1e-12; optimize returns when no Permutation gate is among the unconditional gates. The full claim is false of the code: [X 0, X 0] becomes [X 0], and Permutation gates make optimize throw (both proved as _refuted). If the circuit measures, the unconditional gates must keep the norm."
  },
  {
   "property": "C26",
   "status": "proved",
   "theorems": [
    "C26_execution",
    "C26_register_needed",
    "C26_without_register",
    "C26_deterministic",
    "C26_inside",
    "C26_unitary_gates"
   ],
   "note": "All executions of update_quantum_state refine the reference semantics; the hypothesis rules out only measuring a state that is not normalised and conditions that are undefined, and C26_inside discharges it for norm-keeping gates."
  },
  {
   "property": "C27",
   "status": "partial",
   "theorems": [
    "C27_circuit_partial",
    "C27_circuit_single_partial",
    "C27_circuit_rejected",
    "C27_buffered_conditional_refuted",
    "C27_measured_conditional_refuted",
    "C27_batched_gate"
   ],
   "note": "Gates: proved for every gate. Circuits: for every circuit in which the conditional and probabilistic gates work in place and (for the comparison with single-state runs) the measured-qubit check does not depend on conditional gates; both conditions are needed (C27_buffered_conditional_refuted, C27_measured_conditional_refuted), so the claim as stated is false of the code outside them."
  },
  {
   "property": "C28",
   "status": "partial",
   "theorems": [
    "C28_depth_partial",
    "C28_probabilistic_refuted"
   ],
   "note": "Longest chain for every circuit without probabilistic gates; with one the method throws (C28_probabilistic_refuted), so the claim as stated is false of the code there."
  },
  {
   "property": "C29",
   "status": "proved",
   "theorems": [
    "C29_measurement",
    "C29_rejected",
    "C29_unnormalised_refuted"
   ],
   "note": "For states of norm 1 (the claim's quantifier). C29_unnormalised_refuted shows what happens otherwise."
  },
  {
   "property": "C30",
   "status": "proved",
   "theorems": [
    "C30_zero_probability",
    "C30_marginal",
    "C30_invalid_throws",
    "C30_complement",
    "C30_total",
    "C30_zero_is_marginal",
    "C30_batched"
   ],
   "note": "Single and batched; every schedule and shape of the reductions."
  },
  {
   "property": "C31",
   "status": "proved",
   "theorems": [
    "C31_sampling",
    "C31_unique",
    "C31_zero_probability",
    "C31_accepted",
    "C31_batched",
    "C31_zero_norm_never_returns"
   ],
   "note": "The random numbers of the rejection rounds are inputs in [0,1). sampling on a zero-norm state never returns (C31_zero_norm_never_returns), which is why the claim asks for non-zero norm."
  },
  {
   "property": "C32",
   "status": "proved",
   "theorems": [
    "C32_execution",
    "C32_validation",
    "C32_nesting",
    "C32_param_execution",
    "C32_param_validation",
    "C32_param_nesting"
   ],
   "note": "Gates and parametric gates: execution, validation, nesting. The last gate also takes the draws above the sum of the probabilities, which may be up to 1e-6 below 1 (in_interval)."
  },
  {
   "property": "C33",
   "status": "proved",
   "theorems": [
    "C33_update",
    "C33_refused"
   ],
   "note": "For I, GlobalPhase, the standard one-qubit gates, Swap and Ecr with any controls, the gates that support density matrices; the other gates throw. Up to 31 qubits, where the matrix still has at most 2^64 entries."
  },
  {
   "property": "C34",
   "status": "proved",
   "theorems": [
    "C34_trace",
    "C34_purity",
    "C34_hermitian",
    "C34_positive"
   ],
   "note": "Trace and purity for unitary gates; hermiticity and positivity for every supported gate."
  },
  {
   "property": "C35",
   "status": "proved",
   "theorems": [
    "C35_partial_trace",
    "C35_invalid_throws",
    "C35_empty",
    "C35_order",
    "C35_trace",
    "C35_hermitian",
    "C35_positive",
    "C35_product",
    "C35_marginal",
    "C35_joint"
   ],
   "note": "Up to 31 qubits. The league size of the kernel is passed as an int by Kokkos; that conversion is not modelled."
  },
  {
   "property": "C36",
   "status": "proved",
   "theorems": [
    "C36_same_answers",
    "C36_density",
    "C36_evolve"
   ],
   "note": "Entries, zero and marginal probabilities, entropy, trace, purity, sampling; there are no expectation values on density matrices in the code."
  },
  {
   "property": "C37",
   "status": "partial",
   "theorems": [
    "C37_valid_accepted",
    "C37_accepted_valid_partial",
    "C37_ill_formed_throws_partial",
    "C37_sparse_operands_throw",
    "C37_sparse_size_refuted",
    "C37_argument_order_refuted"
   ],
   "note": "Valid arguments are always accepted; ill-formed ones throw except (a) SparseMatrix does not compare the matrix size with the number of targets (C37_sparse_size_refuted) and (b) with one of the argument evaluation orders C++ allows, a control >= 64 is shifted before it is validated (C37_argument_order_refuted)."
  },
  {
   "property": "C38",
   "status": "partial",
   "theorems": [
    "C38_out_of_range_throws_partial",
    "C38_pauli_refuted",
    "C38_pauli_batch_refuted"
   ],
   "note": "Proved for every factory gate except Pauli and PauliRotation, whose update has no bounds check: out-of-bounds access (C38_pauli_refuted) or mixing of batch elements (C38_pauli_batch_refuted)."
  },
  {
   "property": "C39",
   "status": "partial",
   "theorems": [
    "C39_gate_partial",
    "C39_fresh_gate_partial",
    "C39_param_gate_partial",
    "C39_fresh_param_gate_partial",
    "C39_circuit_partial",
    "C39_fresh_circuit_partial",
    "C39_pauli",
    "C39_operator",
    "C39_operator_batch",
    "C39_dense_matrix",
    "C39_sparse_matrix",
    "C39_unreadable",
    "C39_projection_refuted",
    "C39_matrix_refuted",
    "C39_condition_refuted",
    "C39_nested_refuted",
    "C39_flag_refuted",
    "C39_default_batch_refuted"
   ],
   "note": "Proved for every gate a program can hold except the kinds the reader has no case for: gates, parametric gates, probabilistic gates one level deep, circuits without conditions, Pauli operators, operators and non-default batches. Dense and sparse matrices on their own are read back too (sparse: at most 2^31 rows). What is read is the gate behind pointers that know its type. The rest is refuted: P0/P1 and matrix gates are written but unreadable, circuits with classical conditions throw, nested probabilistic gates are flattened, a forced Hermitian flag is recomputed, and a default-constructed batch is undefined behaviour. The JSON text format (nlohmann) is trusted: JSON is a tree here."
  },
  {
   "property": "C40",
   "status": "partial",
   "theorems": [
    "C40_round_trip_partial",
    "C40_round_trip_exact_partial",
    "C40_accepts",
    "C40_conditions_refuted",
    "C40_last_bit_refuted"
   ],
   "note": "Round trip for every circuit of factory gates whose angles are printed as decimals (the printer is a parameter: std::format is not modelled), and exactly which circuits are written. Missing: 'dumps never drops behaviour' is false, proved as _refuted (classical conditions are dropped; a measurement into bit 2^64-1 gives unreadable text)."
  },
  {
   "property": "C41",
   "status": "partial",
   "theorems": [
    "C41_distinct_qubits_partial",
    "C41_distinct_bits_partial",
    "C41_distinct_refuted"
   ],
   "note": "Proved when the declared registers have less than 2^64 bits together; without that it is false (counts wrap), proved as _refuted."
  },
  {
   "property": "C42",
   "status": "proved",
   "theorems": [
    "C42_value",
    "C42_rejects"
   ],
   "note": "Value of every expression of the grammar and rejection of every other text, in exact arithmetic; the grammar includes the hexadecimal numbers that strtod accepts."
  },
  {
   "property": "C43",
   "status": "proved",
   "theorems": [
    "C43_split",
    "C43_missing_semicolon",
    "C43_unterminated",
    "C43_total",
    "C43_comment_separates_refuted"
   ],
   "note": "Holds for every source. That a comment separates words is not part of the claim and is false (_refuted)."
  },
  {
   "property": "C44",
   "status": "partial",
   "theorems": [
    "C44_permutation",
    "C44_every_permutation_partial",
    "C44_every_permutation_refuted"
   ],
   "note": "Every result is a permutation for every engine output; every permutation of at most 2^32-1 elements is produced by some engine output. For 2^32 or more elements the second half is false (int32 is below 2^32-1), proved as _refuted."
  },
  {
   "property": "C45",
   "status": "proved",
   "theorems": [
    "C45_bit_flip",
    "C45_dephasing",
    "C45_bit_flip_and_dephasing",
    "C45_depolarizing",
    "C45_rejected",
    "C45_composition"
   ],
   "note": "All four factories; also which gates are chosen with which probability, and rejection outside [0,1]."
  },
  {
   "property": "C46",
   "status": "partial",
   "theorems": [
    "C46_noise_simulation_partial",
    "C46_rejects",
    "C46_conditions_refuted",
    "C46_no_samples",
    "C46_inverse_one_state",
    "C46_inverse_refuted"
   ],
   "note": "Holds for circuits of gates and visible probabilistic gates, every positive count and every stream of draws; multiplicities, ways and the hand-out of draws are exact; with count 0 nothing is returned. Refuted for circuits with classical conditions, which simulate_noise ignores, and for inverted circuits, where all samples always share one state because the probabilistic gates have lost their type. Measurements inside probabilistic gates are rejected when they are built (C32). Missing: inverted probabilistic gates among the alternatives of a probabilistic gate."
  },
  {
   "property": "C47",
   "status": "partial",
   "theorems": [
    "C47_gradient_partial",
    "C47_backprop_partial",
    "C47_not_hermitian",
    "C47_update_rejects",
    "C47_refuses",
    "C47_controlled_refuted",
    "C47_inverse_refuted",
    "C47_observable_refuted"
   ],
   "note": "Every factory gate with an inverse and uncontrolled rotations (also inverted RX, RY, RZ) sharing keys in any way, an observable on the circuit's qubits; derivatives are limits of the standard library. Missing, because the code is wrong there: controlled rotations and inverted Pauli rotations whose coefficient is not 1 (refuted), observables on more qubits than the circuit (refuted: out of bounds)."
  },
  {
   "property": "C48",
   "status": "partial",
   "theorems": [
    "C48_elements",
    "C48_view",
    "C48_copy",
    "C48_hermitian_flag_refuted",
    "C48_default_batch_refuted",
    "C48_load",
    "C48_load_other_size",
    "C48_sum",
    "C48_difference",
    "C48_product",
    "C48_dagger",
    "C48_negation",
    "C48_mismatch",
    "C48_scale_partial",
    "C48_scale_size",
    "C48_scale_out_of_bounds_refuted",
    "C48_scale_wrong_element_refuted",
    "C48_paulis_refuted",
    "C48_paulis_one_more",
    "C48_sub_paulis_one_more",
    "C48_mul_paulis_refuted",
    "C48_expectation",
    "C48_expectation_batch",
    "C48_transition",
    "C48_transition_batch",
    "C48_amplitude_throws",
    "C48_zero_qubits_refuted",
    "C48_applied_partial",
    "C48_applied_race_refuted",
    "C48_applied_zero_rounds_refuted"
   ],
   "note": "Element access, load, +, -, unary minus, *, adjoint, expectation values and transition amplitudes act element by element for every schedule and grouping. Scaling is right only for one term per element (refuted otherwise); the methods taking one Pauli operator per element refuse the right size or run out of bounds (refuted); get_applied_states is proved for operators without a mix of diagonal and flipping terms, and has a data race otherwise (refuted)."
  },
  {
   "property": "C49",
   "status": "proved",
   "theorems": [
    "C49_history",
    "C49_batched_history",
    "C49_amplitudes",
    "C49_load_get",
    "C49_normalized",
    "C49_inner_product",
    "C49_inner_product_algebra",
    "C49_row",
    "C49_reduced_state",
    "C49_unchecked_index_refuted",
    "C49_unchecked_size_refuted"
   ],
   "note": "Histories of calls on single and batched states. Preconditions the library does not check are stated and shown necessary (the _refuted theorems). The teams of batched normalize are modelled one after the other."
  },
  {
   "property": "C50",
   "status": "proved",
   "theorems": [
    "C50_register",
    "C50_bounds",
    "C50_batched",
    "C50_batched_bounds"
   ],
   "note": "Histories of single and batched registers."
  },
  {
   "property": "C51",
   "status": "partial",
   "theorems": [
    "C51_entropy_partial",
    "C51_batched_entropy_refuted"
   ],
   "note": "Single states proved; false for batched states, whose probabilities are clamped to 1e-15 (C51_batched_entropy_refuted)."
  },
  {
   "property": "C52",
   "status": "proved",
   "theorems": [
    "C52_history",
    "C52_program"
   ],
   "note": "Appending a circuit to itself (aliasing) is not modelled."
  },
  {
   "property": "C53",
   "status": "proved",
   "theorems": [
    "C53_program"
   ],
   "note": "Programs whose statements match the statement grammar of QasmSpec.v and that declare less than 2^64 qubits and bits."
  },
  {
   "property": "C54",
   "status": "proved",
   "theorems": [
    "C54_history",
    "C54_flag",
    "C54_pair_on_diagonal_refuted",
    "C54_coherence",
    "C54_trace",
    "C54_normalized",
    "C54_purity",
    "C54_zero_probability",
    "C54_marginal",
    "C54_entropy",
    "C54_sampling",
    "C54_sampling_one_round",
    "C54_selects_unique",
    "C54_diagonal",
    "C54_refused"
   ],
   "note": "Any sequence of calls with a non-zero trace at every normalize. The flag is sound if the caller's own claims are true and set_coherence_pair_at gets real numbers on the diagonal; without the latter it is refuted."
  },
  {
   "property": "C55",
   "status": "proved",
   "theorems": [
    "C55_state",
    "C55_batch",
    "C55_density",
    "C55_wrong_size"
   ],
   "note": "StateVector, StateVectorBatched and DensityMatrix for every size below 64 qubits; the flag of a density matrix is kept. Numbers are reals: printing of floating point is not modelled."
  },
  {
   "property": "C56",
   "status": "partial",
   "theorems": [
    "C56_operands_partial",
    "C56_unknown_type",
    "C56_targets_refuted",
    "C56_missing_refuted"
   ],
   "note": "Operands are distinct, in range, every control has a value, and probabilities are valid, for every document; unknown types throw. That the number of targets fits the kind, and that missing parts are noticed, is refuted."
  },
  {
   "property": "C57",
   "status": "partial",
   "theorems": [
    "C57_result",
    "C57_zero_vector",
    "C57_refused",
    "C57_default_shift",
    "C57_variational",
    "C57_never_worse",
    "C57_converges",
    "C57_eigenstate",
    "C57_unlucky_start_refuted",
    "C57_small_shift_refuted",
    "C57_identity_refuted"
   ],
   "note": "For every operator, size, shift, start and number of iterations: the result, when it is not a number, the variational bound, monotonicity and convergence of energy and residual. Convergence from every start (even orthogonal to the ground states), with a shift below the largest energy and for multiples of the identity is refuted. Exact arithmetic."
  },
  {
   "property": "C58",
   "status": "partial",
   "theorems": [
    "C58_galerkin",
    "C58_exact",
    "C58_ground_state",
    "C58_least",
    "C58_variational",
    "C58_beats_power_method",
    "C58_dependent_refuted",
    "C58_too_many_iterations_refuted",
    "C58_eigenstate_start_refuted",
    "C58_no_iteration",
    "C58_refused",
    "C58_one_iteration",
    "C58_unnormalized_start_refuted"
   ],
   "note": "For every operator, size, shift, normalised start and number of iterations with independent vectors, and any correct small eigenvalue solver: Galerkin condition, optimality, exactness, ground state, comparison with the power method. Refuted: independence (more iterations than the dimension, start in an eigenstate: not a number) and starts that are not normalised. Exact arithmetic; Eigen's solver is a parameter with a contract."
  },
  {
   "property": "C59",
   "status": "proved",
   "theorems": [
    "C59_block_size",
    "C59_large_pair_kept",
    "C59_small_pair_merged",
    "C59_controls_refuted"
   ],
   "note": "The bound counts target qubits; for all qubits including controls it is false (C59_controls_refuted). Merging of a pair is characterised exactly for circuits of two gates; a merged gate on fewer qubits than its parts is the defect of C25_optimize_refuted."
  },
  {
   "property": "C60",
   "status": "proved",
   "theorems": [
    "C60_refused",
    "C60_appends",
    "C60_evolution_exists",
    "C60_evolution_unique",
    "C60_error",
    "C60_commuting_exact",
    "C60_commute_test",
    "C60_converges",
    "C60_skipped_error",
    "C60_exact_refuted",
    "C60_products_refuted"
   ],
   "note": "The evolution is defined by its differential equation; it is shown to exist and to be unique. The coefficients must be real: the Hermitian mark of a product of operators is wrong (C18), so some Hermitian products are refused and some that are not are accepted, with a circuit that is not unitary (C60_products_refuted). Rounding is not modelled. At angles below 1e-12 nothing is added and the error is at most |angle|/2 times the sum of the coefficients (C60_skipped_error)."
  },
  {
   "property": "C61",
   "status": "partial",
   "theorems": [
    "C61_terminates",
    "C61_any_schedule",
    "C61_unit_norm",
    "C61_density_matrix",
    "C61_batch_same",
    "C61_batch_each",
    "C61_serial_seed",
    "C61_seed_refuted",
    "C61_invariant_partial"
   ],
   "note": "The numbers of the generators are parameters (Kokkos is not modelled); every schedule and every choice of a free generator is allowed. The documented dependence on the seed alone is refuted for parallel loops and proved for a serial loop with one generator. That the state is uniformly distributed is reduced to the invariance of the density (C61_invariant_partial): the change of variables in the integral is missing."
  },
  {
   "property": "C62",
   "status": "proved",
   "theorems": [
    "C62_gate",
    "C62_reproducible",
    "C62_moves_exact",
    "C62_circuit",
    "C62_norm",
    "C62_binary",
    "C62_double"
   ],
   "note": "Overflow is not modelled: numbers have no upper bound. Assumed: sin, cos, cosh(0) and sinh(0) of the library are within two units, the angles and coefficients of rotations are numbers of the type, and matrix entries have modulus at most 1 (true of every unitary). The sum inside a matrix gate on many qubits may be taken in any order; C62_reproducible holds once that order is fixed by the numbers added, so it says nothing about a backend that picks a different order in each run."
  },
  {
   "property": "C63",
   "status": "partial",
   "theorems": [
    "C63_norm",
    "C63_zero_probability",
    "C63_marginal",
    "C63_inner_product",
    "C63_normalize",
    "C63_pauli_expectation",
    "C63_operator_expectation",
    "C63_sampling",
    "C63_sampling_ends",
    "C63_sampling_nonzero",
    "C63_norm_in_order",
    "C63_norm_stalls",
    "C63_norm_refuted",
    "C63_normalize_refuted",
    "C63_sampling_refuted",
    "C63_sampling_nonzero_refuted"
   ],
   "note": "Proved for reductions whose chains of additions are short against the precision (height_ok). False for in-order sums of large states: C63_norm_refuted, C63_normalize_refuted, C63_sampling_refuted (F32, 26 qubits, Kokkos::Serial), and C63_norm_stalls for every binary type; sampling() can return a basis state of amplitude zero when the scan is divided among threads (C63_sampling_nonzero_refuted). Overflow is not modelled, nor the scans and reductions inside the blocks of a GPU beyond being trees of additions, nor the batched and density matrix variants in rounded arithmetic."
  },
  {
   "property": "C64",
   "status": "proved",
   "theorems": [
    "C64_runs",
    "C64_norm",
    "C64_zero_probability",
    "C64_marginal",
    "C64_expectation",
    "C64_sampling",
    "C64_double",
    "C64_double_probability",
    "C64_double_marginal",
    "C64_double_expectation",
    "C64_double_sampling"
   ],
   "note": ""
  },
  {
   "property": "C65",
   "status": "partial",
   "theorems": [
    "C65_measurement",
    "C65_double_measurement",
    "C65_circuit",
    "C65_exact_run",
    "C65_start",
    "C65_certain",
    "C65_above_one_refuted",
    "C65_impossible_outcome_refuted"
   ],
   "note": "Proved for measurements whose exact zero probability is not closer to 1 than the rounding error and whose outcomes are not too improbable. False otherwise: H(0) followed by a measurement of the untouched qubit 1 hands the probability 1 + 2^-52 to std::bernoulli_distribution in double precision (C65_above_one_refuted), and in single precision the impossible outcome 1 occurs for draws of at least 1 - 2^-24 and normalize() divides by zero (C65_impossible_outcome_refuted). C65_circuit covers unitary gates, rotations by parameters, probabilistic gates, measurements and conditions; draws closer to the end of an interval than the error of its sum are not covered. Overflow is not modelled."
  },
  {
   "property": "C66",
   "status": "partial",
   "theorems": [
    "C66_separate_values",
    "C66_frame",
    "C66_copy",
    "C66_confined",
    "C66_assigned_partial",
    "C66_viewed_partial",
    "C66_detached",
    "C66_assigned_refuted",
    "C66_viewed_refuted",
    "C66_self_view_refuted",
    "C66_density_flag_refuted"
   ],
   "note": "Separate objects: proved for every program (C66_separate_values), together with frame theorems for stores with any sharing. Sharing is kept by every operation that works in place (C66_assigned_partial, C66_viewed_partial). It is not kept by dense gates of three or more targets and sparse gates, which compute into a new buffer and swap it into the state they were given: the other names keep the old amplitudes (C66_detached, C66_assigned_refuted, C66_viewed_refuted). set_state_vector with a view of the batch itself is a data race in the C++ memory model, though every iteration writes the value that is there (C66_self_view_refuted). The names of one density matrix share the matrix and not the hermitian flag (C66_density_flag_refuted)."
  },
  {
   "property": "C67",
   "status": "proved",
   "theorems": [
    "C67_channel",
    "C67_observable",
    "C67_register",
    "C67_state",
    "C67_unique",
    "C67_mixture",
    "C67_never_stops"
   ],
   "note": "Exact arithmetic and ideal random numbers. A run consumes a number of draws that depends on the run; the average is over as many numbers as the longest run may use, and a run uses a prefix of them. Circuits with a run that is stopped by an exception are outside (C67_never_stops gives a sufficient condition that can be read off the circuit). Probabilities whose sum differs from 1 within the library's tolerance are covered: the rest goes to the last gate (mixture). Batched states and density matrices are not covered."
  },
  {
   "property": "C68",
   "status": "proved",
   "theorems": [
    "C68_independent",
    "C68_mean",
    "C68_second_moment",
    "C68_channel",
    "C68_agrees",
    "C68_unique",
    "C68_bit_flip"
   ],
   "note": "Exact arithmetic; std::discrete_distribution is idealised: its draws are independent and index j has probability w_j / sum of the weights it is handed. Circuits with conditions or inverted random gates are excluded because the simulation is wrong for them (C46_conditions_refuted, C46_inverse_refuted); measurements are rejected by the library. C68_agrees needs probabilities that add up to exactly 1: within the factory's tolerance simulate_noise rescales them, while a run gives the missing rest to the last alternative."
  },
  {
   "property": "C69",
   "status": "proved",
   "theorems": [
    "C69_independent",
    "C69_frequency",
    "C69_rejection",
    "C69_returns",
    "C69_batched",
    "C69_batched_returns",
    "C69_density",
    "C69_shots",
    "C69_unique",
    "C69_above_one_refuted"
   ],
   "note": "Exact arithmetic; the pool of generators is idealised: the numbers are independent and uniform in [0,1). The claim asks for a norm between 0 and 1 (exclusive of 0): above 1 the code never returns the basis states whose cumulative probability starts above 1 (C69_above_one_refuted), at 0 it never returns (C31_zero_norm_never_returns). C69_rejection averages over m rounds with count numbers each, of which a round uses as many as samples are open."
  },
  {
   "property": "C70",
   "status": "proved",
   "theorems": [
    "C70_moved",
    "C70_idle",
    "C70_gate",
    "C70_accepted"
   ],
   "note": "Exact arithmetic. A permutation gate names the first qubits of the register by position and cannot be renamed, so circuits containing one are covered only where those qubits stay (may_move). The moved circuit is related to the original by moved_circuit: the same factory calls with renamed qubits; C70_accepted shows that these calls succeed."
  },
  {
   "property": "C71",
   "status": "partial",
   "theorems": [
    "C71_gate",
    "C71_param_gate",
    "C71_circuit",
    "C71_operator",
    "C71_state",
    "C71_states",
    "C71_density",
    "C71_gate_refuted",
    "C71_state_refuted",
    "C71_density_refuted",
    "C71_qasm",
    "C71_qasm_order",
    "C71_qasm_far",
    "C71_qasm_refuted"
   ],
   "note": "Proved for every document of the stated shape (C71_gate ... C71_density) and for every OpenQASM text when the mask of the control values is evaluated last (C71_qasm) or the text declares at most 64 qubits (C71_qasm_far, C71_qasm_order). Missing because the code is undefined there: the documents of C71_gate_refuted, C71_state_refuted, C71_density_refuted and the text of C71_qasm_refuted."
  },
  {
   "property": "C72",
   "status": "partial",
   "theorems": [
    "C72_parameters",
    "C72_batched_parameters",
    "C72_empty",
    "C72_extra",
    "C72_batched_extra",
    "C72_missing",
    "C72_rejects",
    "C72_batched_rejects",
    "C72_gate_rejects",
    "C72_param_gate_rejects",
    "C72_repeatable",
    "C72_some_seed_partial",
    "C72_param_length",
    "C72_param_length_refuted"
   ],
   "note": "Circuits, gates and parametric gates, single and batched. Partial because the full claim about seeds is false: a batched parametric gate called without register and without seed does not check the number of parameters, so too short a list is read past its end (C72_param_length_refuted), while the same call with a seed throws (C72_param_length). Choosing the overload and converting Python objects is nanobind's and not modelled; keywords called state, params, classical_register and seed are bound to these arguments before the modelled code runs."
  },
  {
   "property": "C73",
   "status": "proved",
   "theorems": [
    "C73_order",
    "C73_average",
    "C73_register",
    "C73_measurements_refuted"
   ],
   "note": "Exact arithmetic; gates keep the norm and conditions are defined (norm_kept). For runs that throw only the fact that both throw is stated: what was done before the exception depends on the order. C73_measurements_refuted shows that the run-by-run statement cannot be extended to two measurements; for these the averages are compared (C73_average, C73_register), for circuits whose measured bits exist and where no gate touches a qubit measured and not reset (orderly)."
  },
  {
   "property": "C74",
   "status": "proved",
   "theorems": [
    "C74_factory",
    "C74_param",
    "C74_measurement",
    "C74_probabilistic",
    "C74_param_probabilistic",
    "C74_masks",
    "C74_operands",
    "C74_param_operands",
    "C74_inverse",
    "C74_param_inverse",
    "C74_effect"
   ],
   "note": "C74_effect is stated for gates made by factories, on single states and batches; for measurements and probabilistic gates only what they report is stated. The Kokkos-free getters themselves are one-line functions; what is proved is that they agree with what the factory was asked for and with what the update does."
  },
  {
   "property": "C75",
   "status": "proved",
   "theorems": [
    "C75_marginal",
    "C75_reduced",
    "C75_operator",
    "C75_observable",
    "C75_exact",
    "C75_single_run_refuted"
   ],
   "note": "Exact arithmetic; averages over independent uniform random numbers as in C67. The circuit keeps the norm (norm_kept), is given all its parameters, its measured bits exist and no gate touches a qubit measured and not reset (orderly). C75_exact gives the single-run statement for circuits that draw nothing; C75_single_run_refuted shows that it cannot be extended to measurements."
  },
  {
   "property": "C76",
   "status": "proved",
   "theorems": [
    "C76_deferred",
    "C76_both_return",
    "C76_throws_refuted"
   ],
   "note": "Exact arithmetic; the circuit keeps the norm (norm_kept). Stated for the runs in which the circuit with the controlled gate returns; C76_both_return says when both do. C76_throws_refuted shows the difference that remains: a conditional gate on an already measured qubit is rejected only in runs where its condition holds."
  },
  {
   "property": "C77",
   "status": "proved",
   "theorems": [
    "C77_born",
    "C77_all",
    "C77_joint"
   ],
   "note": "Exact arithmetic; random numbers independent and uniform on [0,1) (averaged, ChannelSpec.v). The qubits and the bits are different: measuring a qubit again without reset is rejected (C28), and a bit written twice shows the later result."
  },
  {
   "property": "C78",
   "status": "proved",
   "theorems": [
    "C78_superposition",
    "C78_overlap",
    "C78_phase"
   ],
   "note": "Exact arithmetic. The runs start from equal registers; for C78_phase from a normalised state (the promise of a measurement)."
  },
  {
   "property": "C79",
   "status": "proved",
   "theorems": [
    "C79_sequence",
    "C79_returns",
    "C79_converse_refuted"
   ],
   "note": "Exact arithmetic. Stated for the runs in which the combined circuit returns; C79_returns says when it does and C79_converse_refuted shows the difference otherwise."
  },
  {
   "property": "C80",
   "status": "partial",
   "theorems": [
    "C80_state",
    "C80_state_told",
    "C80_states",
    "C80_states_told",
    "C80_density",
    "C80_density_told",
    "C80_operator",
    "C80_operator_told",
    "C80_operators",
    "C80_gate",
    "C80_gate_told",
    "C80_measurement",
    "C80_pauli_gate_refuted",
    "C80_ecr",
    "C80_ecr_told",
    "C80_permutation",
    "C80_permutation_told",
    "C80_probabilistic",
    "C80_probabilistic_told",
    "C80_param",
    "C80_param_told",
    "C80_param_refuted",
    "C80_param_pauli_refuted"
   ],
   "note": "How a number prints is a parameter (one line, no quote). Matrix gates, parametric probabilistic gates and probabilistic gates over Pauli, Ecr, permutation or matrix gates are not covered. The claim is false for Pauli and Pauli rotation gates, whose text leaves out the control values (C80_pauli_gate_refuted), for parametric rotations, likewise (C80_param_refuted), and for parametric Pauli rotations, whose text also leaves out the coefficient (C80_param_pauli_refuted)."
  },
  {
   "property": "C81",
   "status": "proved",
   "theorems": [
    "C81_identities",
    "C81_global_phase",
    "C81_pauli_rotation",
    "C81_no_rotation",
    "C81_own_inverse",
    "C81_cz",
    "C81_cx",
    "C81_swap",
    "C81_control_value",
    "C81_control_order",
    "C81_swap_order",
    "C81_anywhere",
    "C81_context",
    "C81_diagonal",
    "C81_density",
    "C81_density_own_inverse"
   ],
   "note": "Exact arithmetic. IdentitySpec.alike lists the identities of one-target gates; two-qubit gates and gates on different qubits are not part of it (see C24, C73)."
  }
 ]
}