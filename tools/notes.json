{
 "C15": {
  "note": "Round trip, acceptance of legal texts and rejection of malformed texts, unknown letters, and repeated or too large qubits of X, Y, Z letters proved for all texts. Qubits of I letters are not checked (C15_identity_letters_refuted). Characters are bytes in the C locale, reading numbers follows std::num_get.",
  "status": "partial"
 },
 "C16": {
  "note": "PauliOperator expectation values (single and batched) and transition amplitudes (single) proved in full; Operator versions proved for registers with at least one qubit (get_expectation_values: 1 to 31 qubits). The rest is false of the code: Operator loops are empty for 0 qubits, get_expectation_values casts its bound to int, the batched PauliOperator transition amplitude is wrong (C16_pauli_transition_batched_partial says for all inputs what it is instead), and differing bra/ket sizes are not rejected (the _refuted theorems).",
  "status": "partial"
 },
 "C17": {
  "note": "All operations proved, including the constructor of n terms and the refusal to optimize a view; PauliOperator::get_full_matrix, which is outside the claim, ignores the coefficient (C17_pauli_full_matrix_refuted).",
  "status": "proved"
 },
 "C18": {
  "note": "Proved for every program over Operator variables without products and without in-place changes of shared terms. The full claim is false of the code: Operator*Operator and Operator*PauliOperator compute the flag wrongly, and copies share terms but not flags (the _refuted theorems).",
  "status": "partial"
 },
 "C19": {
  "note": "Proved for every factory gate with an inverse whose Pauli coefficient squares to 1 and whose declared-unitary DenseMatrix is unitary. The full claim is false of the code: PauliGate::get_inverse returns the gate itself whatever the coefficient (C19_inverse_refuted).",
  "status": "partial"
 },
 "C20": {
  "note": "For every circuit put together from factory gates with an inverse, results of get_inverse() on gates and on circuits included (parametric gates and conditions too): C20_closed_partial also says that the inverse is again such a circuit, so inverses can be taken any number of times. Partial because, as for C19, a PauliGate whose coefficient does not square to 1 is excluded: the code returns the gate itself (C19_inverse_refuted). Probabilistic gates are excluded; C20_not_invertible: measurements and gates without inverse make get_inverse throw. C20_pauli_refuted shows the error on a circuit, C20_optimized_refuted that optimize() can take the inverse away.",
  "status": "partial"
 },
 "C24": {
  "note": "All pairs of factory gates and their inverses. The claim itself is up to the code's 1e-12 snapping; the theorem shows that only RZ merges can lose such a phase (delta). Probabilistic gates are rejected (see the circuit model).",
  "status": "proved"
 },
 "C25": {
  "note": "optimize is modelled as the scheduling algorithm of circuit.cpp:328-486. Proved: for circuits without inverted probabilistic gates and controlled RZ gates, whenever no merged gate has fewer operands than the gates it replaces (a condition on the run, implied by never_cancels on the gates), runs of both circuits with the same random numbers agree in all registers and up to one angle below (gates+1)*1e-12; optimize returns when no Permutation gate is among the unconditional gates. The full claim is false of the code: [X 0, X 0] becomes [X 0], and Permutation gates make optimize throw (both proved as _refuted). If the circuit measures, the unconditional gates must keep the norm.",
  "status": "partial"
 },
 "C26": {
  "note": "All executions of update_quantum_state refine the reference semantics; the hypothesis rules out only measuring a state that is not normalised and conditions that are undefined, and C26_inside discharges it for norm-keeping gates.",
  "status": "proved"
 },
 "C27": {
  "note": "Gates: proved for every gate. Circuits: for every circuit in which the conditional and probabilistic gates work in place and (for the comparison with single-state runs) the measured-qubit check does not depend on conditional gates; both conditions are needed (C27_buffered_conditional_refuted, C27_measured_conditional_refuted), so the claim as stated is false of the code outside them.",
  "status": "partial"
 },
 "C28": {
  "note": "Longest chain for every circuit without probabilistic gates; with one the method throws (C28_probabilistic_refuted), so the claim as stated is false of the code there.",
  "status": "partial"
 },
 "C29": {
  "note": "For states of norm 1 (the claim's quantifier). C29_unnormalised_refuted shows what happens otherwise.",
  "status": "proved"
 },
 "C30": {
  "note": "Single and batched; every schedule and shape of the reductions.",
  "status": "proved"
 },
 "C31": {
  "note": "The random numbers of the rejection rounds are inputs in [0,1). sampling on a zero-norm state never returns (C31_zero_norm_never_returns), which is why the claim asks for non-zero norm.",
  "status": "proved"
 },
 "C32": {
  "note": "Gates and parametric gates: execution, validation, nesting. The last gate also takes the draws above the sum of the probabilities, which may be up to 1e-6 below 1 (in_interval).",
  "status": "proved"
 },
 "C33": {
  "note": "For I, GlobalPhase, the standard one-qubit gates, Swap and Ecr with any controls, the gates that support density matrices; the other gates throw. Up to 31 qubits, where the matrix still has at most 2^64 entries.",
  "status": "proved"
 },
 "C34": {
  "note": "Trace and purity for unitary gates; hermiticity and positivity for every supported gate.",
  "status": "proved"
 },
 "C35": {
  "note": "Up to 31 qubits. The league size of the kernel is passed as an int by Kokkos; that conversion is not modelled.",
  "status": "proved"
 },
 "C36": {
  "note": "Entries, zero and marginal probabilities, entropy, trace, purity, sampling; there are no expectation values on density matrices in the code.",
  "status": "proved"
 },
 "C37": {
  "note": "Valid arguments are always accepted; ill-formed ones throw except (a) SparseMatrix does not compare the matrix size with the number of targets (C37_sparse_size_refuted) and (b) with one of the argument evaluation orders C++ allows, a control >= 64 is shifted before it is validated (C37_argument_order_refuted).",
  "status": "partial"
 },
 "C38": {
  "note": "Proved for every factory gate except Pauli and PauliRotation, whose update has no bounds check: out-of-bounds access (C38_pauli_refuted) or mixing of batch elements (C38_pauli_batch_refuted).",
  "status": "partial"
 },
 "C39": {
  "note": "Proved for every gate a program can hold except the kinds the reader has no case for: gates, parametric gates, probabilistic gates one level deep, circuits without conditions, Pauli operators, operators and non-default batches. Dense and sparse matrices on their own are read back too (sparse: at most 2^31 rows). What is read is the gate behind pointers that know its type. The rest is refuted: P0/P1 and matrix gates are written but unreadable, circuits with classical conditions throw, nested probabilistic gates are flattened, a forced Hermitian flag is recomputed, and a default-constructed batch is undefined behaviour. The JSON text format (nlohmann) is trusted: JSON is a tree here.",
  "status": "partial"
 },
 "C40": {
  "note": "Round trip for every circuit of factory gates whose angles are printed as decimals (the printer is a parameter: std::format is not modelled), and exactly which circuits are written. Missing: 'dumps never drops behaviour' is false, proved as _refuted (classical conditions are dropped; a measurement into bit 2^64-1 gives unreadable text).",
  "status": "partial"
 },
 "C41": {
  "note": "Proved when the declared registers have less than 2^64 bits together; without that it is false (counts wrap), proved as _refuted.",
  "status": "partial"
 },
 "C42": {
  "note": "Value of every expression of the grammar and rejection of every other text, in exact arithmetic; the grammar includes the hexadecimal numbers that strtod accepts.",
  "status": "proved"
 },
 "C43": {
  "note": "Holds for every source. That a comment separates words is not part of the claim and is false (_refuted).",
  "status": "proved"
 },
 "C44": {
  "note": "Every result is a permutation for every engine output; every permutation of at most 2^32-1 elements is produced by some engine output. For 2^32 or more elements the second half is false (int32 is below 2^32-1), proved as _refuted.",
  "status": "partial"
 },
 "C45": {
  "note": "All four factories; also which gates are chosen with which probability, and rejection outside [0,1].",
  "status": "proved"
 },
 "C46": {
  "note": "Holds for circuits of gates and visible probabilistic gates, every positive count and every stream of draws; multiplicities, ways and the hand-out of draws are exact; with count 0 nothing is returned. Refuted for circuits with classical conditions, which simulate_noise ignores, and for inverted circuits, where all samples always share one state because the probabilistic gates have lost their type. Measurements inside probabilistic gates are rejected when they are built (C32). Missing: inverted probabilistic gates among the alternatives of a probabilistic gate.",
  "status": "partial"
 },
 "C47": {
  "note": "Every factory gate with an inverse and uncontrolled rotations (also inverted RX, RY, RZ) sharing keys in any way, an observable on the circuit's qubits; derivatives are limits of the standard library. Missing, because the code is wrong there: controlled rotations and inverted Pauli rotations whose coefficient is not 1 (refuted), observables on more qubits than the circuit (refuted: out of bounds).",
  "status": "partial"
 },
 "C48": {
  "note": "Element access, load, +, -, unary minus, *, adjoint, expectation values and transition amplitudes act element by element for every schedule and grouping. Scaling is right only for one term per element (refuted otherwise); the methods taking one Pauli operator per element refuse the right size or run out of bounds (refuted); get_applied_states is proved for operators without a mix of diagonal and flipping terms, and has a data race otherwise (refuted).",
  "status": "partial"
 },
 "C49": {
  "note": "Histories of calls on single and batched states. Preconditions the library does not check are stated and shown necessary (the _refuted theorems). The teams of batched normalize are modelled one after the other.",
  "status": "proved"
 },
 "C50": {
  "note": "Histories of single and batched registers.",
  "status": "proved"
 },
 "C51": {
  "note": "Single states proved; false for batched states, whose probabilities are clamped to 1e-15 (C51_batched_entropy_refuted).",
  "status": "partial"
 },
 "C52": {
  "note": "Appending a circuit to itself (aliasing) is not modelled.",
  "status": "proved"
 },
 "C53": {
  "note": "Programs whose statements match the statement grammar of QasmSpec.v and that declare less than 2^64 qubits and bits.",
  "status": "proved"
 },
 "C54": {
  "note": "Any sequence of calls with a non-zero trace at every normalize. The flag is sound if the caller's own claims are true and set_coherence_pair_at gets real numbers on the diagonal; without the latter it is refuted.",
  "status": "proved"
 },
 "C55": {
  "note": "StateVector, StateVectorBatched and DensityMatrix for every size below 64 qubits; the flag of a density matrix is kept. Numbers are reals: printing of floating point is not modelled.",
  "status": "proved"
 },
 "C56": {
  "note": "Operands are distinct, in range, every control has a value, and probabilities are valid, for every document; unknown types throw. That the number of targets fits the kind, and that missing parts are noticed, is refuted.",
  "status": "partial"
 },
 "C57": {
  "note": "For every operator, size, shift, start and number of iterations: the result, when it is not a number, the variational bound, monotonicity and convergence of energy and residual. Convergence from every start (even orthogonal to the ground states), with a shift below the largest energy and for multiples of the identity is refuted. Exact arithmetic.",
  "status": "partial"
 },
 "C58": {
  "status": "partial",
  "note": "For every operator, size, shift, normalised start and number of iterations with independent vectors, and any correct small eigenvalue solver: Galerkin condition, optimality, exactness, ground state, comparison with the power method. Refuted: independence (more iterations than the dimension, start in an eigenstate: not a number) and starts that are not normalised. Exact arithmetic; Eigen's solver is a parameter with a contract."
 },
 "C59": {
  "status": "proved",
  "note": "The bound counts target qubits; for all qubits including controls it is false (C59_controls_refuted). Merging of a pair is characterised exactly for circuits of two gates; a merged gate on fewer qubits than its parts is the defect of C25_optimize_refuted."
 },
 "C60": {
  "status": "proved",
  "note": "The evolution is defined by its differential equation; it is shown to exist and to be unique. The coefficients must be real: the Hermitian mark of a product of operators is wrong (C18), so some Hermitian products are refused and some that are not are accepted, with a circuit that is not unitary (C60_products_refuted). Rounding is not modelled. At angles below 1e-12 nothing is added and the error is at most |angle|/2 times the sum of the coefficients (C60_skipped_error)."
 },
 "C61": {
  "status": "partial",
  "note": "The numbers of the generators are parameters (Kokkos is not modelled); every schedule and every choice of a free generator is allowed. The documented dependence on the seed alone is refuted for parallel loops and proved for a serial loop with one generator. That the state is uniformly distributed is reduced to the invariance of the density (C61_invariant_partial): the change of variables in the integral is missing."
 },
 "C62": {
  "status": "proved",
  "note": "Overflow is not modelled: numbers have no upper bound. Assumed: sin, cos, cosh(0) and sinh(0) of the library are within two units, the angles and coefficients of rotations are numbers of the type, and matrix entries have modulus at most 1 (true of every unitary). The sum inside a matrix gate on many qubits may be taken in any order; C62_reproducible holds once that order is fixed by the numbers added, so it says nothing about a backend that picks a different order in each run."
 },
 "C63": {
  "status": "partial",
  "note": "Proved for reductions whose chains of additions are short against the precision (height_ok). False for in-order sums of large states: C63_norm_refuted, C63_normalize_refuted, C63_sampling_refuted (F32, 26 qubits, Kokkos::Serial), and C63_norm_stalls for every binary type; sampling() can return a basis state of amplitude zero when the scan is divided among threads (C63_sampling_nonzero_refuted). Overflow is not modelled, nor the scans and reductions inside the blocks of a GPU beyond being trees of additions, nor the batched and density matrix variants in rounded arithmetic."
 },
 "C65": {
  "status": "partial",
  "note": "Proved for measurements whose exact zero probability is not closer to 1 than the rounding error and whose outcomes are not too improbable. False otherwise: H(0) followed by a measurement of the untouched qubit 1 hands the probability 1 + 2^-52 to std::bernoulli_distribution in double precision (C65_above_one_refuted), and in single precision the impossible outcome 1 occurs for draws of at least 1 - 2^-24 and normalize() divides by zero (C65_impossible_outcome_refuted). C65_circuit covers unitary gates, rotations by parameters, probabilistic gates, measurements and conditions; draws closer to the end of an interval than the error of its sum are not covered. Overflow is not modelled."
 },
 "C66": {
  "status": "partial",
  "note": "Separate objects: proved for every program (C66_separate_values), together with frame theorems for stores with any sharing. Sharing is kept by every operation that works in place (C66_assigned_partial, C66_viewed_partial). It is not kept by dense gates of three or more targets and sparse gates, which compute into a new buffer and swap it into the state they were given: the other names keep the old amplitudes (C66_detached, C66_assigned_refuted, C66_viewed_refuted). set_state_vector with a view of the batch itself is a data race in the C++ memory model, though every iteration writes the value that is there (C66_self_view_refuted). The names of one density matrix share the matrix and not the hermitian flag (C66_density_flag_refuted)."
 },
 "C67": {
  "status": "proved",
  "note": "Exact arithmetic and ideal random numbers. A run consumes a number of draws that depends on the run; the average is over as many numbers as the longest run may use, and a run uses a prefix of them. Circuits with a run that is stopped by an exception are outside (C67_never_stops gives a sufficient condition that can be read off the circuit). Probabilities whose sum differs from 1 within the library's tolerance are covered: the rest goes to the last gate (mixture). Batched states and density matrices are not covered."
 },
 "C68": {
  "status": "proved",
  "note": "Exact arithmetic; std::discrete_distribution is idealised: its draws are independent and index j has probability w_j / sum of the weights it is handed. Circuits with conditions or inverted random gates are excluded because the simulation is wrong for them (C46_conditions_refuted, C46_inverse_refuted); measurements are rejected by the library. C68_agrees needs probabilities that add up to exactly 1: within the factory's tolerance simulate_noise rescales them, while a run gives the missing rest to the last alternative."
 },
 "C69": {
  "status": "proved",
  "note": "Exact arithmetic; the pool of generators is idealised: the numbers are independent and uniform in [0,1). The claim asks for a norm between 0 and 1 (exclusive of 0): above 1 the code never returns the basis states whose cumulative probability starts above 1 (C69_above_one_refuted), at 0 it never returns (C31_zero_norm_never_returns). C69_rejection averages over m rounds with count numbers each, of which a round uses as many as samples are open."
 },
 "C70": {
  "status": "proved",
  "note": "Exact arithmetic. A permutation gate names the first qubits of the register by position and cannot be renamed, so circuits containing one are covered only where those qubits stay (may_move). The moved circuit is related to the original by moved_circuit: the same factory calls with renamed qubits; C70_accepted shows that these calls succeed."
 },
 "C71": {
  "status": "partial",
  "note": "Proved for every document of the stated shape (C71_gate ... C71_density) and for every OpenQASM text when the mask of the control values is evaluated last (C71_qasm) or the text declares at most 64 qubits (C71_qasm_far, C71_qasm_order). Missing because the code is undefined there: the documents of C71_gate_refuted, C71_state_refuted, C71_density_refuted and the text of C71_qasm_refuted."
 },
 "C72": {
  "status": "partial",
  "note": "Circuits, gates and parametric gates, single and batched. Partial because the full claim about seeds is false: a batched parametric gate called without register and without seed does not check the number of parameters, so too short a list is read past its end (C72_param_length_refuted), while the same call with a seed throws (C72_param_length). Choosing the overload and converting Python objects is nanobind's and not modelled; keywords called state, params, classical_register and seed are bound to these arguments before the modelled code runs."
 },
 "C73": {
  "status": "proved",
  "note": "Exact arithmetic; gates keep the norm and conditions are defined (norm_kept). For runs that throw only the fact that both throw is stated: what was done before the exception depends on the order. C73_measurements_refuted shows that the run-by-run statement cannot be extended to two measurements; for these the averages are compared (C73_average, C73_register), for circuits whose measured bits exist and where no gate touches a qubit measured and not reset (orderly)."
 },
 "C74": {
  "status": "proved",
  "note": "C74_effect is stated for gates made by factories, on single states and batches; for measurements and probabilistic gates only what they report is stated. The Kokkos-free getters themselves are one-line functions; what is proved is that they agree with what the factory was asked for and with what the update does."
 },
 "C75": {
  "status": "proved",
  "note": "Exact arithmetic; averages over independent uniform random numbers as in C67. The circuit keeps the norm (norm_kept), is given all its parameters, its measured bits exist and no gate touches a qubit measured and not reset (orderly). C75_exact gives the single-run statement for circuits that draw nothing; C75_single_run_refuted shows that it cannot be extended to measurements."
 },
 "C76": {
  "status": "proved",
  "note": "Exact arithmetic; the circuit keeps the norm (norm_kept). Stated for the runs in which the circuit with the controlled gate returns; C76_both_return says when both do. C76_throws_refuted shows the difference that remains: a conditional gate on an already measured qubit is rejected only in runs where its condition holds."
 },
 "C77": {
  "status": "proved",
  "note": "Exact arithmetic; random numbers independent and uniform on [0,1) (averaged, ChannelSpec.v). The qubits and the bits are different: measuring a qubit again without reset is rejected (C28), and a bit written twice shows the later result."
 },
 "C78": {
  "status": "proved",
  "note": "Exact arithmetic. The runs start from equal registers; for C78_phase from a normalised state (the promise of a measurement)."
 },
 "C79": {
  "status": "proved",
  "note": "Exact arithmetic. Stated for the runs in which the combined circuit returns; C79_returns says when it does and C79_converse_refuted shows the difference otherwise."
 },
 "C80": {
  "status": "partial",
  "note": "How a number prints is a parameter (one line, no quote). Matrix gates, parametric probabilistic gates and probabilistic gates over Pauli, Ecr, permutation or matrix gates are not covered. The claim is false for Pauli and Pauli rotation gates, whose text leaves out the control values (C80_pauli_gate_refuted), for parametric rotations, likewise (C80_param_refuted), and for parametric Pauli rotations, whose text also leaves out the coefficient (C80_param_pauli_refuted)."
 },
 "C81": {
  "status": "proved",
  "note": "Exact arithmetic. IdentitySpec.alike lists the identities of one-target gates; two-qubit gates and gates on different qubits are not part of it (see C24, C73)."
 }
}