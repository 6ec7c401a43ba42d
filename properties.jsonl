{"id": "C01", "title": "Index enumeration is exact", "statement": "For every register size n <= 63 and every set of operand qubits, the loop that a gate update runs maps its iteration numbers 0..2^(n-k)-1 one-to-one onto the basis states whose k operand bits are zero: none is visited twice, none is missed, none outside the register is produced.", "quantifier": "all masks below 2^n, all n up to 63, all iteration numbers", "why_tests_cant": "The number of masks and indices is exponential; a test samples a handful of small registers and cannot see a wrap at bit 63.", "anchors": ["include/scaluq/util/utility.hpp: insert_zero_at_mask_positions, insert_zero_to_basis_index"]}
{"id": "C02", "title": "Mask and index-list conversions are inverse and strict", "statement": "Turning a list of qubit indices into an operand set and back gives the sorted list; a list with a repeated index or an index >= 64 is rejected with an exception, every other list is accepted; control values read back are exactly those supplied.", "quantifier": "all lists of 64-bit indices and control values", "why_tests_cant": "Infinite input space; tests check a few lists.", "anchors": ["include/scaluq/util/utility.hpp: vector_to_mask, mask_to_vector, resize_and_check_control_values"]}
{"id": "C03", "title": "Gate updates are race free and in bounds under every schedule", "statement": "Running a gate update as a parallel loop, whatever the order in which the iterations' individual reads and writes interleave, no two iterations touch the same amplitude with one of them writing, no access falls outside the state, and every schedule ends in the same final amplitudes.", "quantifier": "all register sizes, operand sets accepted by the constructors, input states and thread interleavings", "why_tests_cant": "The number of interleavings is astronomically large and a race need not show on the machine the test runs on.", "anchors": ["src/gate/update_ops_standard.cpp", "src/gate/update_ops_matrix.cpp", "include/scaluq/operator/apply_pauli.hpp"]}
{"id": "C04", "title": "One-target gates act as their matrix", "statement": "Applying X, Y, Z, H, S, Sdag, T, Tdag, SqrtX, SqrtXdag, SqrtY, SqrtYdag, P0, P1, RX, RY, RZ, U1, U2, U3 to target q with controls multiplies, for every setting of the other qubits that satisfies the controls, the pair of amplitudes with bit q = 0/1 by the gate's 2x2 matrix, and leaves every amplitude that fails a control exactly as it was.", "quantifier": "all n, targets, control sets, control values, angles and input states", "why_tests_cant": "Uncountably many states/angles and exponentially many control patterns.", "anchors": ["src/gate/update_ops_standard.cpp: one_target_phase_gate,x_gate,y_gate,rx_gate,ry_gate,rz_gate,u2_gate,u3_gate", "src/gate/update_ops_matrix.cpp: one_target_dense_matrix_gate, one_target_diagonal_matrix_gate", "src/gate/gate_standard.cpp"]}
{"id": "C05", "title": "Zero-target gates act as a controlled phase", "statement": "GlobalPhase(phi) with controls multiplies exactly the amplitudes satisfying all controls by e^{i phi} and leaves the rest untouched; the identity gate changes nothing.", "quantifier": "all n, control sets, control values, phases and states", "why_tests_cant": "Same as C04; the no-operand case is where index arithmetic degenerates.", "anchors": ["src/gate/update_ops_matrix.cpp: zero_target_dense_matrix_gate", "src/gate/update_ops.hpp: global_phase_gate"]}
{"id": "C06", "title": "Two-target gates act as their matrix", "statement": "Swap exchanges the values of its two target qubits and Ecr applies its documented 4x4 matrix, under arbitrary controls and for either order of the two targets.", "quantifier": "all n, target pairs, control sets/values and states", "why_tests_cant": "Exponentially many configurations, order-sensitive index arithmetic.", "anchors": ["src/gate/update_ops_standard.cpp: swap_gate, ecr_gate", "src/gate/gate_standard.cpp: EcrGateImpl"]}
{"id": "C07", "title": "Dense matrix gates act as their matrix", "statement": "DenseMatrix on k sorted targets with controls applies the 2^k x 2^k matrix to the target bits (bit i of the matrix index is the i-th target) of every basis state satisfying the controls and leaves others unchanged, for every k including 0, 1, 2 and larger, whichever specialised code path is chosen.", "quantifier": "all k, n, targets, controls, matrices and states", "why_tests_cant": "Unbounded matrix sizes and three separate code paths.", "anchors": ["src/gate/update_ops_matrix.cpp: zero_target_dense_matrix_gate, one_target_dense_matrix_gate, two_target_dense_matrix_gate, multi_target_dense_matrix_gate, dense_matrix_gate"]}
{"id": "C08", "title": "Vectorised and scalar code paths agree", "statement": "The SIMD implementations of the dense-matrix updates, which process several adjacent amplitudes at a time when the targets and controls lie above the lane width, produce the same amplitudes as the scalar implementations, for every lane count that is a power of two.", "quantifier": "all power-of-two lane counts, registers, operands, matrices and states", "why_tests_cant": "Which path runs depends on the machine the tests are built on; a test machine exercises one lane count.", "anchors": ["src/gate/update_ops_matrix.cpp: *_simd", "include/scaluq/util/simd_complex.hpp"]}
{"id": "C09", "title": "Sparse matrix gates equal dense ones", "statement": "A SparseMatrix gate and a DenseMatrix gate built from the same matrix, targets and controls have the same effect on every state.", "quantifier": "all matrices (any sparsity pattern), targets, controls, states", "why_tests_cant": "Unbounded patterns; CSR indexing errors show only on particular patterns.", "anchors": ["src/gate/update_ops_matrix.cpp: sparse_matrix_gate", "src/gate/gate_matrix.cpp"]}
{"id": "C10", "title": "Target order is respected", "statement": "DenseMatrix(targets, M) with targets given in any order acts so that bit i of the matrix index refers to targets[i].", "quantifier": "all target lists without repetition and all matrices", "why_tests_cant": "Permutations of targets grow factorially.", "anchors": ["include/scaluq/util/utility.hpp: transform_dense_matrix_by_order, transform_sparse_matrix_by_order", "include/scaluq/gate/gate_factory.hpp: DenseMatrix, SparseMatrix"]}
{"id": "C11", "title": "Permutation gates move qubits as documented", "statement": "A Permutation gate built from any permutation of 0..k-1 moves the value of qubit i to qubit dst[i], for every basis state, and agrees with its get_matrix; a list that is not a permutation is rejected.", "quantifier": "all k, all permutations, all states", "why_tests_cant": "k! permutations; the swap schedule is a cycle decomposition whose correctness is inductive.", "anchors": ["include/scaluq/gate/gate_standard.hpp: PermutationGateImpl", "src/gate/update_ops_standard.cpp: permutation_gate", "src/gate/gate_standard.cpp: PermutationGateImpl::get_matrix"]}
{"id": "C12", "title": "Pauli gates act as tensor products of Pauli matrices", "statement": "Applying a PauliOperator (as a gate, with controls, or through apply_to_state) maps each amplitude to coef times the tensor product of X, Y, Z on the listed qubits, with the correct power of i for every number of Y factors.", "quantifier": "all Pauli strings up to 64 qubits, coefficients, controls, states", "why_tests_cant": "4^n strings; sign and phase errors are string dependent.", "anchors": ["include/scaluq/operator/apply_pauli.hpp: apply_pauli", "src/operator/pauli_operator.cpp: apply_to_state"]}
{"id": "C13", "title": "Pauli rotations are exponentials", "statement": "PauliRotation(P, theta) applies cos(theta c/2) I - i sin(theta c/2) P for every Pauli string P with coefficient c, under any controls.", "quantifier": "all Pauli strings, angles, controls, states", "why_tests_cant": "4^n strings times a continuum of angles.", "anchors": ["include/scaluq/operator/apply_pauli.hpp: apply_pauli_rotation"]}
{"id": "C14", "title": "Pauli multiplication is operator composition", "statement": "The product of two PauliOperators acts on every state as applying the right one and then the left one; multiplication is associative and the identity string is neutral; get_dagger is the adjoint.", "quantifier": "all pairs/triples of Pauli strings, coefficients and states", "why_tests_cant": "16^n pairs.", "anchors": ["include/scaluq/operator/pauli_operator.hpp: operator*", "src/operator/pauli_operator.cpp: get_dagger"]}
{"id": "C15", "title": "Pauli text form round-trips", "statement": "The text produced for a PauliOperator, read back, gives the same operator; text naming a qubit twice, an unknown letter, or a qubit >= 64 is rejected.", "quantifier": "all Pauli operators and all input strings", "why_tests_cant": "Infinite string space.", "anchors": ["src/operator/pauli_operator.cpp: get_pauli_string, PauliOperator(std::string_view), add_single_pauli"]}
{"id": "C16", "title": "Expectation values and transition amplitudes are inner products", "statement": "get_expectation_value of a PauliOperator or Operator returns <psi|A|psi> and get_transition_amplitude(bra, ket) returns <bra|A|ket>, for one state and, batch by batch, for batched states.", "quantifier": "all operators, states, register sizes", "why_tests_cant": "Continuum of states; half-range loops with per-pair signs depend on the string.", "anchors": ["src/operator/pauli_operator.cpp: get_expectation_value, get_transition_amplitude", "src/operator/operator.cpp: get_expectation_value, get_transition_amplitude"]}
{"id": "C17", "title": "Operator algebra is faithful", "statement": "Sum, difference, scalar multiple, product and adjoint of Operators act on every state as the corresponding combination of the operands' actions; optimize() merges equal Pauli strings without changing the action and leaves no two equal strings.", "quantifier": "all operators with any number of terms, all states", "why_tests_cant": "Unbounded term lists.", "anchors": ["src/operator/operator.cpp: optimize, operator+, operator*, get_dagger, apply_to_state"]}
{"id": "C18", "title": "is_hermitian never lies", "statement": "Whenever an Operator reports is_hermitian() without force_hermitian having been called, its action is self-adjoint.", "quantifier": "all operators built by any sequence of the public operations", "why_tests_cant": "A flag invariant over all histories of operations.", "anchors": ["src/operator/operator.cpp", "include/scaluq/operator/operator.hpp"]}
{"id": "C19", "title": "Every unitary gate is undone by its inverse", "statement": "For every gate for which get_inverse() succeeds, applying the gate and then its inverse restores every state exactly.", "quantifier": "all gate kinds, parameters, controls, states", "why_tests_cant": "Continuum of parameters and states.", "anchors": ["include/scaluq/gate/gate_standard.hpp: get_inverse", "include/scaluq/gate/gate_pauli.hpp", "src/gate/gate_matrix.cpp: get_inverse"]}
{"id": "C20", "title": "Circuit inverse undoes the circuit", "statement": "For a circuit without measurement or probabilistic gates, running the circuit and then its get_inverse() restores every state; the inverse has the reversed order.", "quantifier": "all circuits of any length, parameters and states", "why_tests_cant": "Unbounded circuits.", "anchors": ["src/circuit/circuit.cpp: get_inverse"]}
{"id": "C21", "title": "Unitary updates preserve the norm", "statement": "Applying any standard unitary gate, Pauli gate with unit coefficient, Pauli rotation with real coefficient or permutation leaves the squared norm of every state unchanged.", "quantifier": "all gates, states", "why_tests_cant": "Continuum of states; each code path must pair amplitudes correctly.", "anchors": ["src/gate/update_ops_standard.cpp", "src/gate/update_ops_matrix.cpp", "include/scaluq/operator/apply_pauli.hpp"]}
{"id": "C22", "title": "get_matrix agrees with the update", "statement": "The matrix reported by get_matrix() of a gate, expanded over the targets under the controls, is exactly what update_quantum_state multiplies the state by.", "quantifier": "all gate kinds, parameters, states", "why_tests_cant": "The matrix and the kernel are written separately; tests compare on random samples.", "anchors": ["src/gate/gate_standard.cpp: get_matrix", "src/gate/gate_pauli.cpp: get_matrix"]}
{"id": "C23", "title": "Matrix expansion for merging is correct", "statement": "Expanding a gate's matrix to a larger sorted target list and moving some controls into the targets gives a matrix with the same effect on every state.", "quantifier": "all matrices, target lists, enclosing lists, controls, control values", "why_tests_cant": "Exponentially many configurations.", "anchors": ["src/base/util/utility.cpp: get_expanded_matrix"]}
{"id": "C24", "title": "merge_gate is composition", "statement": "merge_gate(g1, g2) = (g, phase) satisfies: applying g1 then g2 equals applying g and multiplying by e^{i phase}, for every pair of gate kinds it accepts (up to the documented 1e-12 snapping of a leftover phase to zero).", "quantifier": "all pairs of gates, parameters, controls, states", "why_tests_cant": "About 20x20 kinds times continuous parameters; many pairwise special cases.", "anchors": ["src/gate/merge_gate.cpp: merge_gate, merge_gate_dense_matrix"]}
{"id": "C25", "title": "Circuit::optimize preserves the circuit", "statement": "After optimize(block_size) a circuit has the same effect on every state (up to the global phase it reports as a gate) as before.", "quantifier": "all circuits, block sizes, states", "why_tests_cant": "Unbounded circuits; the merging schedule is history dependent.", "anchors": ["src/circuit/circuit.cpp: optimize"]}
{"id": "C26", "title": "Circuit execution honours order, parameters and classical conditions", "statement": "update_quantum_state applies the gates in list order, gives every parametric gate the value of its own key, applies a conditional gate exactly when its condition on the classical register holds at that moment, and rejects a missing parameter, a too-small state or the use of a measured-and-not-reset qubit with an exception.", "quantifier": "all circuits, parameter maps, registers, measurement outcomes", "why_tests_cant": "Unbounded circuits and outcome histories.", "anchors": ["src/circuit/circuit.cpp: update_quantum_state"]}
{"id": "C27", "title": "Batched execution is element-wise", "statement": "Running a gate or circuit on a batch changes element b exactly as running it on a single state equal to element b, and no element influences another.", "quantifier": "all batch sizes, gates, circuits, states", "why_tests_cant": "Unbounded batch sizes; index flattening errors show only for particular shapes.", "anchors": ["src/state/state_vector_batched.cpp", "src/gate/update_ops_standard.cpp", "src/circuit/circuit.cpp"]}
{"id": "C28", "title": "calculate_depth is the longest dependency chain", "statement": "calculate_depth returns the length of the longest chain of gates in which consecutive gates share a qubit.", "quantifier": "all circuits of any length", "why_tests_cant": "Unbounded circuits.", "anchors": ["src/circuit/circuit.cpp: calculate_depth"]}
{"id": "C29", "title": "Measurement collapses and records", "statement": "After a measurement gate the classical bit holds the outcome, every amplitude inconsistent with the outcome is zero, the consistent ones are scaled by one common positive factor so that the norm is 1, and with reset the target ends in |0> carrying those amplitudes; an outcome of probability zero never occurs.", "quantifier": "all states of norm 1, targets, random draws", "why_tests_cant": "Random outcomes and continuum of states.", "anchors": ["src/gate/gate_measurement.cpp"]}
{"id": "C30", "title": "Probabilities are consistent", "statement": "get_zero_probability and get_marginal_probability return the sum of squared moduli of exactly the basis states matching the specification; for complementary outcomes they add to the squared norm.", "quantifier": "all states, qubits and measured-value patterns", "why_tests_cant": "3^n patterns.", "anchors": ["src/state/state_vector.cpp: get_zero_probability, get_marginal_probability"]}
{"id": "C31", "title": "Sampling follows the amplitudes", "statement": "sampling(k) on a state of non-zero norm returns k basis indices inside the register, each draw r selecting the unique index whose cumulative-probability interval contains r, so that a basis state of probability zero is never returned.", "quantifier": "all states, seeds (all draws in [0,1)), counts", "why_tests_cant": "Rejection and binary-search edge cases occur with probability zero in tests.", "anchors": ["src/state/state_vector.cpp: sampling"]}
{"id": "C32", "title": "Probabilistic gates follow their distribution", "statement": "A probabilistic gate applies gate i exactly when the uniform draw falls into the i-th cumulative interval; nested probabilistic gates are flattened with multiplied probabilities so that the distribution over leaf gates is the same as for the nested experiment; invalid distributions are rejected.", "quantifier": "all distributions, nestings, draws", "why_tests_cant": "Continuum of draws and unbounded nesting.", "anchors": ["src/gate/gate_probabilistic.cpp", "src/gate/param_gate_probabilistic.cpp"]}
{"id": "C33", "title": "Density-matrix updates are conjugations", "statement": "Updating a density matrix rho by a standard gate U gives U rho U^dagger for uncontrolled, singly controlled and multiply controlled gates alike, race free and in bounds under every schedule.", "quantifier": "all n, gates, controls, density matrices, schedules", "why_tests_cant": "Three separate code paths per gate with hand-derived block formulas.", "anchors": ["src/gate/update_ops_dm_standard.cpp"]}
{"id": "C34", "title": "Density updates preserve trace, purity, hermiticity and positivity", "statement": "A standard unitary gate applied to a density matrix keeps its trace and its purity; every supported gate keeps a Hermitian matrix Hermitian and a positive one positive.", "quantifier": "all gates and matrices", "why_tests_cant": "Continuum of matrices.", "anchors": ["src/gate/update_ops_dm_standard.cpp", "src/state/density_matrix.cpp"]}
{"id": "C35", "title": "Partial trace is the partial trace", "statement": "Tracing out a set of qubits gives the matrix whose (i,j) entry is the sum over all settings of the traced qubits of the corresponding entries, whatever the order in which the qubits are listed; trace, hermiticity and positivity are preserved, the diagonal holds the probabilities of the remaining qubits, and of a product the remaining factor is returned. Repeated or unknown qubits throw.", "quantifier": "all n, qubit subsets, matrices", "why_tests_cant": "2^n subsets.", "anchors": ["src/state/density_matrix.cpp: get_partial_trace"]}
{"id": "C36", "title": "A pure state and its density matrix give the same answers", "statement": "The density matrix built from a state vector has entries psi_i conj(psi_j), the same zero and marginal probabilities, entropy and samples (for the same random numbers), trace the squared norm and purity its square, and evolving then converting equals converting then evolving.", "quantifier": "all states, supported gates, qubits, random numbers", "why_tests_cant": "Continuum of states.", "anchors": ["src/state/density_matrix.cpp"]}
{"id": "C37", "title": "Gate factories reject ill-formed operands", "statement": "A gate can be built only if its target and control indices are < 64, without repetition, disjoint, and the control values (when given) have the right length; every gate that can be built satisfies the assumptions under which its update is safe.", "quantifier": "all argument lists", "why_tests_cant": "Infinite input space.", "anchors": ["include/scaluq/gate/gate_factory.hpp", "src/gate/gate.cpp: GateBase", "include/scaluq/util/utility.hpp: vector_to_mask, resize_and_check_control_values"]}
{"id": "C38", "title": "A gate that does not fit is rejected before anything changes", "statement": "Applying a gate to a state with too few qubits raises an exception and leaves the state unchanged; it never touches memory outside the state.", "quantifier": "all gates and register sizes", "why_tests_cant": "Out-of-bounds accesses need not be visible in a test.", "anchors": ["src/gate/gate.cpp: check_qubit_mask_within_bounds", "src/gate/gate_standard.cpp", "src/gate/gate_pauli.cpp"]}
{"id": "C39", "title": "JSON round-trip of gates and circuits", "statement": "Serialising a gate, operator, or circuit to JSON and reading it back gives an equal object.", "quantifier": "all gates, circuits", "why_tests_cant": "Unbounded nesting and many kinds.", "anchors": ["include/scaluq/gate/gate.hpp: from_json", "src/gate/gate_standard.cpp", "include/scaluq/circuit/circuit.hpp"]}
{"id": "C40", "title": "OpenQASM export and import round-trip", "statement": "Text written by dumps for a circuit, read by loads, gives a circuit with the same gates in the same order (identity gates aside); dumps never silently drops behaviour.", "quantifier": "all circuits, all angles", "why_tests_cant": "Unbounded texts.", "anchors": ["src/qasm/qasm2.cpp: dumps, loads"]}
{"id": "C41", "title": "OpenQASM register operands never alias", "statement": "Distinct declared bits (register, index) are mapped by loads to distinct qubit numbers below the reported qubit count.", "quantifier": "all OpenQASM programs", "why_tests_cant": "Unbounded declarations; overflow cases are never tested.", "anchors": ["src/qasm/qasm2.cpp: Reader::handle_statement, parse_indexed_register"]}
{"id": "C42", "title": "OpenQASM angle expressions evaluate by the usual precedence", "statement": "An angle expression built from numbers, pi, + - * /, unary signs and parentheses evaluates to the value of its syntax tree, with left associativity and the usual precedence; anything else is rejected.", "quantifier": "all expression texts, any nesting", "why_tests_cant": "Unbounded grammar.", "anchors": ["src/qasm/qasm2.cpp: ExprParser"]}
{"id": "C43", "title": "Comments and strings are split correctly", "statement": "Splitting an OpenQASM source into statements removes // and /* */ comments, honours quoted strings, trims whitespace and reports an unterminated comment, string or statement.", "quantifier": "all source texts", "why_tests_cant": "Infinite input space.", "anchors": ["src/qasm/qasm2.cpp: split_statements, trim"]}
{"id": "C44", "title": "Random permutations are permutations", "statement": "Random::permutation(n) returns each of 0..n-1 exactly once, whatever the generator produces, and every permutation can be produced.", "quantifier": "all n and generator outputs", "why_tests_cant": "n! outcomes.", "anchors": ["include/scaluq/util/random.hpp: permutation"]}
{"id": "C45", "title": "Noise factories are valid channels", "statement": "BitFlipNoise, DephasingNoise, IndependentXZNoise, DepolarizingNoise and similar produce probabilistic gates whose probabilities are non-negative and add to one for every rate in [0,1].", "quantifier": "all rates", "why_tests_cant": "Continuum of rates.", "anchors": ["include/scaluq/gate/gate_factory.hpp"]}
{"id": "C46", "title": "Noise simulation conserves samples", "statement": "simulate_noise(count) returns states whose multiplicities add up to count and each returned state is the result of one resolution of every probabilistic gate.", "quantifier": "all circuits, counts, random draws", "why_tests_cant": "Exponentially many resolutions.", "anchors": ["src/circuit/circuit.cpp: simulate_noise"]}
{"id": "C47", "title": "Gradients by back-propagation are derivatives", "statement": "compute_expectation_gradient_backprop returns for every parameter key the derivative of the expectation value with respect to that parameter, summing the contributions of all gates sharing the key.", "quantifier": "all circuits of parametric rotations, all parameter values", "why_tests_cant": "A derivative is a limit; tests compare finite differences at sampled points.", "anchors": ["src/circuit/circuit.cpp: compute_expectation_gradient_backprop"]}
{"id": "C48", "title": "Batched operators act element-wise", "statement": "Element access, load, sum, difference, negation, product, adjoint, scaling by one coefficient per element, adding or multiplying one Pauli operator per element, expectation values, transition amplitudes and applied states of an OperatorBatched act on element b exactly as the corresponding Operator operation on element b, whatever the schedule; arguments of another batch size throw.", "quantifier": "all batches of operators, with any numbers of terms per element, all states and all schedules", "why_tests_cant": "Ragged batches; index errors show only when term counts differ.", "anchors": ["src/operator/operator_batched.cpp", "include/scaluq/operator/operator_batched.hpp", "include/scaluq/operator/apply_pauli.hpp"]}
{"id": "C49", "title": "State-vector linear algebra", "statement": "add_state_vector_with_coef, multiply_coef, normalize, inner_product, set_computational_basis and load/get_amplitudes behave as the vector operations they name; inner_product is conjugate symmetric and linear.", "quantifier": "all states, coefficients, indices", "why_tests_cant": "Continuum of states.", "anchors": ["src/state/state_vector.cpp", "include/scaluq/util/utility.hpp: inner_product"]}
{"id": "C50", "title": "Classical registers are bounds-checked bit vectors", "statement": "Reading a bit returns the last value written to it since construction or reset; an out-of-range index raises an exception and changes nothing; batch elements are independent.", "quantifier": "all operation sequences", "why_tests_cant": "Invariant over histories.", "anchors": ["include/scaluq/classical_register/classical_register.hpp", "include/scaluq/classical_register/classical_register_batched.hpp"]}
{"id": "C51", "title": "Entropy of the basis-state distribution", "statement": "get_computational_basis_entropy returns -sum p log2 p over the basis states of non-zero probability; the batched version returns that number for each element.", "quantifier": "all states and batches", "why_tests_cant": "Continuum of states; small probabilities are the interesting case and tests use tolerances.", "anchors": ["src/state/state_vector.cpp: get_computational_basis_entropy", "src/state/state_vector_batched.cpp: get_computational_basis_entropy"]}
{"id": "C52", "title": "Circuit building keeps gates, keys and conditions aligned", "statement": "After any sequence of add_gate, add_param_gate, add_conditional_gate, add_conditional_param_gate and add_circuit calls, the circuit holds exactly the gates that were added, in order, each with its own parameter key and its own condition (or none).", "quantifier": "all call sequences, with appended circuits built the same way", "why_tests_cant": "Unbounded histories; an off-by-one in the condition list shows only after particular sequences.", "anchors": ["include/scaluq/circuit/circuit.hpp: add_gate, add_param_gate, add_conditional_gate, add_conditional_param_gate", "src/circuit/circuit.cpp: add_circuit"]}
{"id": "C53", "title": "OpenQASM import follows the program text", "statement": "loads accepts a program exactly if its statements make sense one after the other (registers are declared once and before use, gates get the operands and angles they need, operands are distinct), and then returns the gates, qubit and bit counts and warnings that the statements stand for.", "quantifier": "all sources whose statements follow the OpenQASM statement grammar, with any spacing, comments and letter case", "why_tests_cant": "Unbounded programs; each statement depends on all declarations before it.", "anchors": ["src/qasm/qasm2.cpp: loads, Reader::handle_statement, parse_gate, parse_measure"]}
{"id": "C54", "title": "A density matrix is the matrix its history describes", "statement": "After any sequence of setters, loads, scalings, additions, normalizations and gates, a density matrix holds the matrix those calls describe and its hermitian flag is set only if the matrix is Hermitian, provided the caller's claims are true; calls with invalid arguments throw and change nothing. Trace, purity (the trace of the square), probabilities, entropy and samples are those of that matrix; where hermiticity is not known they throw.", "quantifier": "all call sequences, sizes, matrices, coefficients, schedules, random numbers", "why_tests_cant": "Unbounded histories; the flag is maintained by hand in every method.", "anchors": ["src/state/density_matrix.cpp", "include/scaluq/state/density_matrix.hpp"]}
{"id": "C55", "title": "JSON round-trip of states", "statement": "Serialising a state vector, a batch of state vectors or a density matrix to JSON leaves it unchanged, and reading the text into any object gives the same number of qubits (and batch size) and the same amplitudes, and the same hermitian flag. A document whose number of amplitudes is not 2^n_qubits is refused with an exception.", "quantifier": "all sizes below 64 qubits, all amplitudes, whatever the object held before", "why_tests_cant": "All sizes and contents; tests use a few states.", "anchors": ["include/scaluq/state/state_vector.hpp: to_json, from_json", "include/scaluq/state/state_vector_batched.hpp: to_json, from_json", "include/scaluq/state/density_matrix.hpp: to_json, from_json"]}
{"id": "C56", "title": "Only well-formed gates can be read from JSON", "statement": "Reading a gate from an arbitrary JSON document either throws or gives a gate with distinct targets and controls below 64, a value per control, as many targets as its kind needs and, for probabilistic gates, valid probabilities.", "quantifier": "all JSON documents", "why_tests_cant": "Adversarial documents; unbounded nesting.", "anchors": ["include/scaluq/gate/gate.hpp: from_json", "include/scaluq/gate/gate_standard.hpp", "include/scaluq/types.hpp: adl_serializer"]}
{"id": "C57", "title": "The power method approaches the ground state", "statement": "solve_ground_state_by_power_method returns a normalised state and its energy, which is real and never below the ground-state energy; another iteration never raises it; and as the number of iterations grows the energy tends to the ground-state energy and the state to an eigenstate. The default shift is always large enough.", "quantifier": "all Hermitian operators, numbers of qubits, initial states, shifts and numbers of iterations", "why_tests_cant": "A limit over unboundedly many iterations, for all operators and starts.", "anchors": ["src/operator/operator.cpp: solve_ground_state_by_power_method, calculate_default_mu"]}
{"id": "C58", "title": "The Arnoldi method returns the best approximation in its space", "statement": "solve_ground_state_by_arnoldi_method with k iterations returns a normalised combination of the start and its images under the first k-1 powers of the shifted operator, with its energy; for a Hermitian operator no state of that space has a smaller energy, so the result is never below the ground-state energy and never above that of the power method; when the space cannot grow further and the start overlaps a ground state, the result is the ground state.", "quantifier": "all operators, numbers of qubits, initial states, shifts, numbers of iterations and correct eigenvalue solvers", "why_tests_cant": "An optimality claim over all states of a space, for all operators, starts and iteration counts.", "anchors": ["src/operator/operator.cpp: solve_ground_state_by_arnoldi_method"]}
{"id": "C59", "title": "optimize keeps to the block size", "statement": "Every gate in a circuit optimized with max_block_size m either was in the circuit before, with the same condition, or is an unconditional Pauli gate, or has at most m target qubits. Two gates that share a qubit are merged exactly if together they use at most m qubits, not counting controls they share, or both are Pauli gates with the same controls.", "quantifier": "all circuits, block sizes and gates", "why_tests_cant": "All circuits of any length; which gates meet depends on the whole history of the waiting list.", "anchors": ["src/circuit/circuit.cpp: Circuit::optimize", "include/scaluq/circuit/circuit.hpp: optimize"]}
{"id": "C60", "title": "Rotations by an observable approximate the exponential", "statement": "add_observable_rotation_gate(H, angle, repeats) throws exactly if H is not marked Hermitian or repeats <= 0; otherwise it appends the same gates whatever the circuit held before, repeats times one rotation per term (none if |angle| < 1e-12). Run on any state vector the appended gates give exp(-i angle/2 H) of it up to an error of angle^2/(4 repeats) times the sum of |c||d| over the pairs of terms that do not commute, times the norm. So the result is exact if the terms commute, and converges as repeats grows.", "quantifier": "all real observables, angles, numbers of repetitions, qubit counts, state vectors and circuits", "why_tests_cant": "The error bound is a statement about every Hamiltonian, state and number of repetitions; tests compare a few cases up to a tolerance.", "anchors": ["include/scaluq/circuit/circuit.hpp: Circuit::add_observable_rotation_gate", "src/gate/gate_pauli.cpp: PauliRotationGateImpl::update_quantum_state", "include/scaluq/operator/operator.hpp: is_hermitian, get_terms"]}
{"id": "C61", "title": "Random states are normalised, use every draw once and are determined by the seed", "statement": "set_Haar_random_state always completes, whatever the schedule and the choice of generators; the amplitudes are pairs of successive normal draws of one generator, no draw is used for two amplitudes, and the state is that vector divided by its norm, so its norm is 1. The random density matrix has trace and purity 1. A batch has one and the same state in every element if set_same_state is given, and otherwise separately normalised elements made of distinct draws. The same seed gives the same state. The distribution of the state is invariant under unitaries.", "quantifier": "all schedules of the parallel loop, pool sizes, streams of random numbers, qubit counts, batch sizes and states before the call", "why_tests_cant": "A test sees the schedules that happened to occur and checks the norm of a few samples; a draw used twice or a result that depends on the schedule does not show.", "anchors": ["src/state/state_vector.cpp: StateVector::Haar_random_state, set_Haar_random_state", "src/state/state_vector_batched.cpp: StateVectorBatched::Haar_random_state, set_Haar_random_state", "src/state/density_matrix.cpp: DensityMatrix::Haar_random_state, set_Haar_random_state"]}
{"id": "C62", "title": "Rounding errors of gate updates stay small", "statement": "In floating point arithmetic a gate leaves the state within a fixed number of rounding units of the exact result, relative to the norm of the state: 300 for most gates, more for rotations by large angles and for matrices on three or more qubits. For a fixed order of the sums inside a matrix gate the result is the same under every schedule. A circuit is off by at most three times the sum of these numbers, and so is its norm; in double precision m gates of weight 300 (up to 10^13) move a normalised state by at most m / 10^13. I, X, CX, CCX, Swap and Permutation are exact.", "quantifier": "all number types with relative rounding error up to 2^-8, contraction of products and sums by the compiler or not, any order of the sums inside matrix gates, any mathematical library accurate to two units, all gates, angles, matrices, qubit counts, batch sizes, states, schedules and circuit lengths", "why_tests_cant": "Tests compare a few states with a tolerance that was chosen to pass; how the error grows with the number of gates and qubits, and what another compiler does, needs a bound for all of them.", "anchors": ["include/scaluq/type/complex.hpp: Complex::operator*, operator+", "include/scaluq/util/math.hpp: exp, polar", "src/gate/update_ops_standard.cpp", "src/gate/update_ops_matrix.cpp", "include/scaluq/operator/apply_pauli.hpp", "include/scaluq/util/math.hpp: sin, cos"]}
{"id": "C63", "title": "Numbers read from a state under rounding: norms, probabilities, inner products, expectation values, normalisation and samples", "statement": "In floating point arithmetic get_squared_norm, get_zero_probability, get_marginal_probability, inner_product and get_expectation_value return the exact value up to about 5 h + c units of rounding relative to what is added up, where h is the longest chain of additions in the parallel sum (about the number of qubits for a balanced tree). normalize() ends near the normalised state. Every sample is a basis state whose interval of cumulative probability contains the number drawn, up to that error. When the sum is taken in order the chain is as long as the state: once 2^n exceeds the precision the sum stalls, a normalised F32 state of 26 qubits is reported to have squared norm 1/4, normalize() multiplies its squared norm by 4 and sampling() never returns three quarters of its basis states. With several threads sampling() can return a basis state of amplitude zero; with one it cannot.", "quantifier": "all number types with relative rounding error up to 2^-8, with or without fused products, all states and qubit counts, all Pauli operators and operators, all trees of additions of the given height, all divisions of the range among threads, all numbers drawn; stalling for every binary type and every even number of qubits not below its precision", "why_tests_cant": "Tests use few qubits and double precision, where any order of additions is good enough; the error for other types, sizes and reduction trees, and the size from which sums stall, are statements about all of them.", "anchors": ["src/state/state_vector.cpp: get_squared_norm, normalize, get_zero_probability, get_marginal_probability, sampling", "include/scaluq/util/utility.hpp: squared_norm, inner_product", "src/operator/pauli_operator.cpp: get_expectation_value", "src/operator/operator.cpp: get_expectation_value"]}
{"id": "C64", "title": "A simulation in rounded arithmetic gives the right numbers", "statement": "Run the gates of a circuit on a normalised state and then read a squared norm, a zero probability, a marginal probability, an expectation value or samples, everything in floating point arithmetic. The number returned is that of the exact circuit up to three times the rounding error of the gates (times the sum of the moduli of the coefficients, for an expectation value) plus the rounding error of the reduction. In double precision with at most 40 qubits, gates of total weight W and sums of height h the error of a probability is at most (W + 3h + 5) / 10^15; m ordinary gates have weight 300 m.", "quantifier": "all number types with relative rounding error at most 2^-8, lists of unitary gate calls, normalised states, schedules, orders of summation of bounded height, observables, draws", "why_tests_cant": "All circuits of any length on all states, all schedules and all shapes of the parallel sums; a test sees one result of one machine.", "anchors": ["include/scaluq/gate/gate.hpp: update_quantum_state", "src/gate/update_ops_matrix.cpp", "src/state/state_vector.cpp: get_zero_probability, get_marginal_probability, get_squared_norm, sampling", "src/operator/operator.cpp: get_expectation_value"]}
{"id": "C65", "title": "A measurement in rounded arithmetic", "statement": "A circuit of unitary gates, parametric rotations, probabilistic gates, measurements and gates conditioned on the classical register runs in floating point arithmetic. A measurement returns the outcome that the number drawn stands for, unless that number is closer to the exact probability of 0 than the rounding error; the outcome is written to the register, and the state that is left is close to the state left by the exact measurement: a distance d before becomes 2d / sqrt(p) plus the error of normalize(), where p is the probability of the outcome. If every number drawn decides its measurement or choice in this sense, the whole run shows the outcomes of the exact run, makes its choices, takes its branches and stays within the accumulated distance. A qubit that certainly shows 0 can be measured.", "quantifier": "all number types with relative rounding error at most 2^-8, circuits, normalised states, schedules, orders of summation of bounded height, numbers drawn", "why_tests_cant": "All circuits and states, all schedules and shapes of the parallel sums, and every number that may be drawn: the failing draws have probability 2^-24 or less.", "anchors": ["src/gate/gate_measurement.cpp: apply_measurement_update, MeasurementGateImpl::update_quantum_state", "src/state/state_vector.cpp: get_zero_probability, normalize", "src/circuit/circuit.cpp: update_quantum_state", "src/gate/update_ops_standard.cpp: p0_gate, p1_gate", "src/gate/gate_probabilistic.cpp: ProbabilisticGateImpl::update_quantum_state", "src/gate/param_gate_standard.cpp: ParamRXGateImpl::update_quantum_state"]}
{"id": "C66", "title": "Several state objects", "statement": "State vectors and batches made by a constructor, copy() or get_state_vector_at() are values: a program that works on any number of them - gates, circuits, sums, loads, set_state_vector, the methods of each - leaves in every object what the operations on separate vectors leave, so that a change of one is seen in no other. Objects made by assignment or by view_state_vector_at() share: both names show the same amplitudes, and a view shows its element of the batch, whatever is done through either. An operation leaves every object as it was that shares no amplitude with the one it writes.", "quantifier": "all programs over any number of objects of any sizes, all ways of sharing, all schedules, all numbers drawn", "why_tests_cant": "All programs, sizes and patterns of sharing: whether an update keeps the buffer of its state depends on the kind and the number of targets of every gate in the program.", "anchors": ["include/scaluq/state/state_vector.hpp: StateVector (default copy), copy, load", "src/state/state_vector.cpp: copy, load, add_state_vector_with_coef", "src/state/state_vector_batched.cpp: view_state_vector_at, get_state_vector_at, set_state_vector, set_state_vector_at, copy, load", "src/gate/update_ops_matrix.cpp: multi_dense_matrix_gate, sparse_matrix_gate (std::swap of the views)", "include/scaluq/state/density_matrix.hpp: DensityMatrix (default copy, _is_hermitian)"]}
{"id": "C67", "title": "Runs average to the quantum channel", "statement": "Take a circuit of gates, parametric gates, random (noise) gates, measurements with or without reset, and gates conditioned on the classical register, and run it from a normalised state with random numbers that are independent and uniform in [0,1). The average of |phi><phi| over the runs, phi being the final state, taken over the runs that leave the register showing r, is what the quantum instrument of the circuit gives for r: F rho F^+ for a gate, projection and reset for a measurement, the mixture with the given probabilities for a random gate, and the part of the ensemble whose register meets the condition for a conditional gate. So the mean of every expectation value, the probability of every register content and the averaged state are those of quantum mechanics.", "quantifier": "all circuits and parameters none of whose runs is stopped by an exception, all normalised states and register contents, all sizes, all schedules; the average is an iterated Riemann integral over all random numbers", "why_tests_cant": "An average over infinitely many runs; statistical tests only bound it for single circuits. A wrong interval boundary, a number used twice or a renormalisation by the wrong outcome changes the average, however long the circuit.", "anchors": ["src/circuit/circuit.cpp: update_quantum_state", "src/gate/gate_probabilistic.cpp: update_quantum_state", "src/gate/gate_measurement.cpp: update_quantum_state", "src/gate/param_gate_probabilistic.cpp: update_quantum_state"]}
{"id": "C68", "title": "Noise simulation estimates the channel", "statement": "The states returned by Circuit::simulate_noise, each taken as often as its multiplicity, are distributed like the final states of sampling_count independent samples, each of which picks one alternative of every random gate with the gate's probabilities (divided by their sum). So the mean over the returned states of anything computed from a state is unbiased, its variance is that of independent samples, and the mean density matrix is the circuit's quantum channel applied to the initial state, which is also what the circuit's own runs average to.", "quantifier": "all circuits of gates, parametric gates and random gates without measurements and conditions, all initial states, sampling counts, parameters and sizes, all schedules; expected values over all sequences of draws", "why_tests_cant": "The library draws gate by gate and groups equal samples, so the k-th draw does not belong to the k-th sample; that the grouping does not bias or correlate the samples is a statement about all sequences of draws. Tests compare one seeded run with a tolerance.", "anchors": ["src/circuit/circuit.cpp: Circuit::simulate_noise", "src/gate/gate_probabilistic.cpp: distribution, gate_list"]}
{"id": "C69", "title": "Samples are independent and follow the Born rule", "statement": "The basis states returned by sampling(count) are independent, and each is x with probability |psi_x|^2 divided by the squared norm, for state vectors, every element of a batched state and (with the diagonal) density matrices; drawing rejected samples again neither biases nor correlates them, and sampling returns with probability 1. Sampling once at the end of each run of a circuit shows x with the probability given by the circuit's quantum channel.", "quantifier": "all states of norm between 0 and 1, sampling counts, batch sizes, numbers of rejection rounds, and every quantity computed from the list of samples; averages over all sequences of random numbers", "why_tests_cant": "A distribution cannot be read off finitely many seeded draws, least of all its independence or what rejection does to it.", "anchors": ["src/state/state_vector.cpp: StateVector::sampling", "src/state/state_vector_batched.cpp: StateVectorBatched::sampling", "src/state/density_matrix.cpp: DensityMatrix::sampling"]}
{"id": "C70", "title": "A circuit does on any qubits of a larger register what it does alone", "statement": "Rename the qubits of a circuit, qubit i to qs[i] (distinct qubits of a register of n qubits), and run it on a register whose qubits qs are in the state psi and whose other qubits are in any normalised state phi. With the same parameters, classical register and random numbers it ends like the original circuit on psi alone: it returns or throws alike, leaves the original's final state at qs and phi beside it, shows the same classical bits and has drawn the same numbers. In particular qubits no gate names are left alone. A single gate does so on every state, entangled or not: for each setting of the other qubits.", "quantifier": "all register sizes, all injections of qubits in any order, all circuits of gates, inverses, Pauli strings and rotations, matrices, random gates, measurements with and without reset, parametric gates and conditions, all states psi and phi, parameters, random numbers and schedules", "why_tests_cant": "Each placement takes other kernels and mask orders (targets below, above or between the others, sorted or not); there are n!/(n-m)! placements for every circuit, and measurements make the outcome depend on sums over all amplitudes.", "anchors": ["src/gate/update_ops_matrix.cpp", "src/gate/update_ops_standard.cpp", "src/gate/gate_pauli.cpp", "include/scaluq/gate/gate_factory.hpp", "src/circuit/circuit.cpp: Circuit::update_quantum_state", "src/gate/gate_measurement.cpp"]}
{"id": "C71", "title": "Reading a document gives an object or an exception", "statement": "Reading JSON (gates, parametric gates, circuits, Pauli operators, operators, batched operators, states, batched states, density matrices) or OpenQASM text from an untrusted source either gives an object or throws; it is never undefined. For JSON this holds for every document whose indices are in range, whose controls are below 64 and have a value each, whose permutations have fewer than 64 qubits, whose complex numbers have both parts and whose matrices are rectangular, however malformed it is otherwise; each of these conditions is needed. For OpenQASM it holds for every text that does not declare more than 64 qubits, and whichever order the compiler picks for evaluating the arguments the outcome is otherwise the same.", "quantifier": "every JSON value of any depth and size, every OpenQASM text, both evaluation orders, every previous contents of the state", "why_tests_cant": "Malformed documents form an infinite set, and undefined behaviour usually passes a test unnoticed; the outcome may also depend on the evaluation order of the compiler under test", "anchors": ["include/scaluq/gate/gate.hpp: from_json", "include/scaluq/gate/param_gate.hpp: from_json", "include/scaluq/circuit/circuit.hpp: from_json", "src/gate/gate_standard.cpp: DECLARE_GET_FROM_JSON", "include/scaluq/types.hpp: from_json", "include/scaluq/operator/pauli_operator.hpp: from_json", "include/scaluq/state/state_vector.hpp: from_json", "include/scaluq/state/density_matrix.hpp: from_json", "src/qasm/qasm2.cpp: loads, Reader", "include/scaluq/util/utility.hpp: vector_to_mask"]}
{"id": "C72", "title": "Calling update_quantum_state from Python", "statement": "Parameters given by keyword are the parameters given in a dict, and a circuit runs with exactly these: parameters it does not have make no difference, a parameter that is missing makes the call throw with the state unchanged, an empty dict is no parameters. Parameters given in two ways, values or registers of the wrong kind for the state (single or batched) are rejected with nothing changed. A call depends on its arguments and seed only, not on what was drawn before, and a call without a seed does what it does with some seed.", "quantifier": "all circuits, gates and parametric gates, register sizes and batch sizes, dictionaries, keyword arguments, kinds of register, seeds, random engines and schedules", "why_tests_cant": "The combinations of state, register, parameter and seed arguments multiply with every circuit and every parameter set; tests try a handful. The one combination in which a length is not checked (batched rotation, no register, no seed) reads past the end of a list, which a test run may not notice.", "anchors": ["include/scaluq/circuit/circuit.hpp: update_circuit_state, register_circuit_update_quantum_state", "include/scaluq/gate/gate.hpp: GateBase::update_quantum_state, update_gate_state", "include/scaluq/gate/param_gate.hpp: ParamGateBase::update_quantum_state, update_param_gate_state", "src/circuit/circuit.cpp: Circuit::update_quantum_state", "include/scaluq/util/random.hpp: resolve_seed"]}
{"id": "C73", "title": "The order of gates on different qubits does not matter", "statement": "Let neighbouring instructions of a circuit change places any number of times, where one of the two is a gate without condition and the other anything on other qubits, or both are gates (with any conditions) on different qubits. With the same initial state, parameters, classical register and random numbers both circuits return with the same state, the same classical bits and the same numbers still to be drawn, or both throw. If measurements and random gates that touch no common qubit and no common classical bit change places with each other, single runs with a given seed may differ, but on average over the random numbers the density matrix for every content of the register and the frequencies of the register's contents stay the same.", "quantifier": "all circuits of norm-keeping gates, inverses, parametric gates, random gates, measurements with and without reset and conditions, all sequences of such exchanges, all normalised states, parameters, random numbers and schedules", "why_tests_cant": "The number of admissible orders grows exponentially with the circuit; the statement about averages is about all seeds at once.", "anchors": ["src/circuit/circuit.cpp: Circuit::update_quantum_state", "src/gate/gate_measurement.cpp", "src/gate/gate_probabilistic.cpp", "src/gate/update_ops_standard.cpp", "src/gate/update_ops_matrix.cpp"]}
{"id": "C74", "title": "A gate says truthfully which qubits it acts on", "statement": "The lists a gate returns (target_qubit_list, control_qubit_list, control_value_list, operand_qubit_list, and the masks) name exactly the targets and controls the factory was asked for, in increasing order and with each control next to its value; the inverse returns the same lists; probabilistic gates return the operands of their alternatives and throw for the other lists. An update leaves every amplitude alone where a listed control does not have its listed value, and mixes only amplitudes whose indices differ in listed targets.", "quantifier": "every factory call with any targets, controls and values; parametric gates, measurements, probabilistic gates nested to any depth, inverses; every state, register size, batch size and schedule", "why_tests_cant": "The lists are computed from bit masks of arbitrary operands, and what a gate does not touch ranges over all states and all other qubits.", "anchors": ["include/scaluq/gate/gate.hpp: target_qubit_list, control_qubit_list, control_value_list, operand_qubit_list, *_mask", "include/scaluq/gate/param_gate.hpp: same", "include/scaluq/gate/gate_probabilistic.hpp", "include/scaluq/gate/param_gate_probabilistic.hpp", "include/scaluq/gate/gate_measurement.hpp"]}
{"id": "C75", "title": "What is done to some qubits does not show on the others", "statement": "Running a circuit leaves the other qubits as they were: averaged over the random numbers, every marginal probability of qubits that no gate of the circuit names, every expectation value of an operator on such qubits and every entry of their reduced density matrix are what they were before, however the circuit measures, resets, draws noise and conditions its gates and however entangled the qubits are. A circuit that draws no random number keeps them in every single run.", "quantifier": "every circuit that keeps the norm, measures into existing bits and touches no measured qubit again without reset; every normalised state, register, parameters, observable on other qubits and schedule", "why_tests_cant": "A test compares a few observables on a few states; the statement is about every observable on the untouched qubits, every entangled state and the average over all random numbers.", "anchors": ["include/scaluq/circuit/circuit.hpp: Circuit::update_quantum_state", "src/circuit/circuit.cpp: update_quantum_state", "include/scaluq/gate/gate_measurement.hpp", "include/scaluq/gate/gate_probabilistic.hpp", "include/scaluq/state/state_vector.hpp: get_marginal_probability", "include/scaluq/operator/operator.hpp: get_expectation_value"]}
{"id": "C76", "title": "Conditioning on a measured bit is controlling by the qubit", "statement": "Measuring a qubit into a classical bit, with or without reset, and then applying a gate on other qubits on condition that the bit shows v does the same as first applying that gate with the qubit as an additional control of value v and then measuring: with the same random numbers and parameters both circuits end in the same state, the same register and after the same number of draws. This holds at any place in a circuit and for any number of such gates.", "quantifier": "every circuit that keeps the norm, every gate a factory can make (parametric ones included) and its version with one more control, both values of the bit, every normalised state, register, random numbers and schedule; the circuits return", "why_tests_cant": "It relates two code paths, the classical register with conditional execution and the control masks of the kernels, for every gate, state and random number; a test can only compare a few.", "anchors": ["src/circuit/circuit.cpp: update_quantum_state", "src/gate/gate_measurement.cpp: update_quantum_state", "include/scaluq/circuit/circuit.hpp: add_gate with a condition", "include/scaluq/gate/gate_factory.hpp", "src/gate/update_ops_standard.cpp"]}
{"id": "C77", "title": "Measuring several qubits follows the Born rule jointly", "statement": "Measuring different qubits one after another into different classical bits, in any order and with or without reset, makes the bits come out as a given string with exactly the weight the state had on the basis states in which these qubits show that string; measuring all qubits gives the bits of x with probability |psi_x|^2. Measurements at the end of any circuit (with noise, conditional gates and earlier measurements) give each string as often as the circuit without them leaves weight on it, on average.", "quantifier": "every number of qubits below 64, every list of different qubits and different bits, every string, every normalised state, register, parameters and schedule; for the second part every circuit that keeps the norm and touches no qubit measured before and not reset; averages over all random numbers", "why_tests_cant": "Each measurement draws its own random number and rescales the state, so the joint distribution depends on all intermediate states; sampling shows frequencies for a few states only.", "anchors": ["src/gate/gate_measurement.cpp: update_quantum_state", "src/circuit/circuit.cpp: update_quantum_state", "include/scaluq/gate/gate_factory.hpp: Measurement"]}
{"id": "C78", "title": "Circuits act linearly and do not see a global phase", "statement": "A circuit without measurements and random gates takes a superposition a*psi1 + b*psi2 to the same superposition of what psi1 and psi2 become, for unitary and other gates alike, and if its gates keep the norm it keeps the inner product of any two states. Any circuit, also with measurements, conditional gates and noise, run from a state and from that state times a phase with the same random numbers ends with the same classical register and draws, and in states that differ by that phase; it throws in both or in neither.", "quantifier": "every circuit, parameters, number of qubits below 64, all states (normalised for the phase), registers, random numbers, complex coefficients, phases and schedules", "why_tests_cant": "Linearity is a statement about all states and coefficients at once; in the code it has to survive kernels with in-place updates, control masks and the choice of an outcome by comparing a random number with a probability computed from the state.", "anchors": ["src/circuit/circuit.cpp: update_quantum_state", "src/gate/update_ops_standard.cpp", "src/gate/update_ops_matrix.cpp", "src/gate/gate_measurement.cpp: update_quantum_state"]}
{"id": "C79", "title": "Adding circuits is running them one after another", "statement": "Running the circuit made by adding a second circuit to a first leaves the same state, classical register and random numbers still to be drawn as running the first and then the second on the same state, whenever the combined circuit returns. The converse does not hold: a gate on a qubit that the first circuit measured and did not reset makes the combined circuit throw, while two calls accept it.", "quantifier": "every pair of circuits that keep the norm, every normalised state, register, parameters, random numbers and schedule, number of qubits below 64", "why_tests_cant": "The combined run checks operands and parameters once for both parts, shares the list of measured qubits and draws from one generator; that nothing else depends on where the circuit was cut is a statement about all circuits and runs.", "anchors": ["include/scaluq/circuit/circuit.hpp: add_circuit", "src/circuit/circuit.cpp: update_quantum_state"]}
{"id": "C80", "title": "Printed text shows the object", "statement": "The text of to_string of a state, a batch of states, a density matrix, an operator, a batch of operators, a measurement or a gate names every part of the object: the size, one line for each basis state (in binary) or matrix entry in order with the value held there, one line for each term whose quoted part reads back as the term, and for a gate its name, angles, targets, controls and control values. Two objects with the same text differ at most in how their numbers print. Pauli and Pauli rotation gates do not say their control values, so two that act differently can have the same text; the same holds for parametric rotations, and parametric Pauli rotations do not say their coefficient either.", "quantifier": "every state, batch and density matrix on fewer than 64 qubits, every operator with 64-bit masks, every gate with legal masks, every indentation without a newline and every way to print a number on one line", "why_tests_cant": "A test compares a few texts; that no two different objects print alike, and that every line carries the value of the index it names, ranges over all objects.", "anchors": ["src/state/state_vector.cpp: to_string", "src/state/state_vector_batched.cpp: to_string", "src/state/density_matrix.cpp: to_string", "src/operator/pauli_operator.cpp: to_string", "src/operator/operator.cpp: to_string", "src/operator/operator_batched.cpp: to_string", "src/gate/gate.cpp: get_qubit_info_as_string", "src/gate/gate_standard.cpp: to_string", "src/gate/gate_measurement.cpp: to_string", "src/gate/gate_pauli.cpp: to_string", "src/gate/gate_probabilistic.cpp: to_string", "src/gate/param_gate.cpp: get_qubit_info_as_string", "src/gate/param_gate_standard.cpp: to_string", "src/gate/param_gate_pauli.cpp: to_string"]}
{"id": "C81", "title": "Gate identities", "statement": "Gates on the same target with the same controls and control values satisfy the textbook identities: rotations and phases add their angles and do nothing at angle 0 (also Pauli rotations, with any coefficient, and global phases), T T = S, S S = Z, the square roots of X and Y square to X and Y, X, Y, Z and H, and also Swap, Ecr, CX, CZ, CCX, Pauli gates whose coefficient squares to 1 and matrix gates whose matrix squares to the identity, are their own inverses, CZ acts the same with control and target exchanged, CX is CZ between two H on the target, three alternating CX are a Swap, any gate between two X on one of its controls is the gate with the other control value, the order of controls and of the targets of a Swap does not matter, gates with diagonal matrices can be exchanged whatever qubits they share, projections are idempotent, H exchanges X with Z and RX with RZ, X and Z reverse each other's rotations, and U1, U2 and U3 at the named angles are Z, S, T, H, RX and RY. Exchanging one side for the other does not change the resulting state, also in the middle of any longer sequence of gates, and for the one-target identities and for Swap, Ecr, CX, CZ and CCX applied twice not the resulting density matrix either.", "quantifier": "every target, controls and control values, all angles, every batch of states on fewer than 64 qubits, every vector length and schedule", "why_tests_cant": "Each identity ranges over all angles, operands and states, and relates update routines written independently of each other (bit flips, phases, general 2x2 updates, Pauli kernels).", "anchors": ["include/scaluq/gate/gate_factory.hpp", "src/gate/update_ops_standard.cpp", "src/gate/gate_standard.cpp", "src/gate/gate_pauli.cpp", "include/scaluq/operator/apply_pauli.hpp"]}
