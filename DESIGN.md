# A machine-checked model of scaluq (plan and trusted base)

The development is a Rocq (Coq 8.16.1) model of the C++ in `/repo` (qulacs/scaluq at the pinned
commit) with proofs of the properties listed in `properties.jsonl`.  `MANIFEST.json` maps each
property to theorem names; `seeded/LOG.jsonl` records the mutation experiments.

## Trusted base

* Coq's kernel (and `coqchk`).
* The axioms of the standard library's real numbers, which `Print Assumptions` lists under every
  theorem that speaks about amplitudes, angles or probabilities:
  `ClassicalDedekindReals.sig_forall_dec`, `ClassicalDedekindReals.sig_not_dec`,
  `FunctionalExtensionality.functional_extensionality_dep`, and for theorems that use the standard
  library's trigonometry, logarithm or case analysis on real propositions also `Classical_Prop.classic`.
  Theorems about bits, masks, lists,
  parsing, registers and scheduling are closed under the global context.
* The reading of the C++ text: every definition of the model cites the file and lines it models.

## What is modelled and how

* **Scalars.** `Cplx.v` defines complex numbers as pairs of standard-library reals.  Except
  in C62 to C65 the statements are about exact arithmetic.  C62 models the rounding of the gate updates (`Float.v`), C63
  that of the numbers read from a state (`FloatState.v`), C64 both together, C65 that of measurements (`FloatCircuit.v`): any
  number type with a given relative and absolute rounding error, fused or separate products, an inexact
  mathematical library.  Overflow, NaN and infinities are not modelled anywhere.
* **64-bit integers.** `N` with explicit wrap-around (`Prelude.v`).  Shifts by 64 or more are
  undefined behaviour, a distinct outcome.
* **Parallel loops.** `Par.v`: the body of a `Kokkos::parallel_for` iteration is a small program of
  reads and writes; a loop is a set of such programs run by an interleaving machine that may pick any
  iteration at each step.  An access outside the view is the outcome `OutOfBounds`; two accesses by
  different iterations to one element, one of them a write, is the outcome `DataRace`.  A general
  theorem says that footprint-disjoint loops have neither, and that every schedule ends in the memory
  of the sequential loop.  `parallel_reduce` is an arbitrary reduction tree over the iterations.
* **SIMD lanes.** Lane groups are modelled with an arbitrary power-of-two lane count; a group that leaves
  the row of its batch element counts as an invalid access.
* **Host code.** `Host.v`: methods are relational programs over a `world` (amplitudes, the buffer that a
  view still refers to, classical register, stream of random draws) with outcomes done, thrown (with the
  world reached so far) and undefined.  A run is correct if *every* outcome of the relation, for every
  schedule of the kernels inside it, satisfies the claim and at least one outcome exists.
* **Random numbers.** A generator is an arbitrary stream of reals in [0,1); `bernoulli_distribution(p)` and
  `discrete_distribution` are functions of the draw, undefined outside their documented parameters.
* **Circuits.** `CircuitSpec.v` gives a reference semantics (functions on vectors, measurements, random
  choices, conditions) that knows neither masks nor kernels; gate objects are tied to it by the factory
  call that made them (`stands`, `pstands`, `circuit_is`).
* **Outcomes.** `res A := Ok a | Throw | UB`; the text of exceptions is not modelled.
* **Kernels, gates, operators, circuits, states** are modelled function by function on top.
* Not modelled: CUDA (`ExecutionSpace::Default`) specific memory transfer, Python bindings (except what update_quantum_state does with its converted arguments, `Front.v`), doc strings,
  the `to_string` printers outside `Print.v`, `PrintMore.v` and `PrintProb.v` and the way a stream prints a number, the quality of the random number generators (generators are arbitrary
  streams of draws), and rounding outside the gate updates of C62,
  the numbers read from a state vector of C63 and C64 and the measurements of C65.

## Files (`rocq/theories`)

| file | contents |
|---|---|
| `Prelude.v` | outcomes, 64-bit arithmetic, list helpers |
| `Bits.v`, `BitsProofs.v`, ... | `util/utility.hpp` bit functions |
| `Par.v`, `Reduce.v` | interleaving machine for parallel loops; reduction trees |
| `Cplx.v`, `Spec.v` | complex numbers; mathematical specifications (matrix on listed qubits, Pauli tensor products) |
| `Kernels.v`, `KernelsProofs*.v` | `update_ops_*.cpp`, `apply_pauli.hpp` |
| `Gates.v`, `GateSpec.v`, `GatesProofs*.v` | gate objects, factories, matrices, inverses |
| `Pauli.v`, `PauliText.v`, `Operator.v`, ... | Pauli strings, their text form, operators |
| `Merge.v`, `MergeSpec.v`, `MergeProofs*.v` | `merge_gate.cpp`, expanded matrices |
| `Host.v`, `State.v`, `StateSpec.v`, `StateProofs*.v` | state vectors, sampling, classical registers |
| `Circuit.v`, `CircuitSpec.v`, `CircuitProofs*.v` | measurement, probabilistic and parametric gates, circuits |
| `Optimize.v`, `OptimizeSpec.v`, `OptimizeProofs*.v` | Circuit::optimize (circuit.cpp:328-486) |
| `Rotation.v`, `RotationSpec.v`, `RotationProofs*.v`, `PropertiesRotation.v` | Circuit::add_observable_rotation_gate (circuit.hpp:102-124) |
| `Haar.v`, `HaarSpec.v`, `HaarProofs*.v`, `PropertiesHaar.v` | random states (state_vector.cpp:31-37, 70-99 and the batched and density-matrix versions); the numbers of the Kokkos generators are parameters |
| `InverseSpec.v`, `InverseProofs.v`, `InverseProofs2.v`, `PropertiesInverse.v` | nothing new is modelled: the circuits put together from factory gates and inverses, closed under inverses (C20) |
| `Random.v`, `RandomProofs.v` | Random::permutation (random.hpp:32-42); the engine is an arbitrary stream of 64-bit numbers |
| `QasmText.v`, `Qasm.v`, `QasmSpec.v`, `QasmProofs*.v` | src/qasm/qasm2.cpp on lists of characters: statements, angle expressions (strtod without rounding), registers, gates, measurement, loads, dumps; the printing of angles is a parameter; reading and writing files is not modelled |
| `Noise.v`, `NoiseSpec.v`, `NoiseProofs*.v` | Circuit::simulate_noise (circuit.cpp:501-601); the indices drawn by std::discrete_distribution are an arbitrary stream |
| `Density.v`, `DensitySpec.v`, `DensityProofs*.v` | DensityMatrix (density_matrix.cpp) and the density-matrix kernels (update_ops_dm_standard.cpp); not modelled: printing, the int league size of Kokkos team policies |
| `Gradient.v`, `GradientSpec.v`, `GradientProofs*.v` | Circuit::compute_expectation_gradient and compute_expectation_gradient_backprop (circuit.cpp:655-770); doubles are reals |
| `Atomic.v` | parallel_for whose iterations may also use atomic additions: the machine, its data races, and a condition under which it is race-free and deterministic |
| `OperatorBatched.v`, `OperatorBatchedSpec.v`, `OperatorBatchedProofs*.v`, `RowProofs.v` | OperatorBatched (operator_batched.cpp) and the kernel of get_applied_states (apply_pauli.hpp); not modelled: printing, random construction |
| `Json.v`, `JsonSpec.v`, `JsonProofs*.v`, `MatrixJson.v`, `MatrixJsonProofs.v` | to_json and from_json of gates, parametric gates, circuits, Pauli operators, operators, batches, states, dense and sparse matrices; JSON is a tree with real numbers. Trusted: that nlohmann's dump and parse are inverse on such trees, including floating point; a `get` of a wrong alternative throws; `operator[]` on a const object without the key is undefined |
| `Ground.v`, `GroundSpec.v`, `GroundProofs*.v` | the ground-state solvers: default shift, power method, Arnoldi method. Trusted: Eigen's eigenvalue solver, a parameter with a stated contract; division by a norm 0 is undefined (NaN) |
| `Float.v`, `FloatSpec.v`, `FloatProofs*.v` | the kernels of the gate updates in rounded arithmetic (C62): complex products and sums, SIMD products, gate matrices from sin, cos, exp and polar, Pauli gates and rotations, the sums of matrix gates in any order. Flocq's rounding to nearest is an instance. |
| `FloatState.v`, `FloatStateSpec.v`, `FloatProofs12.v` to `FloatProofs18.v` | norms, probabilities, inner products, expectation values, normalize() and sampling() in rounded arithmetic (C63): parallel sums as trees of rounded additions, the parallel scan as chunks. |
| `SimulationSpec.v`, `FloatProofs19.v`, `FloatProofs20.v` | circuits and the numbers read afterwards, both in rounded arithmetic (C64). |
| `FloatCircuit.v`, `FloatMeasureSpec.v`, `FloatProofs21.v` to `FloatProofs26.v` | measurements, and circuits with measurements, conditions, parametric and probabilistic gates, in rounded arithmetic (C65). The conversion of a double to a smaller type is one rounding. |
| `Objects.v`, `ObjectsDensity.v`, `ObjectsSpec.v`, `ObjectsProofs.v` to `ObjectsProofs4.v`, `ObjectsDensityProofs.v` | several objects at once: buffers, names, copies, assignments, views, and which of them an update writes (C66). Buffers are not freed; the padding of batched arrays is left out. |
| `ChannelSpec.v`, `ChannelProofs.v` to `ChannelProofs5.v` | the quantum channel of a circuit, and averages over the random numbers as iterated Riemann integrals (C67). Uses `is_RInt` of Coquelicot as the definition of the integral. |
| `NoiseMeanSpec.v`, `NoiseMeanProofs.v` to `NoiseMeanProofs5.v` | expected values of what `simulate_noise` returns, over all sequences of draws (C68). |
| `SamplingMeanSpec.v`, `SamplingMeanProofs.v`, `SamplingMeanProofs2.v` | the distribution of samples (C69). |
| `PlaceSpec.v`, `PlaceProofs.v` - `PlaceProofs5.v` | circuits moved to other qubits, idle qubits (C70). |
| `OrderSpec.v`, `OrderProofs.v` - `OrderProofs4.v`, `PropertiesOrder.v` | nothing new is modelled: circuits whose gates are put in another order (C73). |
| `Reports.v`, `ReportSpec.v`, `ReportProofs.v`, `PropertiesReport.v` | `gate.hpp` and `param_gate.hpp` getters for targets, controls, control values, operands and masks, their overrides in the probabilistic gates (C74). |
| `SignalProofs.v` - `SignalProofs4.v`, `PropertiesSignal.v` | nothing new is modelled: what a circuit leaves of the qubits it does not name (C75). |
| `DeferSpec.v`, `DeferProofs.v` - `DeferProofs3.v`, `PropertiesDefer.v` | nothing new is modelled: gates conditioned on a measured bit against controlled gates (C76). |
| `BornSpec.v`, `BornProofs.v`, `BornProofs2.v`, `PropertiesBorn.v` | nothing new is modelled: the joint distribution of several measurements (C77). |
| `LinearSpec.v`, `LinearProofs.v`, `PropertiesLinear.v` | nothing new is modelled: superpositions, inner products and global phases (C78). |
| `SequenceSpec.v`, `SequenceProofs.v`, `PropertiesSequence.v` | nothing new is modelled: add_circuit against two calls (C79). |
| `Print.v`, `PrintSpec.v`, `PrintProofs.v`, `PrintProofs2.v`, `PrintProofs3.v`, `PropertiesPrint.v`, `PrintMore.v`, `PrintProofs4.v`, `PrintProb.v`, `PrintProbSpec.v`, `PrintProofs5.v`, `PropertiesPrint2.v` | to_string of states, batches, density matrices, operators, standard gates, Ecr, permutation, Pauli, probabilistic and parametric gates and measurements (C80). The printing of numbers is a parameter; matrix gates and parametric probabilistic gates are left out. |
| `IdentitySpec.v`, `IdentityProofs.v`, `IdentityProofs2.v`, `IdentityProofs3.v`, `IdentityProofs4.v`, `IdentityProofs5.v`, `IdentityProofs6.v`, `IdentityProofs7.v`, `IdentityProofs8.v`, `IdentityProofs11.v`, `IdentityProofs12.v`, `IdentityProofs13.v`, `PropertiesIdentity.v`, `IdentityDensitySpec.v`, `IdentityProofs9.v`, `IdentityProofs10.v`, `PropertiesIdentity2.v` | nothing new is modelled: identities between gates (C81). |
| `ReadSpec.v`, `ReadProofs.v` - `ReadProofs4.v` | untrusted documents are read or rejected (C71). |
| `Front.v`, `FrontSpec.v`, `FrontProofs.v`, `FrontProofs2.v` | the public overloads of update_quantum_state and the functions behind it in Python (C72). |
| `Properties*.v` | the property theorems only, each `exact`ing a lemma, with `Print Assumptions` |

## Plan per property

* C01, C02: model the bit loops on `N` with wrap; prove bijection / round-trip by induction over the set
  bits of the mask.
* C03: `Par.v` machine; footprint lemmas per kernel from C01; all interleavings.
* C04-C07, C09-C11: kernel = independent matrix action (`Spec.apply_matrix` over listed qubits), for all
  sizes; dense, sparse, permutation by induction.
* C08: SIMD kernels modelled with an arbitrary power-of-two lane count, proved equal to the scalar ones.
* C12-C15: Pauli strings as X/Z masks; action against a tensor-product spec by induction on qubits;
  text form as a parser/printer pair over characters.
* C16-C18, C48: sums over basis states; half-range loops re-indexed by the C01 bijection.  Known or
  suspected violations become `_refuted` theorems with witnesses.
* C19-C24: gate datatype, `get_inverse`, `get_matrix`, `get_expanded_matrix`, `merge_gate` case by case.
* C25-C28, C46: circuits as lists; optimise as the C++ scheduling algorithm over arrays; refutation where
  the code is wrong, a `_partial` theorem on the circuits where it is right.
* C29-C36: measurement, sampling, probabilistic gates, density matrices.
* C54: density matrices after any sequence of calls; the flag as a second component.
* C37-C38: factories and validation.
* C39, C55, C56: JSON as a tree. Round trips by induction on the gates a program can hold; soundness of reading by
  induction on the depth of the document.
* C57: the power method, by the moments <psi|(mu-A)^k|psi>: Cauchy-Schwarz for mu - A makes their ratios rise, and a
  bounded ratio would make the overlap with a ground state outgrow the norm.
* C58: the Arnoldi loop keeps an orthonormal basis of the Krylov space and the compression of the operator to it
  (inductive invariant); optimality from orthogonality of the eigenvectors of the Hermitian compression.
* C40-C43, C53: OpenQASM at the level of characters: a grammar of sources, expressions and statements as
  inductive relations, the reader proved to follow it in both directions, the writer proved to write
  sources of that grammar.
* C52: circuits built by any sequence of calls; gates, keys and conditions stay aligned.
* C44, C45, C49, C50: utilities.
* C47: the model runs the two state vectors backwards through the circuit; the specification is the standard library's
  `derivable_pt_lim` of <psi(v)|O|psi(v)>. Proved by the product rule over the layers: a layer with the key adds
  -i s/2 P psi to the derivative, a rotation by pi/s is the same vector, and unitarity moves inner products back.

* C59: what merge_gate returns uses no qubit its arguments do not use, and its targets are never controls both arguments
  share; two Pauli gates merge to a Pauli gate or I.  An invariant of the loop of optimize (every gate in the pool and
  in the output is original, Pauli or small; a waiting entry points to a gate on that qubit) then gives the bound.
* C60: the product of rotations S(t) of one repetition satisfies S' = - i H S + r, where r collects the commutators of the
  terms and is at most proportional to t; the distance to the solution of E' = - i H E has a derivative bounded by the norm
  of r, which integrates to the bound. The repetitions add up because every rotation keeps the norm. The evolution exists
  as a power series (Coquelicot's lemmas, which add no axiom) and is unique because the norm of a difference is constant.
* C61: a small-step machine over the iterations and the pool of generators; an invariant gives every begun iteration its
  generator and the number of its pair of draws, and says that a generator has one holder and an even count when free. The
  work left falls with every step. The refutation runs two iterations in both orders.
* C62: each kernel is run with rounded operations under every schedule; the value it leaves at an address differs from the
  exact one by at most 73 units times the moduli of the amplitudes read (errors of the gate matrix, the products and the
  sums), which gives a bound in the norm because the masks only permute the amplitudes. Exact gates keep the norm, so the
  errors of a sequence add up. The sums of matrix gates on many qubits are reduction trees as in Reduce.v, and the error of
  a tree grows with its number of leaves. Flocq proves that binary floating point meets the assumptions.
* C63: a parallel sum is a tree of rounded additions; by induction on the tree its error is at most that of its leaves times
  (1 + 3u/2)^h, plus ((1 + 3u/2)^h - 1) times the sum of the moduli. The entries of the scan that sampling() searches are
  such trees too, so the binary search brackets the number drawn up to the error of a sum. The stalling sums are computed
  with Flocq: the sum reaches 2^prec times the summand, and adding one more is a tie that is rounded to even.
* C64: expectation values and probabilities are continuous in the state (Cauchy-Schwarz; a probability is the squared norm of
  the masked state), so the distance of C62 carries over to them; C63 for the computed state gives the other summand.
* C65: every kernel writes numbers of the type only, so the projections of a measurement are exact; the computed zero
  probability is that of C63, normalize() that of C63, and normalising two close vectors leaves them close.  A circuit
  is followed by induction along its exact run, as long as every draw is farther from the probability than the error.
  The product of a coefficient and a parameter is rounded twice, and a rotation is Lipschitz in its angle; the partial sums of
  a distribution are added in doubles, so a draw away from their ends picks the same gate.
  Where a probability is 1 this cannot be asked, and there the code fails: two concrete runs in double and single precision.
- **C66** Model: a store of buffers; an object is a shape, a buffer and an offset; a method runs the host program of `State.v` or
  `Circuit.v` on the amplitudes the object points to and the result is put back, or, after a swap, becomes a new buffer.
  Specification: an environment of values (`vstep`).  Simulation for programs without assignments and views: no two names share a
  buffer.  For arbitrary sharing a relation between the store before and after every operation (`moved`) gives the frame
  theorems; that in-place updates keep the buffer is an induction over host programs.
- **C67** Specification: ensembles (a density matrix for every register content) and the channel of each gate.  The statement is an
  iterated integral over the random numbers, each uniform in [0,1).  One gate is followed with an arbitrary continuation and an
  arbitrary linear quantity of the ensemble; measurements and choices split [0,1) into intervals, on each of which the run goes
  one way.  The channels of lists are linear and depend only on the entries below 2^n, so the induction goes through; C26 then
  links the reference runs to the library's.
- **C68** Specification: expected values are finite sums over the draws, whose laws are read off the distributions the code hands to
  `std::discrete_distribution`; a sample picks an alternative per gate.  The states of the model's run are a function of the draws
  (from the proof of C46: entry i of a level consumes its own consecutive draws).  Up to order, the samples after a gate are the old
  samples, each with its draw; expected values of symmetric quantities do not depend on the order of the samples, so gate after gate
  is the same as sample after sample.  The channel follows by linearity, the agreement with runs from C67.
- **C69** Specification: averages over independent uniform numbers (as in C67); a sample has a law, the samples are independent copies.
  One search of the model is a step function of its number, so its mean is a weighted sum.  One round of the rejection loop is
  evaluated key by key; induction over the rounds turns the weights into a geometric series.  The keys are abstract, so the batched
  version (keys are pairs) is the same lemma; the density matrix reduces to a state vector of square roots.
- **C70** (renamed and idle qubits).  `move qs` renames the qubits of a factory call; `moved_circuit` relates two circuits made by the
  same calls.  A gate: gathering the bits qs commutes with the index arithmetic of the textbook action, Pauli strings are compared
  through their order-independent action, inverses by injectivity.  A circuit: the reference execution of the large register is pulled
  back to the small one (probabilities of product states factor), and C26 plus determinism of the reference execution link both runs.
- **C71** Malformed documents: the readers of `Json.v` and `Qasm.v` keep undefined behaviour as an outcome (a missing key of a const object, a double out of the range of u64, a shift by 64, a vector read past its end). A predicate on the whole JSON tree says what is needed of a document; every reader is shown never to end undefined under it, by induction on the nesting. For OpenQASM the two orders in which arguments may be evaluated are compared, and a text that is undefined in one of them is shown to declare more than 64 qubits. Witnesses show that every condition is needed.
- **C72** Python calls: `Front.v` models the functions called with the variants nanobind has filled in, with the seed as an argument and `engine s` the random numbers of a seed. Equality of the sets of outcomes of two calls, rejection and repeatability are proved by unfolding; the keyword loop by induction on the keywords.
- **C73** The order of gates: `reordered` is the closure of exchanges of neighbours. Functions on disjoint qubits commute, and so do the steps of the reference execution; C26 plus its determinism carry this over to the library's runs. For random gates the channels of C67 are taken apart into maps on density matrices and on register contents; what commutes with the pieces commutes with the channel, by induction on the gate.
- **C74** What a gate reports: the masks of a factory gate are known from the proof of C04-C13 (their bits are the targets and controls asked for), lists and masks are inverse by C02, and the update is the textbook matrix on these qubits. Probabilistic gates by induction over their nesting.
- **C75** No signalling: the averaged run of a circuit is its channel (C67). An observable on other qubits commutes with every matrix of the circuit, so it can be moved in front of the channel, column by column of the density matrix (the commutation lemmas of C73); what is left is that the channel keeps the trace, which follows from norm_kept for every gate, measurement and choice by induction over the circuit. Marginal probabilities, Pauli operators and entries of the partial trace are such observables.
- **C76** Deferred measurement: the controlled gate acts as the gate where qubit q shows v and as the identity elsewhere, so it changes neither probability of q (the gate keeps the norm of the part where q shows v) and the same random number gives the same outcome; the projection commutes with a matrix that does not act on q. In a circuit: every run of the controlled version that ends normally is a run of the conditional version (dexec, as for C28 and C73), closed under contexts and repetition.
- **C77** Joint Born rule: the averaged run is the channel of the circuit (C67); for a list of measurements, induction over the list with the set of registers that agree on the bits read so far: the trace of the collapsed density matrix is the weight of the part where the qubit shows the bit (a reset only permutes the basis states), and the sum over registers with one bit fixed counts each content before the measurement once.
- **C78** Linearity: the reference execution of a list of gates with conditions on a fixed register is one map on the state (induction over the list), linear and, with norm_kept, norm-preserving, so by polarisation it keeps inner products. Phases: every step of the reference execution commutes with a phase (probabilities do not change), and executions with given random numbers are deterministic.
- **C79** Sequences: a run of the joined list of gates splits into a run of the first part and one of the second that starts with the qubits measured so far; forgetting measured qubits only removes reasons to throw. Both sides are then determined by the random numbers.
- **C80** Printing: `lines` splits a text at its newlines; induction over the loops gives the lines of every text. Decimal numbers are injective by the value of their digits, comma lists because a comma is no digit, quoted Pauli strings by the round trip of C15; so equal texts come from objects that print alike. The Pauli gate is refuted by two gates that differ in a control value. Ecr, permutation and parametric gates go the same way (`PrintMore.v`); the text of a parametric rotation tells everything but the control values. The entries of a probabilistic gate (`PrintProb.v`) are told apart by the ruler, which is no line of an entry.
- **C81** Identities: the matrices of the two sides agree entry by entry (trigonometric identities); applying gates in turn on the same operands is applying the product of their matrices (C04, C13). Swap, Ecr, CX, CZ, CCX and Pauli matrices square to the identity. CX against H CZ H, and CZ with control and target exchanged, by cases on the two bits; three CX permute the basis as Swap does. Flipping the bit of a control commutes with everything a gate does to its targets. On density matrices the sandwiches of C33 compose. Inside a longer sequence: each later gate's result depends only on the state before it (its matrix applied to the amplitudes in range). A diagonal matrix multiplies each amplitude by a number, so diagonal gates can be exchanged.
