(** C39, C55, C56: JSON.
    [held] / [held_param]: a gate a program can hold; [fresh_gate] / [fresh_param]: made by factories without get_inverse.
    [readable]: neither the gate nor one of its alternatives is a P0, P1, DenseMatrix or SparseMatrix gate.
    [one_level]: no alternative of a probabilistic gate is probabilistic.
    [typed]: the same gate behind pointers that know its type.  [vf]: which arguments of a call are evaluated first. *)
From Verif Require Import DensitySpec OperatorSpec OperatorBatchedSpec JsonSpec MatrixJson.
From Verif Require JsonProofs5 MatrixJsonProofs.

(** C39: what was written is read back *)
Theorem C39_gate_partial : forall vf g, held g -> one_level g -> readable g = true -> gate_from_json vf (gate_to_json g) = Ok (typed g).
Proof. exact JsonProofs5.gate_back. Qed.
Print Assumptions C39_gate_partial.
Theorem C39_fresh_gate_partial : forall vf g, fresh_gate g -> readable g = true -> gate_from_json vf (gate_to_json g) = Ok g.
Proof. exact JsonProofs4.factory_round_trip. Qed.
Print Assumptions C39_fresh_gate_partial.
Theorem C39_param_gate_partial : forall vf g, held_param g -> one_level_param g -> readable_param g = true ->
  param_gate_from_json vf (param_gate_to_json g) = Ok (typed_param g).
Proof. exact JsonProofs5.param_back. Qed.
Print Assumptions C39_param_gate_partial.
Theorem C39_fresh_param_gate_partial : forall vf g, fresh_param g -> readable_param g = true -> param_gate_from_json vf (param_gate_to_json g) = Ok g.
Proof. exact JsonProofs4.factory_param_round_trip. Qed.
Print Assumptions C39_fresh_param_gate_partial.
(** circuits without conditions *)
Theorem C39_circuit_partial : forall vf c, length (c_gates c) = length (c_conds c) -> Forall held_item (c_gates c) -> all_readable (c_gates c) ->
  Forall (fun f => f = None) (c_conds c) ->
  exists j, circuit_to_json c = Ok j /\ circuit_from_json vf j = Ok (Circuit (map typed_item (c_gates c)) (c_conds c)).
Proof. exact JsonProofs5.circuit_back. Qed.
Print Assumptions C39_circuit_partial.
Theorem C39_fresh_circuit_partial : forall vf gates, Forall fresh_item gates -> all_readable gates ->
  exists j, circuit_to_json (Circuit gates (map (fun _ => None) gates)) = Ok j /\ circuit_from_json vf j = Ok (Circuit gates (map (fun _ => None) gates)).
Proof. exact JsonProofs4.factory_circuit_round_trip. Qed.
Print Assumptions C39_fresh_circuit_partial.
(** Pauli operators, operators and batches of operators.  The Hermitian flag is computed again from the terms. *)
Theorem C39_pauli : forall p, pauli_u64 p -> pauli_from_json (pauli_to_json p) = Ok p.
Proof. exact JsonProofs.read_pauli. Qed.
Print Assumptions C39_pauli.
Theorem C39_operator : forall o, op_u64 o -> op_from_json (op_to_json o) = Ok (op_of_terms (o_terms o)).
Proof. exact JsonProofs4.read_operator. Qed.
Print Assumptions C39_operator.
Theorem C39_operator_batch : forall ops, fits_vector ops -> Forall op_u64 ops ->
  exists j, ob_to_json (batch_of ops) = Ok j /\ ob_from_json j = Ok (batch_of ops).
Proof. exact JsonProofs4.read_batch. Qed.
Print Assumptions C39_operator_batch.
(** Matrices, as a gate writes them.  [stored]: fewer than 2^31 rows, as many columns as values, every row inside them. *)
Theorem C39_dense_matrix : forall n m f, n <> 0 -> exists g, matrix_from_json (matrix_to_json (DMat n m f)) = Ok (DMat n m g) /\
  forall i j, i < n -> j < m -> g i j = f i j.
Proof. exact MatrixJsonProofs.read_matrix_back. Qed.
Print Assumptions C39_dense_matrix.
Theorem C39_sparse_matrix : forall A, MatrixJsonProofs.stored A -> csr_ok A -> exists S, sparse_from_json (sparse_to_json A) = Ok S /\
  sp_rows S = csr_rows A /\ sp_cols S = csr_rows A /\ forall r c, r < csr_rows A -> sp_at S r c = csr_sum A r c.
Proof. exact MatrixJsonProofs.read_sparse. Qed.
Print Assumptions C39_sparse_matrix.
Example C39_example_sparse : MatrixJsonProofs.stored (Csr 2 [0; 1; 2] [1; 0] [Ci; C1]) /\ csr_ok (Csr 2 [0; 1; 2] [1; 0] [Ci; C1]).
Proof. exact MatrixJsonProofs.stored_example. Qed.
(** the other kinds are written, but every attempt to read them throws, *)
Theorem C39_unreadable : forall vf g, held g -> one_level g -> readable g = false -> gate_from_json vf (gate_to_json g) = Throw.
Proof. exact JsonProofs5.gate_lost. Qed.
Print Assumptions C39_unreadable.
Theorem C39_projection_refuted : exists g, fresh_gate g /\ forall vf, gate_from_json vf (gate_to_json g) = Throw.
Proof. exact JsonProofs5.projection_unread. Qed.
Print Assumptions C39_projection_refuted.
Theorem C39_matrix_refuted : exists g, fresh_gate g /\ (exists b M u, g = CElem (true, EDense b M u)) /\ forall vf, gate_from_json vf (gate_to_json g) = Throw.
Proof. exact JsonProofs5.matrix_unread. Qed.
Print Assumptions C39_matrix_refuted.
(** a circuit with a condition cannot be written, *)
Theorem C39_condition_refuted : forall c, length (c_gates c) = length (c_conds c) -> Exists (fun f => f <> None) (c_conds c) -> circuit_to_json c = Throw.
Proof. exact JsonProofs5.conditions_unwritten. Qed.
Print Assumptions C39_condition_refuted.
(** a probabilistic gate with the inverse of one among its alternatives comes back with other alternatives, *)
Theorem C39_nested_refuted : exists g g', held g /\ (forall vf, gate_from_json vf (gate_to_json g) = Ok g') /\ length (alternatives g') <> length (alternatives g).
Proof. exact JsonProofs5.nested_changes. Qed.
Print Assumptions C39_nested_refuted.
(** a forced Hermitian flag is lost, and a default-constructed batch cannot be written. *)
Theorem C39_flag_refuted : exists o o', op_u64 o /\ op_from_json (op_to_json o) = Ok o' /\ o_herm o = true /\ o_herm o' = false.
Proof. exact JsonProofs5.flag_lost. Qed.
Print Assumptions C39_flag_refuted.
Theorem C39_default_batch_refuted : ob_to_json ob_default = UB.
Proof. exact JsonProofs5.default_batch_unwritten. Qed.
Print Assumptions C39_default_batch_refuted.

(** C55: states *)
Theorem C55_state : forall n w, n < 64 -> restores (state_to_json n) state_from_json w (fun m u => m = n /\ forall x, x < 2 ^ n -> w_amp u x = w_amp w x).
Proof. exact JsonProofs4.state_round_trip. Qed.
Print Assumptions C55_state.
Theorem C55_batch : forall n B w, n < 64 -> restores (states_to_json n B) states_from_json w
  (fun m u => m = (n, B) /\ forall b x, b < B -> x < 2 ^ n -> w_amp u (at_row n b x) = w_amp w (at_row n b x)).
Proof. exact JsonProofs4.states_round_trip. Qed.
Print Assumptions C55_batch.
Theorem C55_density : forall n w, n < 64 -> restores (dm_to_json n) dm_from_json w
  (fun m u => m = n /\ mat_eq (2 ^ n) (rho u) (rho w) /\ d_herm u = d_herm w).
Proof. exact JsonProofs4.density_round_trip. Qed.
Print Assumptions C55_density.
(** the sizes in the text are checked against the amplitudes *)
Theorem C55_wrong_size : forall n amps w, n < 64 -> N.of_nat (length amps) <> 2 ^ n ->
  runs (state_from_json (JObject [("n_qubits", JUnsigned n); ("amplitudes", JArray (map complex_to_json amps))]%string)) w (fun o => exists w', o = HThrown w').
Proof. exact JsonProofs5.wrong_size. Qed.
Print Assumptions C55_wrong_size.

(** C56: whatever is read is a gate with distinct operands, *)
Theorem C56_operands_partial : forall vf j g, gate_from_json vf j = Ok g -> sound g.
Proof. exact JsonProofs5.read_sound. Qed.
Print Assumptions C56_operands_partial.
(** and of a type that exists *)
Theorem C56_unknown_type : forall vf type more, ~ In type known_types -> gate_from_json vf (JObject (("type", JString type) :: more)%string) = Throw.
Proof. exact JsonProofs5.unknown_type. Qed.
Print Assumptions C56_unknown_type.
(** but the number of targets is not checked, *)
Theorem C56_targets_refuted : forall vf, gate_from_json vf (x_json [0; 1] [] []) = Ok (CElem (true, EStd GX (GBase 3 0 0))) /\
  gate_from_json vf (x_json [] [] []) = Ok (CElem (true, EStd GX (GBase 0 0 0))).
Proof. exact JsonProofs5.targets_unchecked. Qed.
Print Assumptions C56_targets_refuted.
(** and missing control values, a missing imaginary part or an empty matrix are not noticed. *)
Theorem C56_missing_refuted : (forall vf, gate_from_json vf (x_json [0] [1] []) = UB) /\
  (forall r, complex_from_json (JObject [("real", JFloat r)]%string) = UB) /\ matrix_from_json (JArray []) = UB.
Proof. exact JsonProofs5.missing_unnoticed. Qed.
Print Assumptions C56_missing_refuted.

(** The hypotheses are met. *)
Example C39_example_gate : fresh_gate (CElem (true, EStd (GU3 1 2 3) (GBase 8 5 4))) /\ readable (CElem (true, EStd (GU3 1 2 3) (GBase 8 5 4))) = true.
Proof. exact JsonProofs5.u3_fresh. Qed.
Example C39_example_inverse : exists g, held g /\ one_level g /\ readable g = true /\ typed g <> g.
Proof. exact JsonProofs5.inverse_held. Qed.
Example C39_example_probabilistic : exists d gs, fresh_gate (CProb true d gs) /\ length gs = 2%nat /\ readable (CProb true d gs) = true.
Proof. exact JsonProofs5.probabilistic_fresh. Qed.
Example C39_example_param : exists g, fresh_param g /\ readable_param g = true /\ (exists d gs, g = PProb true d gs).
Proof. exact JsonProofs5.param_fresh. Qed.
Example C39_example_operator : op_u64 (op_of_terms [Pauli Ci 5 3; Pauli C1 0 1]).
Proof. exact JsonProofs5.operator_u64. Qed.
