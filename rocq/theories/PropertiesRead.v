(** Reading documents: C71. *)
From Verif Require Import ReadSpec QasmSpec.
From Verif Require ReadProofs2 ReadProofs3 ReadProofs4.
Local Open Scope N_scope.
Open Scope string_scope.

(** C71: an orderly document is read or rejected with an exception, whatever else it holds: members may be missing, be of
    the wrong type, or contradict each other. *)
Theorem C71_gate : forall vf j, orderly j -> gate_from_json vf j <> UB.
Proof. exact ReadProofs2.gate_total. Qed.
Print Assumptions C71_gate.
Theorem C71_param_gate : forall vf j, orderly j -> param_gate_from_json vf j <> UB.
Proof. exact ReadProofs2.param_total. Qed.
Print Assumptions C71_param_gate.
Theorem C71_circuit : forall vf j, orderly j -> circuit_from_json vf j <> UB.
Proof. exact ReadProofs2.circuit_total. Qed.
Print Assumptions C71_circuit.
Theorem C71_operator : forall j, orderly j -> pauli_from_json j <> UB /\ op_from_json j <> UB /\ ob_from_json j <> UB.
Proof. exact (fun j H => conj (ReadProofs.pauli_total j H) (conj (ReadProofs2.operator_total j H) (ReadProofs2.operators_total j H))). Qed.
Print Assumptions C71_operator.
Example C71_document_example : orderly ReadProofs4.circuit_document.
Proof. exact ReadProofs4.circuit_document_orderly. Qed.
(** States. *)
Theorem C71_state : forall j w, orderly_state j -> defined (state_from_json j) w.
Proof. exact ReadProofs2.state_total. Qed.
Print Assumptions C71_state.
Theorem C71_states : forall j w, orderly_states j -> defined (states_from_json j) w.
Proof. exact ReadProofs2.states_total. Qed.
Print Assumptions C71_states.
Theorem C71_density : forall j w, orderly_density j -> defined (dm_from_json j) w.
Proof. exact ReadProofs2.density_total. Qed.
Print Assumptions C71_density.
Example C71_state_example : orderly_state (JObject [("n_qubits", JUnsigned 3); ("amplitudes", JArray [JNull; JObject [("imag", JNull); ("real", JUnsigned 1)]])]).
Proof.
  split.
  - intros v [= <-]. split; [exact I|]. intros n [= <-]. reflexivity.
  - intros l [= <-]. repeat constructor; discriminate.
Qed.
(** What is asked of a document is needed: an index that is out of range, a control beyond the last qubit, a control without
    a value, a permutation of 64 qubits. *)
Theorem C71_gate_refuted : forall j, In j
    [ReadProofs4.x_document [JFloat (-1)] [] [];
     ReadProofs4.x_document [JUnsigned 0] [JUnsigned 64] [JUnsigned 1];
     ReadProofs4.x_document [JUnsigned 0] [JUnsigned 1] [];
     JObject [("type", JString "Permutation"); ("dst", u64_list (seqN 64))]] -> gate_from_json true j = UB.
Proof. exact ReadProofs4.each_needed. Qed.
Print Assumptions C71_gate_refuted.
Theorem C71_state_refuted : forall w,
  state_from_json (JObject [("n_qubits", JUnsigned 64); ("amplitudes", JArray [])]) w HUndefined /\
  (forall r, state_from_json (JObject [("n_qubits", JUnsigned 0); ("amplitudes", JArray [JObject [("real", JFloat r)]])]) w HUndefined).
Proof. exact ReadProofs4.states_needed. Qed.
Print Assumptions C71_state_refuted.
Theorem C71_density_refuted : forall w n h, n < 2 ^ 64 ->
  dm_from_json (JObject [("n_qubits", JUnsigned n); ("is_hermitian", JBool h); ("matrix", JArray [])]) w HUndefined.
Proof. exact ReadProofs4.density_needed. Qed.
Print Assumptions C71_density_refuted.

(** Every OpenQASM text is read or rejected, when the mask of the control values is computed last. *)
Theorem C71_qasm : forall source, loads false source <> UB.
Proof. exact ReadProofs3.loads_total. Qed.
Print Assumptions C71_qasm.
(** When it is computed first the outcome is the same, except that some texts that would be rejected are undefined: *)
Theorem C71_qasm_order : forall source, loads true source = loads false source \/ (loads true source = UB /\ loads false source = Throw).
Proof. exact ReadProofs3.loads_agree. Qed.
Print Assumptions C71_qasm_order.
(** these declare more than 64 qubits. *)
Theorem C71_qasm_far : forall source, loads true source = UB -> exists before st after r,
  split_statements source = Ok (before ++ st :: after)%list /\ handle_statements true before rd_new = Ok r /\
  64 < fold_right (fun d n => r_size (snd d) + n) 0 (rd_qregs r).
Proof. exact ReadProofs3.loads_far. Qed.
Print Assumptions C71_qasm_far.
Theorem C71_qasm_refuted : exists source, source = txt "OPENQASM 2.0; qreg q[65]; cx q[64],q[0];" /\ loads true source = UB.
Proof. eexists. split; [reflexivity|]. vm_compute. reflexivity. Qed.
Print Assumptions C71_qasm_refuted.
