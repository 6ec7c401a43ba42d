(** C20: inverses of inverses (statements over InverseSpec.v). *)
From Verif Require Import InverseSpec InverseProofs OptimizeSpec.
From Verif Require InverseProofs2.
Open Scope N_scope.

(** Circuits put together from invertible factory gates, their inverses, circuits of those and the inverses of such
    circuits: get_inverse() returns a circuit of the same kind that undoes the first. *)
Theorem C20_closed_partial : forall c, put_together c -> exists c', circuit_inverse c = Ok c' /\ put_together c' /\
  c_conds c' = rev (c_conds c) /\ length (c_gates c') = length (c_gates c) /\
  forall n L ps w, n < 64 -> lanes_ok L -> required_n_qubits c <= n -> (forall key, In key (keys c) -> ps key <> None) ->
  (forall f, In (Some f) (c_conds c) -> exists b, f (w_reg w) = Ok b) -> (forall k, unit_draw (w_rand w k)) ->
  runs (circuit_update n L ps c;~ circuit_update n L ps c') w (done (fun _ w' =>
    (forall x, x < 2 ^ n -> w_amp w' x = w_amp w x) /\ w_reg w' = w_reg w /\ forall i, w_rand w' i = w_rand w i)).
Proof. exact InverseProofs.closed_inverse. Qed.
Print Assumptions C20_closed_partial.
Example C20_closed_example : put_together InverseProofs.ex_all /\ length (c_gates InverseProofs.ex_all) = 5%nat.
Proof. exact InverseProofs.ex_closed. Qed.
(** A circuit with the Pauli gate 2X: the circuit followed by its inverse multiplies every amplitude by 4. *)
Theorem C20_pauli_refuted : exists c c' k g, call_typed k /\ make false k = Ok g /\ c = build [OGate (CElem (true, g))] /\ circuit_inverse c = Ok c' /\
  forall n L ps w, 1 <= n -> n < 64 -> lanes_ok L ->
  runs (circuit_update n L ps c;~ circuit_update n L ps c') w (done (fun _ w' => forall x, x < 2 ^ n -> w_amp w' x = (RtoC 4 * w_amp w x)%C)).
Proof. exact InverseProofs2.pauli_circuit_wrong. Qed.
Print Assumptions C20_pauli_refuted.
(** H and T have inverses, and so has the circuit of both; after optimize() it has none. *)
Theorem C20_optimized_refuted : exists c c' c'', Forall factory_made (c_gates c) /\ circuit_inverse c = Ok c' /\
  optimize false 3 c = Ok c'' /\ circuit_inverse c'' = Throw.
Proof. exact InverseProofs2.optimized_no_inverse. Qed.
Print Assumptions C20_optimized_refuted.
