(** The gradient of an expectation value with respect to the parameters of a circuit. *)
From Verif Require Import GradientProofs8.
From Coq Require Import Lra.
Open Scope N_scope.
Open Scope list_scope.

(** C47: [compute_expectation_gradient] has an entry for every key of the circuit and for no other, and the entry is
    the derivative of <psi(v)|O|psi(v)> with respect to the value of that key (the values of the other keys fixed),
    however many gates share the key.  Partial: rotations have no control qubits and a real Pauli coefficient that
    is not too small, an inverted rotation is about X, Y or Z, and the observable acts on the circuit's qubits. *)
Theorem C47_gradient_partial : forall vf ls c eps L o ps val w, built vf ls c -> Forall differentiable ls -> (0 < eps)%R -> lanes_ok L ->
  let n := required_n_qubits c in n < 64 -> o_herm o = true -> self_adjoint n (op_act o) -> op_fits n o ->
  (forall key, In key (layer_keys ls) -> ps key = Some (val key)) ->
  runs (compute_expectation_gradient eps L o ps c) w (done (fun g _ =>
    forall key, if existsb (String.eqb key) (keys c)
      then exists d, g key = Some d /\ derivable_pt_lim (fun v => energy n o (with_value val key v) ls) (val key) d
      else g key = None)).
Proof. exact gradient_correct. Qed.
Print Assumptions C47_gradient_partial.
(** [compute_expectation_gradient_backprop] from any pair of vectors: for every key, 2 Re <bistate | d psi/d v>; the
    state is carried back to the one the circuit started from. *)
Theorem C47_backprop_partial : forall vf ls c eps n L ps val w psi0, built vf ls c -> Forall differentiable ls -> (0 < eps)%R -> n < 64 -> lanes_ok L ->
  required_n_qubits c <= n -> (forall key, In key (layer_keys ls) -> ps key = Some (val key)) ->
  (forall x, x < 2 ^ n -> gw_state w x = evolve val ls psi0 x) ->
  runs (compute_expectation_gradient_backprop eps n n L ps c) w (done (fun g w' =>
    (forall x, x < 2 ^ n -> gw_state w' x = psi0 x) /\
    forall key, if existsb (String.eqb key) (keys c)
      then exists d, (forall x, cderivative (fun v => evolve (with_value val key v) ls psi0 x) (val key) (d x)) /\
                     g key = Some (2 * Re (inner n (gw_bistate w) d))%R
      else g key = None)).
Proof. exact backprop_derivative. Qed.
Print Assumptions C47_backprop_partial.
(** An observable that is not marked Hermitian is refused before anything happens. *)
Theorem C47_not_hermitian : forall eps L o ps c w, o_herm o = false ->
  runs (compute_expectation_gradient eps L o ps c) w (fun out => out = HThrown w).
Proof. exact gradient_not_hermitian. Qed.
Print Assumptions C47_not_hermitian.
(** Circuits with measurements or conditions, and missing parameter values, are refused. *)
Theorem C47_update_rejects : forall eps L o ps c w,
  ((exists f, In (Some f) (c_conds c)) \/ (exists t b r, In (IGate (CMeas t b r)) (c_gates c)) \/ exists key, In key (keys c) /\ ps key = None) ->
  runs (compute_expectation_gradient eps L o ps c) w thrown.
Proof. exact gradient_update_refuses. Qed.
Print Assumptions C47_update_rejects.
(** A rotation that is too slow or whose Pauli coefficient is not real is refused, wherever it stands. *)
Theorem C47_refuses : forall vf ls1 k key ls2 c eps L o ps val w, built vf (ls1 ++ Turn k key :: ls2) c ->
  Forall layer_typed ls1 -> pcall_typed k -> refused eps k -> Forall differentiable ls2 ->
  (0 < eps)%R -> lanes_ok L -> let n := required_n_qubits c in n < 64 -> op_fits n o ->
  (forall key', In key' (layer_keys (ls1 ++ Turn k key :: ls2)) -> ps key' = Some (val key')) ->
  runs (compute_expectation_gradient eps L o ps c) w thrown.
Proof. exact gradient_refuses. Qed.
Print Assumptions C47_refuses.
(** Controlled rotations: <Z_0> after RX(v) on qubit 0 controlled by qubit 1 is 1 for every v; the method returns -1. *)
Theorem C47_controlled_refuted : exists c, built false [Turn controlled_rx "t"] c /\ required_n_qubits c = 2 /\
  o_herm z_on_0 = true /\ self_adjoint 2 (op_act z_on_0) /\ op_fits 2 z_on_0 /\
  (forall val v, derivable_pt_lim (fun v => energy 2 z_on_0 (with_value val "t" v) [Turn controlled_rx "t"]) v 0%R) /\
  forall eps L w, lanes_ok L ->
    runs (compute_expectation_gradient eps L z_on_0 (fun _ => Some 0%R) c) w (done (fun gr _ => gr "t"%string = Some (-1)%R)).
Proof. exact controlled_wrong. Qed.
Print Assumptions C47_controlled_refuted.
(** The inverse of a circuit: <Z_0> after the inverse of a rotation about 2 X is stationary at 0; the method returns -1. *)
Theorem C47_inverse_refuted : exists g c, make_param false double_x = Ok g /\ circuit_inverse (Circuit [IParam g "t"] [None]) = Ok c /\
  required_n_qubits c = 1 /\ o_herm z_on_0 = true /\ self_adjoint 1 (op_act z_on_0) /\ op_fits 1 z_on_0 /\
  derivable_pt_lim (fun v => energy 1 z_on_0 (with_value (fun _ => 0%R) "t" v) [Turn (pcall_opposite double_x) "t"]) 0%R 0%R /\
  forall eps L w, lanes_ok L ->
    runs (compute_expectation_gradient eps L z_on_0 (fun _ => Some 0%R) c) w (done (fun gr _ => gr "t"%string = Some (-1)%R)).
Proof. exact inverse_pauli_wrong. Qed.
Print Assumptions C47_inverse_refuted.
(** An observable on a qubit the circuit does not use accesses memory outside the state vector. *)
Theorem C47_observable_refuted : exists c, built false [Turn plain_rx "t"] c /\ Forall differentiable [Turn plain_rx "t"] /\
  o_herm x_on_1 = true /\ self_adjoint 2 (op_act x_on_1) /\ op_fits 2 x_on_1 /\
  forall eps L v w, lanes_ok L -> compute_expectation_gradient eps L x_on_1 (fun _ => Some v) c w HUndefined.
Proof. exact observable_outside. Qed.
Print Assumptions C47_observable_refuted.

(** The hypotheses of C47_gradient_partial: H on 0, CX on 0 and 1, RX and a rotation about 3 X Z with the same key, an inverted RY. *)
Example C47_example : exists c, built false gradient_layers c /\ Forall differentiable gradient_layers /\ required_n_qubits c = 2 /\
  layer_keys gradient_layers = ["a"; "a"; "b"]%string /\ o_herm z_on_0 = true /\ self_adjoint 2 (op_act z_on_0) /\ op_fits 2 z_on_0 /\ lanes_ok 1.
Proof. exact gradient_example. Qed.
(** The hypotheses of C47_refuses: a rotation about i X. *)
Example C47_refuses_example : exists c, built false ([Fixed (Call1 GH 0 [] [])] ++ Turn imaginary_x "t" :: [Turn plain_rx "u"]) c /\
  Forall layer_typed [Fixed (Call1 GH 0 [] [])] /\ pcall_typed imaginary_x /\ refused (/ 2)%R imaginary_x /\ Forall differentiable [Turn plain_rx "u"].
Proof. exact refuses_example. Qed.
