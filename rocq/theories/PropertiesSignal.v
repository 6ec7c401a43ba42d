(** C75: what a circuit does to its own qubits does not show on the other qubits. *)
From Verif Require Import SignalProofs4.
From Verif Require Import ChannelSpec DensitySpec.

(** The probability get_marginal_probability reports (C30_marginal) for qubits the circuit does not name is, on average
    over the random numbers, what it was before: measurements, resets, noise and conditional gates included. *)
Theorem C75_marginal n L ps c p l psi r0 vs : n < 64 -> lanes_ok L -> circuit_is c p -> norm_kept n ps p -> sqnorm n psi = 1%R ->
  Forall (fun q => q < n) (program_operands p) -> instantiate ps p = Some l -> orderly (length r0) [] l ->
  N.of_nat (length vs) = n -> (forall q, In q (program_operands p) -> nth (N.to_nat q) vs 2 = 2) ->
  averaged (draws_list l) (run_gives n (circuit_update n L ps c) psi r0 (fun w => RtoC (prob n (shows vs) (w_amp w)))) (RtoC (prob n (shows vs) psi)).
Proof. intros H1 H2 H3 H4 H5 H6 H7 H8. exact (marginal_elsewhere n L ps c p l psi r0 H1 H2 H3 H4 H5 H6 H7 H8 vs). Qed.
Print Assumptions C75_marginal.
(** The density matrix of the other qubits, the partial trace over the circuit's (and any further) qubits, stays what it
    was, entry by entry. *)
Theorem C75_reduced n L ps c p l psi r0 qs i j : n < 64 -> lanes_ok L -> circuit_is c p -> norm_kept n ps p -> sqnorm n psi = 1%R ->
  Forall (fun q => q < n) (program_operands p) -> instantiate ps p = Some l -> orderly (length r0) [] l ->
  NoDup qs -> Forall (fun q => q < n) qs -> incl (program_operands p) qs ->
  i < 2 ^ (n - N.of_nat (length qs)) -> j < 2 ^ (n - N.of_nat (length qs)) ->
  averaged (draws_list l) (run_gives n (circuit_update n L ps c) psi r0 (fun w => ptrace n qs (fun x y => w_amp w x * Cconj (w_amp w y))%C i j))
    (ptrace n qs (fun x y => psi x * Cconj (psi y))%C i j).
Proof. intros H1 H2 H3 H4 H5 H6 H7 H8. exact (reduced_elsewhere n L ps c p l psi r0 H1 H2 H3 H4 H5 H6 H7 H8 qs i j). Qed.
Print Assumptions C75_reduced.
(** The expectation value (C16) of an operator none of whose Pauli strings touches a qubit of the circuit stays what it
    was. *)
Theorem C75_operator n L ps c p l psi r0 o : n < 64 -> lanes_ok L -> circuit_is c p -> norm_kept n ps p -> sqnorm n psi = 1%R ->
  Forall (fun q => q < n) (program_operands p) -> instantiate ps p = Some l -> orderly (length r0) [] l ->
  op_fits n o -> (forall t q, In t (o_terms o) -> N.testbit (N.lor (p_bf t) (p_pf t)) q = true -> ~ In q (program_operands p)) ->
  averaged (draws_list l) (run_gives n (circuit_update n L ps c) psi r0 (fun w => inner n (w_amp w) (op_act o (w_amp w)))) (inner n psi (op_act o psi)).
Proof. intros H1 H2 H3 H4 H5 H6 H7 H8. exact (operator_elsewhere n L ps c p l psi r0 H1 H2 H3 H4 H5 H6 H7 H8 o). Qed.
Print Assumptions C75_operator.
(** and so does the expectation value of any matrix on other qubits, controls allowed. *)
Theorem C75_observable n L ps c p l psi r0 ts cs M : n < 64 -> lanes_ok L -> circuit_is c p -> norm_kept n ps p -> sqnorm n psi = 1%R ->
  Forall (fun q => q < n) (program_operands p) -> instantiate ps p = Some l -> orderly (length r0) [] l ->
  wf_ops n ts cs -> (forall q, In q (ts ++ map fst cs) -> ~ In q (program_operands p)) ->
  averaged (draws_list l) (run_gives n (circuit_update n L ps c) psi r0 (fun w => inner n (w_amp w) (apply_mat ts cs M (w_amp w)))) (inner n psi (apply_mat ts cs M psi)).
Proof. intros H1 H2 H3 H4 H5 H6 H7 H8. exact (observable_elsewhere n L ps c p l psi r0 H1 H2 H3 H4 H5 H6 H7 H8 ts cs M). Qed.
Print Assumptions C75_observable.
(** A circuit that draws no random number keeps the marginal probabilities of the other qubits in every run. *)
Theorem C75_exact n L ps c p l w vs : n < 64 -> lanes_ok L -> circuit_is c p -> norm_kept n ps p -> sqnorm n (w_amp w) = 1%R -> (forall k, unit_draw (w_rand w k)) ->
  Forall (fun q => q < n) (program_operands p) -> instantiate ps p = Some l -> orderly (length (w_reg w)) [] l -> draws_list l = 0%nat ->
  N.of_nat (length vs) = n -> (forall q, In q (program_operands p) -> nth (N.to_nat q) vs 2 = 2) ->
  runs (circuit_update n L ps c) w (done (fun _ w' => prob n (shows vs) (w_amp w') = prob n (shows vs) (w_amp w))).
Proof. exact (marginal_exact n L ps c p l w vs). Qed.
Print Assumptions C75_exact.
(** Not so in a single run of a circuit with a measurement: measuring one of two entangled qubits changes the
    probabilities of the other. *)
Theorem C75_single_run_refuted L : lanes_ok L -> exists (c : circuit) (p : program) (w : world),
  circuit_is c p /\ ~ In 1 (program_operands p) /\ sqnorm 2 (w_amp w) = 1%R /\ (forall k, unit_draw (w_rand w k)) /\
  prob 2 (shows [2; 1]) (w_amp w) = (16 / 25)%R /\
  runs (circuit_update 2 L (fun _ => None) c) w (done (fun _ w' => prob 2 (shows [2; 1]) (w_amp w') = 0%R)).
Proof. exact (single_run_refuted L). Qed.
Print Assumptions C75_single_run_refuted.

(** H(0), measure 0, X(1) if it showed 1, RX(1), with qubit 2 entangled with both. *)
Example C75_example : circuit_is (build ex_calls) ex_program /\ norm_kept 3 (fun _ => Some 1%R) ex_program /\ sqnorm 3 three_state = 1%R /\
  Forall (fun q => q < 3) (program_operands ex_program) /\ (exists l, instantiate (fun _ => Some 1%R) ex_program = Some l /\ orderly (length [false]) [] l /\ draws_list l = 1%nat) /\
  ~ In 2 (program_operands ex_program) /\ prob 3 (shows [2; 2; 1]) three_state = (16 / 25)%R.
Proof. exact signal_example. Qed.
