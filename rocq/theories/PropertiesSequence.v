(** C79: adding a circuit to another and running the result, against running the two one after the other. *)
From Verif Require Import SequenceProofs.
From Verif Require Import SequenceSpec.

(** Whenever the circuit made by add_circuit returns, two calls with the same random numbers leave the same state,
    register and random numbers still to be drawn. *)
Theorem C79_sequence n L1 L2 ps c1 c2 p1 p2 w : n < 64 -> lanes_ok L1 -> lanes_ok L2 -> circuit_is c1 p1 -> circuit_is c2 p2 -> norm_kept n ps p1 -> norm_kept n ps p2 ->
  sqnorm n (w_amp w) = 1%R -> (forall k, unit_draw (w_rand w k)) -> forall L, lanes_ok L ->
  (exists o, circuit_update n L ps (add_circuit c1 c2) w o) /\ (exists o', in_turn n L1 L2 ps c1 c2 w o') /\
  forall o o', circuit_update n L ps (add_circuit c1 c2) w o -> in_turn n L1 L2 ps c1 c2 w o' -> (exists w', o = HDone tt w') -> same_result n o o'.
Proof. exact (turn_correct n L1 L2 ps c1 c2 p1 p2 w). Qed.
Print Assumptions C79_sequence.
(** It does return if the qubits, parameters and bits exist and no gate touches a qubit measured before and not reset. *)
Theorem C79_returns n L1 L2 ps c1 c2 p1 p2 w : n < 64 -> lanes_ok L1 -> lanes_ok L2 -> circuit_is c1 p1 -> circuit_is c2 p2 -> norm_kept n ps p1 -> norm_kept n ps p2 ->
  sqnorm n (w_amp w) = 1%R -> (forall k, unit_draw (w_rand w k)) -> forall L l, lanes_ok L ->
  Forall (fun q => q < n) (program_operands (p1 ++ p2)) -> instantiate ps (p1 ++ p2) = Some l -> orderly (length (w_reg w)) [] l ->
  forall o o', circuit_update n L ps (add_circuit c1 c2) w o -> in_turn n L1 L2 ps c1 c2 w o' -> same_result n o o' /\ exists w', o = HDone tt w'.
Proof. exact (turn_orderly n L1 L2 ps c1 c2 p1 p2 w). Qed.
Print Assumptions C79_returns.
(** The converse fails: each call forgets which qubits the call before it measured.  A measurement of qubit 0 and then
    X on it always throws as one circuit and always returns as two. *)
Theorem C79_converse_refuted ps w L1 L2 L : lanes_ok L1 -> lanes_ok L2 -> lanes_ok L -> sqnorm 1 (w_amp w) = 1%R -> (forall k, unit_draw (w_rand w k)) -> length (w_reg w) = 1%nat ->
  runs (circuit_update 1 L ps (add_circuit (build first_calls) (build second_calls))) w (fun o => exists w', o = HThrown w') /\
  runs (in_turn 1 L1 L2 ps (build first_calls) (build second_calls)) w (fun o => exists w', o = HDone tt w').
Proof. exact (turn_refuted 1 ps w L1 L2 L eq_refl). Qed.
Print Assumptions C79_converse_refuted.

(** X(0), then qubit 0 measured *)
Example C79_example ps : circuit_is (build second_calls) second_program /\ circuit_is (build first_calls) first_program /\ norm_kept 1 ps second_program /\ norm_kept 1 ps first_program /\
  Forall (fun q => q < 1) (program_operands (second_program ++ first_program)) /\ exists l, instantiate ps (second_program ++ first_program) = Some l /\ orderly 1 [] l.
Proof. exact (sequence_example ps). Qed.
