(** C70: a circuit moved to other qubits of a larger register does there what it does alone. *)
From Verif Require Import PlaceProofs2 PlaceProofs4 PlaceProofs5 CircuitProofs10.
From Verif Require Import PlaceSpec.

(** c' is c with qubit i renamed to qs[i].  The other qubits are in the normalised state phi.  With the same
    classical register, parameters and random numbers both circuits return, or both throw; what is left is the
    small register's state at qs and phi untouched beside it, the same classical bits, and the same numbers still
    to be drawn. *)
Theorem C70_moved n qs phi L L' ps c c' p w w' : fits_into n qs -> n < 64 -> lanes_ok L -> lanes_ok L' ->
  circuit_is c p -> moved_circuit qs c c' -> sqnorm (n - N.of_nat (length qs)) phi = 1%R -> world_placed n qs phi w w' ->
  (forall k, unit_draw (w_rand w k)) ->
  (forall us, Forall unit_draw us -> ~ run_program watch_all (N.of_nat (length qs)) ps p us (SState (w_amp w) (w_reg w)) SOutside) ->
  (exists o, circuit_update (N.of_nat (length qs)) L ps c w o) /\ (exists o', circuit_update n L' ps c' w' o') /\
  forall o o', circuit_update (N.of_nat (length qs)) L ps c w o -> circuit_update n L' ps c' w' o' -> same_ending n qs phi o o'.
Proof. exact (fun Hfit Hn => place_correct n qs Hfit Hn phi L L' ps c c' p w w'). Qed.
Print Assumptions C70_moved.
(** Qubits no gate names stay as they are: the same circuit on a register with more qubits. *)
Theorem C70_idle m n phi L L' ps c p w w' : m <= n -> n < 64 -> lanes_ok L -> lanes_ok L' -> circuit_is c p ->
  Forall (fun q => q < m) (program_operands p) -> sqnorm (n - m) phi = 1%R ->
  (forall x, x < 2 ^ n -> w_amp w' x = (w_amp w (x mod 2 ^ m) * phi (x / 2 ^ m))%C) -> w_reg w' = w_reg w ->
  (forall k, w_rand w' k = w_rand w k) -> (forall k, unit_draw (w_rand w k)) ->
  (forall us, Forall unit_draw us -> ~ run_program watch_all m ps p us (SState (w_amp w) (w_reg w)) SOutside) ->
  (exists o, circuit_update m L ps c w o) /\ (exists o', circuit_update n L' ps c w' o') /\
  forall o o', circuit_update m L ps c w o -> circuit_update n L' ps c w' o' ->
    match o, o' with
    | HDone _ w1, HDone _ w1' | HThrown w1, HThrown w1' =>
      (forall x, x < 2 ^ n -> w_amp w1' x = (w_amp w1 (x mod 2 ^ m) * phi (x / 2 ^ m))%C) /\ w_reg w1' = w_reg w1 /\
      forall k, w_rand w1' k = w_rand w1 k
    | _, _ => False
    end.
Proof. exact (fun Hmn => idle_correct m n Hmn phi L L' ps c p w w'). Qed.
Print Assumptions C70_idle.
(** One gate, any state of the large register, entangled or not: on each setting of the other qubits it does what
    it does on the small register. *)
Theorem C70_gate n qs g g' L L' w' : fits_into n qs -> n < 64 -> lanes_ok L -> lanes_ok L' -> moved_gate qs g g' ->
  runs (elem_update n L' g') w' (done (fun _ w1' => forall x w, x < 2 ^ n ->
    (forall y, y < 2 ^ N.of_nat (length qs) -> w_amp w y = w_amp w' (scatter qs y x)) ->
    runs (elem_update (N.of_nat (length qs)) L g) w (done (fun _ w1 => w_amp w1' x = w_amp w1 (gather qs x))))).
Proof. exact (gate_sliced n qs g g' L L' w'). Qed.
Print Assumptions C70_gate.
(** The moved gates can be made. *)
Theorem C70_accepted n qs vf k : fits_into n qs -> n < 64 -> may_move qs k -> call_valid k -> exists g, make vf (move qs k) = Ok g.
Proof. exact (fun Hfit Hn => move_made n qs Hfit Hn vf k). Qed.
Print Assumptions C70_accepted.

(** H(0), measure 0, X(1) if it showed 1, RX(1): moved to qubits 2 and 0 of three. *)
Example C70_example_circuit : fits_into 3 [2; 0] /\ circuit_is (build ex_calls) ex_program /\ moved_circuit [2; 0] (build ex_calls) (build at_calls).
Proof. exact (conj (proj1 at_moved) (conj (proj1 circuit_example) (proj2 at_moved))). Qed.
Example C70_example_state phi r u : sqnorm 1 phi = 1%R ->
  let w := World ex_zero None r u in let w' := World (placed 3 [2; 0] ex_zero phi) None r u in
  world_placed 3 [2; 0] phi w w' /\ sqnorm (3 - N.of_nat (length [2; 0])) phi = 1%R /\
  forall us, Forall unit_draw us -> ~ run_program watch_all (N.of_nat (length [2; 0])) (fun _ => Some 1%R) ex_program us (SState (w_amp w) (w_reg w)) SOutside.
Proof. exact (at_world phi r u). Qed.
Example C70_example_pauli : move [3; 0; 1] (CallPauliRotation (Pauli C1 2 1) 1 [2] []) = CallPauliRotation (Pauli C1 1 8) 1 [1] [] /\
  may_move [3; 0; 1] (CallPauliRotation (Pauli C1 2 1) 1 [2] []) /\ call_valid (CallPauliRotation (Pauli C1 2 1) 1 [2] []).
Proof. exact pauli_moved. Qed.
