(** C73: gates on different qubits may be put in another order. *)
From Verif Require Import OrderProofs4.
From Verif Require Import ChannelSpec OrderSpec.

(** Neighbours change places, as often as you like: a gate without condition with anything on other qubits, a
    measurement, a random or a conditional gate included, or two gates on different qubits with any conditions.  With the
    same parameters and random numbers both circuits return with the same state, classical register and numbers still
    to be drawn, or both throw. *)
Theorem C73_order n L L' ps c c' p w : n < 64 -> lanes_ok L -> lanes_ok L' -> circuit_is c p -> norm_kept n ps p ->
  length (c_gates c') = length (c_conds c') -> reordered (in_order c) (in_order c') ->
  sqnorm n (w_amp w) = 1%R -> (forall k, unit_draw (w_rand w k)) ->
  (exists o, circuit_update n L ps c w o) /\ (exists o', circuit_update n L' ps c' w o') /\
  forall o o', circuit_update n L ps c w o -> circuit_update n L' ps c' w o' -> same_result n o o'.
Proof. exact (order_correct n L L' ps c c' p w). Qed.
Print Assumptions C73_order.
(** Measurements and random gates exchanged with each other: what the circuit leaves on average, every entry of the
    density matrix for every content of the register, stays the same. *)
Theorem C73_average n L L' ps c c' p l psi r0 r i j : n < 64 -> lanes_ok L -> lanes_ok L' -> circuit_is c p -> norm_kept n ps p -> sqnorm n psi = 1%R ->
  Forall (fun q => q < n) (program_operands p) -> instantiate ps p = Some l -> orderly (length r0) [] l ->
  length (c_gates c') = length (c_conds c') -> rearranged (in_order c) (in_order c') -> i < 2 ^ n -> j < 2 ^ n ->
  exists v, averaged (draws_list l) (run_gives n (circuit_update n L ps c) psi r0 (entry r i j)) v /\
            averaged (draws_list l) (run_gives n (circuit_update n L' ps c') psi r0 (entry r i j)) v.
Proof. intros H1 H2 H3 H4 H5 H6 H7 H8 H9 H10 H11. exact (order_average n L L' ps c c' p l psi r0 H1 H2 H3 H4 H5 H6 H7 H8 H9 H10 H11 r i j). Qed.
Print Assumptions C73_average.
(** and so does how often the register shows r. *)
Theorem C73_register n L L' ps c c' p l psi r0 r : n < 64 -> lanes_ok L -> lanes_ok L' -> circuit_is c p -> norm_kept n ps p -> sqnorm n psi = 1%R ->
  Forall (fun q => q < n) (program_operands p) -> instantiate ps p = Some l -> orderly (length r0) [] l ->
  length (c_gates c') = length (c_conds c') -> rearranged (in_order c) (in_order c') ->
  exists v, averaged (draws_list l) (run_gives n (circuit_update n L ps c) psi r0 (shows_register r)) v /\
            averaged (draws_list l) (run_gives n (circuit_update n L' ps c') psi r0 (shows_register r)) v.
Proof. intros H1 H2 H3 H4 H5 H6 H7 H8 H9 H10 H11. exact (order_register n L L' ps c c' p l psi r0 H1 H2 H3 H4 H5 H6 H7 H8 H9 H10 H11 r). Qed.
Print Assumptions C73_register.
(** Not so run by run: with the same random numbers two measurements of different qubits into different bits show
    something else in the other order. *)
Theorem C73_measurements_refuted L : lanes_ok L -> exists (c c' : circuit) (w : world),
  rearranged (in_order c) (in_order c') /\ sqnorm 2 (w_amp w) = 1%R /\ (forall k, unit_draw (w_rand w k)) /\
  runs (circuit_update 2 L (fun _ => None) c) w (done (fun _ w' => w_reg w' = [false; false])) /\
  runs (circuit_update 2 L (fun _ => None) c') w (done (fun _ w' => w_reg w' = [true; false])).
Proof. exact (meas_refuted L). Qed.
Print Assumptions C73_measurements_refuted.

(** H(0), measure 0, RX(1), X(1) if it showed 1: RX(1) may as well come first. *)
Example C73_example : circuit_is (build ord_calls) ord_program /\ norm_kept 2 (fun _ => Some 1%R) ord_program /\ sqnorm 2 ex_zero = 1%R /\
  length (c_gates (build ord_calls')) = length (c_conds (build ord_calls')) /\ reordered (in_order (build ord_calls)) (in_order (build ord_calls')).
Proof. exact (conj (proj1 ord_example) (conj (proj1 (proj2 ord_example)) (conj ex_zero_norm (proj2 (proj2 ord_example))))). Qed.
(** H(0), H(1), then both qubits measured, in either order. *)
Example C73_example_average : circuit_is (build two_calls) two_program /\ norm_kept 2 (fun _ => None) two_program /\ Forall (fun q => q < 2) (program_operands two_program) /\
  (exists l, instantiate (fun _ => None) two_program = Some l /\ orderly 2 [] l /\ draws_list l = 2%nat) /\
  length (c_gates (build two_calls')) = length (c_conds (build two_calls')) /\ rearranged (in_order (build two_calls)) (in_order (build two_calls')).
Proof. exact two_example. Qed.
