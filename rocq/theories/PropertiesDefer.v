(** C76: a gate conditioned on a measured bit and a gate controlled by the qubit before it is measured. *)
From Verif Require Import DeferProofs3.
From Verif Require Import DeferSpec.

(** Measure q into a bit (with or without reset), then a gate if the bit shows v: the circuit in which the gate is
    controlled by q at v instead and comes before the measurement leaves, whenever it returns, the same state, classical
    register and random numbers still to be drawn, with the same parameters and random numbers; anywhere in the circuit
    and any number of times. *)
Theorem C76_deferred n L L' ps c c' p p' w : n < 64 -> lanes_ok L -> lanes_ok L' -> circuit_is c p -> circuit_is c' p' -> norm_kept n ps p -> deferred p p' ->
  sqnorm n (w_amp w) = 1%R -> (forall k, unit_draw (w_rand w k)) ->
  (exists o, circuit_update n L ps c w o) /\ (exists o', circuit_update n L' ps c' w o') /\
  forall o o', circuit_update n L ps c w o -> circuit_update n L' ps c' w o' -> (exists w', o' = HDone tt w') -> same_result n o o'.
Proof. exact (deferred_correct n L L' ps c c' p p' w). Qed.
Print Assumptions C76_deferred.
(** If the measured bits exist and no gate touches a qubit measured before and not reset, both circuits return. *)
Theorem C76_both_return n L L' ps c c' p p' l w : n < 64 -> lanes_ok L -> lanes_ok L' -> circuit_is c p -> circuit_is c' p' -> norm_kept n ps p -> deferred p p' ->
  Forall (fun q => q < n) (program_operands p) -> instantiate ps p = Some l -> orderly (length (w_reg w)) [] l ->
  sqnorm n (w_amp w) = 1%R -> (forall k, unit_draw (w_rand w k)) ->
  exists w1 w2, circuit_update n L ps c w (HDone tt w1) /\ circuit_update n L' ps c' w (HDone tt w2) /\
  forall o o', circuit_update n L ps c w o -> circuit_update n L' ps c' w o' -> same_result n o o' /\ exists w', o = HDone tt w'.
Proof. exact (deferred_orderly n L L' ps c c' p p' l w). Qed.
Print Assumptions C76_both_return.
(** Without that they differ: a gate on a qubit measured before is rejected only in the runs that come to it, so the
    conditional gate may be skipped where the controlled gate makes the circuit throw. *)
Theorem C76_throws_refuted L : lanes_ok L -> exists (c c' : circuit) (p p' : program) (w : world),
  circuit_is c p /\ circuit_is c' p' /\ norm_kept 2 (fun _ => None) p /\ deferred p p' /\ sqnorm 2 (w_amp w) = 1%R /\ (forall k, unit_draw (w_rand w k)) /\
  runs (circuit_update 2 L (fun _ => None) c) w (done (fun _ w' => w_reg w' = [false; false])) /\
  runs (circuit_update 2 L (fun _ => None) c') w (fun o => exists w', o = HThrown w').
Proof. exact (late_refuted L). Qed.
Print Assumptions C76_throws_refuted.

(** H(0), measure 0, X(1) if it showed 1, RX(1); and H(0), CX(0,1), measure 0, RX(1). *)
Example C76_example : circuit_is (build ex_calls) ex_program /\ circuit_is (build cx_calls) cx_program /\ deferred ex_program cx_program /\
  norm_kept 2 (fun _ => Some 1%R) ex_program /\ sqnorm 2 ex_zero = 1%R /\ Forall (fun q => q < 2) (program_operands ex_program) /\
  exists l, instantiate (fun _ => Some 1%R) ex_program = Some l /\ orderly (length [false]) [] l.
Proof. exact defer_example. Qed.
