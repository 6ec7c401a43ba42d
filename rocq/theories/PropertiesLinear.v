(** C78: circuits of gates are linear and keep inner products; a global phase is never seen. *)
From Verif Require Import LinearProofs.
From Verif Require Import LinearSpec.

(** Without measurements and random gates, running a circuit on a * psi1 + b * psi2 gives a * (what psi1 becomes) +
    b * (what psi2 becomes), for any gates (unitary or not), conditions and parameters; if it throws, it throws on all. *)
Theorem C78_superposition n L L1 L2 ps c p w w1 w2 a b : n < 64 -> lanes_ok L -> lanes_ok L1 -> lanes_ok L2 -> circuit_is c p -> acts_only ps p ->
  w_reg w1 = w_reg w -> w_reg w2 = w_reg w -> (forall k, unit_draw (w_rand w k) /\ unit_draw (w_rand w1 k) /\ unit_draw (w_rand w2 k)) ->
  (forall x, x < 2 ^ n -> w_amp w x = a * w_amp w1 x + b * w_amp w2 x)%C ->
  (exists o, circuit_update n L ps c w o) /\ (exists o, circuit_update n L1 ps c w1 o) /\ (exists o, circuit_update n L2 ps c w2 o) /\
  forall o o1 o2, circuit_update n L ps c w o -> circuit_update n L1 ps c w1 o1 -> circuit_update n L2 ps c w2 o2 ->
    exists w' w1' w2', end_alike [o; o1; o2] [w'; w1'; w2'] /\ forall x, x < 2 ^ n -> w_amp w' x = (a * w_amp w1' x + b * w_amp w2' x)%C.
Proof. exact (superposition n L L1 L2 ps c p w w1 w2 a b). Qed.
Print Assumptions C78_superposition.
(** If the gates keep the norm, the circuit keeps the inner product of any two states. *)
Theorem C78_overlap n L L' ps c p w w' : n < 64 -> lanes_ok L -> lanes_ok L' -> circuit_is c p -> acts_only ps p -> norm_kept n ps p ->
  w_reg w' = w_reg w -> (forall k, unit_draw (w_rand w k) /\ unit_draw (w_rand w' k)) ->
  (exists o, circuit_update n L ps c w o) /\ (exists o, circuit_update n L' ps c w' o) /\
  forall o o', circuit_update n L ps c w o -> circuit_update n L' ps c w' o' ->
    exists v v', end_alike [o; o'] [v; v'] /\ inner n (w_amp v) (w_amp v') = inner n (w_amp w) (w_amp w').
Proof. exact (overlap n L L' ps c p w w'). Qed.
Print Assumptions C78_overlap.
(** Any circuit, with measurements, conditions and noise, started from a state and from the state times a phase with the
    same random numbers: the same register and random numbers left, and the states differ by the same phase. *)
Theorem C78_phase n L L' ps c p t w v : n < 64 -> lanes_ok L -> lanes_ok L' -> circuit_is c p -> norm_kept n ps p ->
  sqnorm n (w_amp w) = 1%R -> (forall k, unit_draw (w_rand w k)) ->
  (forall x, x < 2 ^ n -> w_amp v x = Cexpi t * w_amp w x)%C -> w_reg v = w_reg w -> (forall k, w_rand v k = w_rand w k) ->
  (exists o, circuit_update n L ps c w o) /\ (exists o, circuit_update n L' ps c v o) /\
  forall o o', circuit_update n L ps c w o -> circuit_update n L' ps c v o' ->
    (exists w' v', o = HDone tt w' /\ o' = HDone tt v' /\ (forall x, x < 2 ^ n -> w_amp v' x = Cexpi t * w_amp w' x)%C /\ w_reg v' = w_reg w' /\ forall k, w_rand v' k = w_rand w' k) \/
    (exists w' v', o = HThrown w' /\ o' = HThrown v').
Proof. exact (phase n L L' ps c p t w v). Qed.
Print Assumptions C78_phase.

(** H(0), H(1) *)
Example C78_example ps : circuit_is (build hh_calls) hh_program /\ acts_only ps hh_program /\ norm_kept 2 ps hh_program.
Proof. exact (linear_example ps). Qed.
(** H(0), H(1), both measured, from (3/5)|00> + (4/5)|01> *)
Example C78_phase_example : circuit_is (build OrderProofs4.two_calls) OrderProofs4.two_program /\ norm_kept 2 (fun _ => None) OrderProofs4.two_program /\ sqnorm 2 OrderProofs4.uneven = 1%R.
Proof. exact phase_example. Qed.
