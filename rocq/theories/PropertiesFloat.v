(** Property theorems: gate updates in rounded arithmetic. *)
From Verif Require Import FloatProofs6 FloatProofs8.
Open Scope R_scope.

(** ** C62: rounding errors stay small *)
(** One gate: under every schedule the rounded update ends within [weight k] units of rounding of the exact state. *)
Theorem C62_gate : forall u eta A vf k g n B L psi, accurate u eta A -> call_typed k -> make vf k = Ok g -> rounded_call u A k ->
  Forall (fun q => (q < n)%N) (call_operands k) -> sizes_ok n B L ->
  (exists phi, f_updating A n B L g psi phi) /\
  forall r b, f_result A n B L g psi r -> (b < B)%N ->
  distance n (batch n b r) (apply_mat (call_targets k) (call_controls k) (call_matrix k) (batch n b psi)) <= weight k * unit_error u eta n (vnorm n (batch n b psi)).
Proof. exact gate_rounded. Qed.
Print Assumptions C62_gate.
(** The rounded result does not depend on the schedule. *)
Theorem C62_reproducible : forall u eta A vf k g n B L psi r r', accurate u eta A -> call_typed k -> make vf k = Ok g -> rounded_call u A k ->
  Forall (fun q => (q < n)%N) (call_operands k) -> sizes_ok n B L ->
  f_result A n B L g psi r -> f_result A n B L g psi r' -> forall a, (a < B * 2 ^ n)%N -> r a = r' a.
Proof. exact gate_reproducible. Qed.
Print Assumptions C62_reproducible.
(** I, X (with any controls), CX, CCX, Swap and Permutation are exact in every arithmetic. *)
Theorem C62_moves_exact : forall A vf k g n B L psi, call_typed k -> make vf k = Ok g -> moves_only k ->
  Forall (fun q => (q < n)%N) (call_operands k) -> sizes_ok n B L ->
  f_updating A n B L g psi (apply_mat (call_targets k) (call_controls k) (call_matrix k) psi).
Proof. exact moves_exact. Qed.
Print Assumptions C62_moves_exact.
(** A sequence of gates: the error grows linearly, as the sum of their weights. *)
Theorem C62_circuit : forall u eta A n B L ks gs psi, accurate u eta A -> sizes_ok n B L -> Forall2 (call_ok u A n) ks gs ->
  total_weight ks * u <= 1 ->
  (exists rho, f_run A n B L gs psi rho) /\
  forall rho b, f_run A n B L gs psi rho -> (b < B)%N ->
  distance n (batch n b rho) (exact_after ks (batch n b psi)) <= 3 * total_weight ks * unit_error u eta n (vnorm n (batch n b psi)).
Proof. exact circuit_rounded. Qed.
Print Assumptions C62_circuit.
(** The norm drifts no faster. *)
Theorem C62_norm : forall u eta A n B L ks gs psi rho b, accurate u eta A -> sizes_ok n B L -> Forall2 (call_ok u A n) ks gs ->
  total_weight ks * u <= 1 -> f_run A n B L gs psi rho -> (b < B)%N ->
  Rabs (vnorm n (batch n b rho) - vnorm n (batch n b psi)) <= 3 * total_weight ks * unit_error u eta n (vnorm n (batch n b psi)).
Proof. exact circuit_norm. Qed.
Print Assumptions C62_norm.
(** Binary floating point numbers of 8 or more bits meet the assumptions. *)
Theorem C62_binary : forall prec emin, (8 <= prec)%Z -> (emin <= - prec)%Z -> forall A, binary prec emin A -> accurate (unit_of prec) (tiny_of emin) A.
Proof. exact binary_accurate. Qed.
Print Assumptions C62_binary.
(** Double precision: gates of total weight W, up to 3 * 10^15, move a normalised state by at most W / (3 * 10^15):
    m gates of weight 300 by m / 10^13. *)
Theorem C62_double : forall A n B L ks gs psi, binary 53 (-1074) A -> sizes_ok n B L -> Forall2 (call_ok (unit_of 53) A n) ks gs -> total_weight ks <= 3 * 10 ^ 15 ->
  (exists rho, f_run A n B L gs psi rho) /\
  forall rho b, f_run A n B L gs psi rho -> (b < B)%N -> vnorm n (batch n b psi) = 1 ->
  distance n (batch n b rho) (exact_after ks (batch n b psi)) <= total_weight ks / (3 * 10 ^ 15).
Proof. exact double_rounded. Qed.
Print Assumptions C62_double.
Example C62_example_numbers : accurate (unit_of 53) (tiny_of (-1074)) (correctly_rounded 53 (-1074)) /\ accurate (unit_of 8) (tiny_of (-133)) (correctly_rounded 8 (-133)).
Proof. exact accurate_example. Qed.
Example C62_example_binary : binary 53 (-1074) (correctly_rounded 53 (-1074)).
Proof. exact double_example. Qed.
Example C62_example_circuit : exists gs, Forall2 (call_ok (unit_of 53) (correctly_rounded 53 (-1074)) 3) example_calls gs /\ sizes_ok 3 3 4 /\ total_weight example_calls <= 10000.
Proof. exact circuit_example. Qed.
