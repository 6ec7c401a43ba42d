(** A gate says truthfully which qubits it acts on (C74).

    [gate_report g] (Reports.v) are the answers of target_qubit_list, control_qubit_list, control_value_list and
    operand_qubit_list; [param_report] those of a parametric gate.  [tells r ts cs] (ReportSpec.v): the answers are the
    targets [ts] and the controls [cs] with their values, in increasing order.  [call_targets] and [call_controls]
    (GateSpec.v) are what the caller of the factory asked for; a control without a value has value 1. *)
From Verif Require Import ReportSpec ReportProofs.
From Coq Require Import Permutation Sorted.

Theorem C74_factory : forall vf k g t, call_typed k -> make vf k = Ok g ->
  tells (gate_report (CElem (t, g))) (call_targets k) (call_controls k).
Proof. exact factory_tells. Qed.
Print Assumptions C74_factory.
Example C74_example : exists g, make false (CallDense [4; 1] (DMat 4 4 (fun _ _ => C1)) [5; 0] [0; 1] false) = Ok g /\
  gate_report (CElem (true, g)) = Report (Ok [1; 4]) (Ok [0; 5]) (Ok [1; 0]) [0; 1; 4; 5].
Proof. eexists. split; [reflexivity|]. vm_compute. reflexivity. Qed.
Theorem C74_param : forall vf k g v, pcall_typed k -> make_param vf k = Ok g ->
  tells (param_report g) (call_targets (pcall_at k v)) (call_controls (pcall_at k v)).
Proof. exact param_tells. Qed.
Print Assumptions C74_param.
Theorem C74_measurement : forall q bit reset g, make_measurement q bit reset = Ok g -> tells (gate_report g) [q] [].
Proof. exact measurement_tells. Qed.
Print Assumptions C74_measurement.

(** A probabilistic gate only tells its operands, which are those of its alternatives; the other questions throw. *)
Theorem C74_probabilistic : forall dist gs ss g, Forall2 stands gs ss -> make_probabilistic dist gs = Ok g ->
  let r := gate_report g in r_targets r = Throw /\ r_controls r = Throw /\ r_values r = Throw /\
  (forall q, In q (r_operands r) <-> exists h, In h gs /\ In q (r_operands (gate_report h))).
Proof. exact probabilistic_told. Qed.
Print Assumptions C74_probabilistic.
Theorem C74_param_probabilistic : forall dist gs g, make_param_probabilistic dist gs = Ok g ->
  let r := param_report g in r_targets r = Throw /\ r_controls r = Throw /\ r_values r = Throw.
Proof. exact param_probabilistic_silent. Qed.
Print Assumptions C74_param_probabilistic.
(** The masks say the same as the lists, and throw where these do. *)
Theorem C74_masks : forall g s, stands g s ->
  match c_masks g with
  | Ok (t, c, cv) => exists ts cs vs, r_targets (gate_report g) = Ok ts /\ r_controls (gate_report g) = Ok cs /\ r_values (gate_report g) = Ok vs /\
      (forall q, N.testbit t q = true <-> In q ts) /\ (forall q, N.testbit c q = true <-> In q cs) /\
      (forall q, N.testbit cv q = true <-> In (q, 1) (combine cs vs))
  | Throw => r_targets (gate_report g) = Throw /\ r_controls (gate_report g) = Throw /\ r_values (gate_report g) = Throw
  | UB => False
  end.
Proof. exact masks_told. Qed.
Print Assumptions C74_masks.
(** For any gate, however it was made, the operands are the qubits of the gate it stands for (CircuitSpec.v), in
    increasing order. *)
Theorem C74_operands : forall g s, stands g s ->
  StronglySorted N.lt (r_operands (gate_report g)) /\ (forall q, In q (r_operands (gate_report g)) <-> In q (operands s)).
Proof. exact operands_told. Qed.
Print Assumptions C74_operands.
Theorem C74_param_operands : forall g s v, pstands (inr g) s ->
  StronglySorted N.lt (r_operands (param_report g)) /\ (forall q, In q (r_operands (param_report g)) <-> In q (operands (s v))).
Proof. exact param_operands_told. Qed.
Print Assumptions C74_param_operands.

(** The inverse of a gate gives the same answers, exceptions included. *)
Theorem C74_inverse : forall g s g', stands g s -> c_inverse g = Ok g' -> gate_report g' = gate_report g.
Proof. exact inverse_report. Qed.
Print Assumptions C74_inverse.
Theorem C74_param_inverse : forall g s g', pstands (inr g) s -> p_inverse g = Ok g' -> param_report g' = param_report g.
Proof. exact param_inverse_report. Qed.
Print Assumptions C74_param_inverse.

(** The answers bound what an update can do: an amplitude stays as it is where a listed control does not have the listed
    value, and otherwise only depends on amplitudes whose index differs in the listed targets. *)
Theorem C74_effect : forall vf k t g n B L psi psi' r r' ts cs vs,
  call_typed k -> make vf k = Ok g -> Forall (fun q => q < n) (call_operands k) -> sizes_ok n B L ->
  result n B L g psi r -> result n B L g psi' r' ->
  r_targets (gate_report (CElem (t, g))) = Ok ts -> r_controls (gate_report (CElem (t, g))) = Ok cs -> r_values (gate_report (CElem (t, g))) = Ok vs ->
  forall x, x < B * 2 ^ n ->
  (forall i q v, nth_error cs i = Some q -> nth_error vs i = Some v -> N.b2n (N.testbit x q) <> v -> r x = psi x) /\
  ((forall y, differs_only ts x y -> psi y = psi' y) -> r x = r' x).
Proof. exact told_effect. Qed.
Print Assumptions C74_effect.
Example C74_example_inverse : exists g g' h h', make false (Call1 GS 3 [6] [0]) = Ok g /\ c_inverse (CElem (true, g)) = Ok g' /\
  gate_report g' = Report (Ok [3]) (Ok [6]) (Ok [0]) [3; 6] /\
  make_bit_flip false 5 (/ 2) = Ok h /\ c_inverse h = Ok h' /\ gate_report h' = Report Throw Throw Throw [5].
Proof. exact report_example. Qed.
