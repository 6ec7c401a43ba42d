(** Circuit::optimize: C25, C59. *)
From Verif Require Import CircuitSpec Optimize OptimizeSpec.
From Verif Require OptimizeProofs8 OptimizeProofs9 OptimizeProofs10 OptimizeProofs12.

(** C25: a run of the circuit and a run of the optimized circuit with the same random numbers end in the same
    registers and the same state up to one angle theta below (number of gates + 1) * 1e-12.  Missing: circuits with
    inverted probabilistic gates or controlled RZ gates, and circuits for which [optimize_loses]: there the claim is
    false, see below. *)
Theorem C25_optimize_partial : forall vf max_block n c p c', n < 64 -> circuit_is c p -> Forall (fun q => q < n) (program_operands p) ->
  ordinary c -> norm_safe n p -> optimize vf max_block c = Ok c' -> optimize_loses vf max_block c = false ->
  exists p' (theta : R), circuit_is c' p' /\ (Rabs theta <= (INR (length (c_gates c)) + 1) * / 10 ^ 12)%R /\
    (length (c_gates c') <= length (c_gates c) + 1)%nat /\
    forall ps us s s', run_program watch_all n ps p us s (SDone (turned theta s')) <-> run_program watch_all n ps p' us s (SDone s').
Proof. exact OptimizeProofs8.optimize_correct. Qed.
Print Assumptions C25_optimize_partial.
(** The same with conditions on the gates of the circuit only; optimize then returns. *)
Theorem C25_safe_circuits_partial : forall vf max_block n c p, n < 64 -> circuit_is c p -> Forall (fun q => q < n) (program_operands p) ->
  ordinary c -> norm_safe n p -> never_cancels c -> no_permutations c ->
  exists c' p' (theta : R), optimize vf max_block c = Ok c' /\ circuit_is c' p' /\ (Rabs theta <= (INR (length (c_gates c)) + 1) * / 10 ^ 12)%R /\
    (length (c_gates c') <= length (c_gates c) + 1)%nat /\
    forall ps us s s', run_program watch_all n ps p us s (SDone (turned theta s')) <-> run_program watch_all n ps p' us s (SDone s').
Proof. exact OptimizeProofs10.optimize_works. Qed.
Print Assumptions C25_safe_circuits_partial.
(** RX(1) and RX(2) on qubit 0 are merged although H on qubit 1 lies between them; then a measurement *)
Example C25_example : let c := OptimizeProofs10.ex_circuit in let p := OptimizeProofs10.ex_sprogram in
  circuit_is c p /\ Forall (fun q => q < 2) (program_operands p) /\ ordinary c /\ norm_safe 2 p /\ never_cancels c /\ no_permutations c /\
  optimize false 1 c = Ok (Circuit [IGate (CElem (true, OptimizeProofs10.gate_rx (1 + 2))); IGate OptimizeProofs10.meas_0;
                                    IGate (CElem (true, OptimizeProofs10.gate_h1))] [None; None; None]).
Proof. exact OptimizeProofs10.optimize_example. Qed.
(** optimize never reads outside its lists and throws only for Permutation gates. *)
Theorem C25_returns_partial : forall vf max_block n c p, n < 64 -> circuit_is c p -> Forall (fun q => q < n) (program_operands p) ->
  ordinary c -> no_permutations c -> exists c', optimize vf max_block c = Ok c'.
Proof. exact OptimizeProofs9.optimize_returns. Qed.
Print Assumptions C25_returns_partial.

(** The full claim is false: X X on one qubit is turned into X. *)
Theorem C25_optimize_refuted : exists c c' p p' s a b, circuit_is c p /\ Forall (fun q => q < 1) (program_operands p) /\ ordinary c /\ norm_safe 1 p /\
  optimize false 3 c = Ok c' /\ circuit_is c' p' /\
  run_program watch_all 1 (fun _ => None) p [] s (SDone a) /\ run_program watch_all 1 (fun _ => None) p' [] s (SDone b) /\ forall theta, a <> turned theta b.
Proof. exact OptimizeProofs10.optimize_wrong. Qed.
Print Assumptions C25_optimize_refuted.
(** X and a Permutation gate: optimize throws. *)
Theorem C25_permutation_refuted : exists c p, circuit_is c p /\ Forall (fun q => q < 2) (program_operands p) /\ ordinary c /\ optimize false 3 c = Throw.
Proof. exact OptimizeProofs10.optimize_throws. Qed.
Print Assumptions C25_permutation_refuted.

(** C59: every item of the optimized circuit is an item of the circuit, with its condition, or an unconditional gate
    that is a Pauli gate or has at most max_block_size target qubits. *)
Theorem C59_block_size : forall vf max_block c c', (forall e, In (IGate (CElem e), None) (combine (c_gates c) (c_conds c)) -> made e) ->
  optimize vf max_block c = Ok c' ->
  forall i f, In (i, f) (combine (c_gates c') (c_conds c')) -> In (i, f) (combine (c_gates c) (c_conds c)) \/
    f = None /\ exists e, i = IGate (CElem e) /\ (N.of_nat (length (gate_target_list (snd e))) <= max_block \/ pauli_gate e).
Proof. exact OptimizeProofs12.block_size. Qed.
Print Assumptions C59_block_size.
(** Two gates with a common qubit are left alone if their block is larger than max_block_size ... *)
Theorem C59_large_pair_kept : forall vf max_block e1 e2 q, made e1 -> made e2 -> acts_on_qubits e1 -> acts_on_qubits e2 -> uses e1 q = true -> uses e2 q = true ->
  max_block < N.of_nat (length (block_qubits e1 e2)) -> ~ paulis_alike e1 e2 -> optimize vf max_block (two_gates e1 e2) = Ok (two_gates e1 e2).
Proof. exact OptimizeProofs12.two_kept. Qed.
Print Assumptions C59_large_pair_kept.
(** ... and are otherwise replaced by what merge_gate returns for them.  (If the merged gate uses fewer qubits see
    C25_optimize_refuted; a phase above 1e-12 is kept in a further gate.) *)
Theorem C59_small_pair_merged : forall vf max_block e1 e2 q e phase, made e1 -> made e2 -> acts_on_qubits e1 -> acts_on_qubits e2 -> uses e1 q = true -> uses e2 q = true ->
  N.of_nat (length (block_qubits e1 e2)) <= max_block \/ paulis_alike e1 e2 ->
  merge_gate vf e1 e2 = Ok (e, phase) -> (forall q, uses e q = uses e1 q || uses e2 q) -> (Rabs phase <= / 10 ^ 12)%R ->
  optimize vf max_block (two_gates e1 e2) = Ok (Circuit [IGate (CElem e)] [None]).
Proof. exact OptimizeProofs12.two_merged. Qed.
Print Assumptions C59_small_pair_merged.
(** Two T gates with the same control: kept for block size 0, merged into S with the same control for block size 1. *)
Example C59_example : let ct := OptimizeProofs12.ct in let cs := OptimizeProofs12.cs_gate in
  made ct /\ acts_on_qubits ct /\ uses ct 0 = true /\ block_qubits ct ct = [0] /\ ~ paulis_alike ct ct /\ merge_gate false ct ct = Ok (cs, 0%R) /\
  (forall q, uses cs q = uses ct q || uses ct q) /\ optimize false 0 (two_gates ct ct) = Ok (two_gates ct ct) /\ optimize false 1 (two_gates ct ct) = Ok (Circuit [IGate (CElem cs)] [None]).
Proof. exact OptimizeProofs12.two_example. Qed.
(** The bound does not hold for all qubits of a new gate: controls are not counted. *)
Theorem C59_controls_refuted : exists c c' e, (forall e, In (IGate (CElem e), None) (combine (c_gates c) (c_conds c)) -> made e) /\ optimize false 1 c = Ok c' /\
  In (IGate (CElem e)) (c_gates c') /\ ~ In (IGate (CElem e)) (c_gates c) /\ ~ pauli_gate e /\ uses e 0 = true /\ uses e 1 = true.
Proof. exact OptimizeProofs12.controls_uncounted. Qed.
Print Assumptions C59_controls_refuted.
