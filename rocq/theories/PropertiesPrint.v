(** C80: the text of to_string shows the object.  [show] and [num] stand for the printing of amplitudes and angles;
    all that is used of them is that what they print contains no newline (and, for operators, no quote). *)
From Verif Require Import PrintSpec OperatorSpec OperatorBatchedSpec GatesProofs3.
From Verif Require PrintProofs3.
Local Open Scope N_scope.
Local Open Scope list_scope.

(** a state: its size, then one line per basis state in order, named in binary; the state is not changed *)
Theorem C80_state : forall show n (w : world), (forall c, one_line (show c)) -> n < 64 ->
  runs (state_to_string show n) w (done (fun t w' => w' = w /\ state_report show n (w_amp w) (lines t))).
Proof. exact (fun show n w H => PrintProofs3.state_says show H n w). Qed.
Print Assumptions C80_state.
(** two states with the same text have the same size and the same printed amplitudes *)
Theorem C80_state_told : forall show n n' (w w' v v' : world) t, (forall c, one_line (show c)) -> n < 64 -> n' < 64 ->
  state_to_string show n w (HDone t v) -> state_to_string show n' w' (HDone t v') ->
  n = n' /\ forall x, x < 2 ^ n -> show (w_amp w x) = show (w_amp w' x).
Proof. exact (fun show n n' w w' v v' t H => PrintProofs3.state_tells show H n n' w w' v v' t). Qed.
Print Assumptions C80_state_told.
Theorem C80_states : forall show n B (w : world), (forall c, one_line (show c)) -> n < 64 -> B < 2 ^ 64 ->
  runs (states_to_string show n B) w (done (fun t w' => w' = w /\ states_report show n B (fun b x => w_amp w (at_row n b x)) (lines t))).
Proof. exact (fun show n B w H => PrintProofs3.states_say show H n B w). Qed.
Print Assumptions C80_states.
Theorem C80_states_told : forall show n n' B B' (w w' v v' : world) t, (forall c, one_line (show c)) -> n < 64 -> n' < 64 -> B < 2 ^ 64 -> B' < 2 ^ 64 ->
  states_to_string show n B w (HDone t v) -> states_to_string show n' B' w' (HDone t v') ->
  n = n' /\ B = B' /\ forall b x, b < B -> x < 2 ^ n -> show (w_amp w (at_row n b x)) = show (w_amp w' (at_row n b x)).
Proof. exact (fun show n n' B B' w w' v v' t H => PrintProofs3.states_tell show H n n' B B' w w' v v' t). Qed.
Print Assumptions C80_states_told.
(** a density matrix: also whether it is marked Hermitian, and one line per entry, row by row *)
Theorem C80_density : forall show n (w : dmw), (forall c, one_line (show c)) -> n < 64 ->
  runs (dm_to_string show n) w (done (fun t w' => w' = w /\ density_report show n (d_herm w) (d_raw w) (lines t))).
Proof. exact (fun show n w H => PrintProofs3.density_says show H n w). Qed.
Print Assumptions C80_density.
Theorem C80_density_told : forall show n n' (w w' v v' : dmw) t, (forall c, one_line (show c)) -> n < 64 -> n' < 64 ->
  dm_to_string show n w (HDone t v) -> dm_to_string show n' w' (HDone t v') ->
  n = n' /\ d_herm w = d_herm w' /\ forall i j, i < 2 ^ n -> j < 2 ^ n -> show (d_raw w (i, j)) = show (d_raw w' (i, j)).
Proof. exact (fun show n n' w w' v v' t H => PrintProofs3.density_tells show H n n' w w' v v' t). Qed.
Print Assumptions C80_density_told.
(** an operator: one line per term; the quoted part read as a Pauli string gives the term back *)
Theorem C80_operator : forall show o, (forall c, one_line (show c)) -> op_u64 o -> Forall2 (term_report show) (o_terms o) (lines (op_to_string show o)).
Proof. exact (fun show o H => PrintProofs3.operator_says show H o). Qed.
Print Assumptions C80_operator.
Theorem C80_operator_told : forall show o o', (forall c, one_line (show c)) -> (forall c, ~ In quote (show c)) -> op_u64 o -> op_u64 o' ->
  op_to_string show o = op_to_string show o' ->
  Forall2 (fun p q => show (p_coef p) = show (p_coef q) /\ p_bf p = p_bf q /\ p_pf p = p_pf q) (o_terms o) (o_terms o').
Proof. exact (fun show o o' H => PrintProofs3.operator_tells show H o o'). Qed.
Print Assumptions C80_operator_told.
(** a batch of operators: the operators in order, each under its number *)
Theorem C80_operators : forall show ops, (forall c, one_line (show c)) -> fits_vector ops -> Forall op_u64 ops ->
  exists t parts, ob_to_string show (batch_of ops) = Ok t /\ length parts = length ops /\ lines t = flat_map (fun x => x) parts /\
  forall b o, nth_error ops b = Some o -> exists k r,
    nth_error parts b = Some ((to_text "Operator " ++ k ++ to_text ":") :: r) /\ decimal_of (N.of_nat b) k /\ Forall2 (term_report show) (o_terms o) r.
Proof. exact (fun show ops H => PrintProofs3.batch_says show H ops). Qed.
Print Assumptions C80_operators.
(** gates other than Pauli, Ecr, permutation and matrix gates: name and angles, then targets, controls and control values *)
Theorem C80_gate : forall num indent g k, (forall r, one_line (num r)) -> one_line indent -> gate_kind g = Some k -> masks_ok (g_base g) ->
  exists t heading info, gate_to_string num indent g = Some t /\ lines t = heading ++ info /\
    In (indent ++ to_text "Gate Type: " ++ to_text (fst k)) heading /\
    (forall a, In a (snd k) -> exists name, In (indent ++ to_text "  " ++ name ++ to_text ": " ++ num a) heading) /\
    length heading = S (length (snd k)) /\ qubit_report indent (g_base g) info.
Proof. exact (fun num indent g k Hn Hi => PrintProofs3.gate_says num indent Hn Hi g k). Qed.
Print Assumptions C80_gate.
Theorem C80_gate_told : forall num indent g g' k k' t, (forall r, one_line (num r)) -> one_line indent ->
  gate_kind g = Some k -> gate_kind g' = Some k' -> masks_ok (g_base g) -> masks_ok (g_base g') ->
  gate_to_string num indent g = Some t -> gate_to_string num indent g' = Some t ->
  g_base g = g_base g' /\ fst k = fst k' /\ map num (snd k) = map num (snd k').
Proof. exact (fun num indent g g' k k' t Hn Hi => PrintProofs2.gate_shows indent Hi num Hn g g' k k' t). Qed.
Print Assumptions C80_gate_told.
Theorem C80_measurement : forall indent t bit reset, one_line indent -> t < 2 ^ 64 -> bit < 2 ^ 64 ->
  exists k info, decimal_of bit k /\ qubit_report indent (GBase t 0 0) info /\
    lines (measurement_to_string indent t bit reset) =
      [indent ++ to_text "Gate Type: Measurement"; indent ++ to_text "  Classical Bit Index: " ++ k; indent ++ to_text "  Reset: " ++ to_text (if reset then "true" else "false")] ++ info.
Proof. exact (fun indent t bit reset Hi => PrintProofs3.measurement_says indent Hi t bit reset). Qed.
Print Assumptions C80_measurement.
(** The text of a Pauli gate leaves out the control values: two gates that act differently have the same text. *)
Theorem C80_pauli_gate_refuted : exists g g', gate_wf g /\ gate_wf g' /\ gate_control_values g = [1] /\ gate_control_values g' = [0] /\
  forall num indent, gate_to_string num indent g = gate_to_string num indent g'.
Proof. exact PrintProofs2.pauli_gate_hides. Qed.
Print Assumptions C80_pauli_gate_refuted.

Example C80_state_example : lines (amplitude_lines (fun _ => to_text "a") 2 []) = [to_text "  00 : a"; to_text "  01 : a"; to_text "  10 : a"; to_text "  11 : a"].
Proof. reflexivity. Qed.
Example C80_gate_example : exists t, gate_to_string (fun _ => to_text "0.5") (to_text "> ") (EStd (GRX 1) (GBase 4 11 9)) = Some t /\ masks_ok (GBase 4 11 9) /\
  lines t = [to_text "> Gate Type: RX"; to_text ">   Angle: 0.5"; to_text ">   Target Qubits: {2}"; to_text ">   Control Qubits: {0, 1, 3}"; to_text ">   Control Value: {1, 0, 1}"].
Proof. eexists. split; [reflexivity|]. split; [now repeat split|reflexivity]. Qed.
Example C80_operator_example : lines (op_to_string (fun _ => to_text "(1,0)") (op_of_terms [Pauli C1 1 2; Pauli C1 4 4])) = [to_text "(1,0) ""X 0 Z 1"""; to_text "(1,0) ""Y 2"""].
Proof. vm_compute. reflexivity. Qed.
