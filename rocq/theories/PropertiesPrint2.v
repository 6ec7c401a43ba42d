(** C80, continued: the text of Ecr gates, permutation gates, probabilistic gates and parametric gates. *)
From Verif Require Import PrintSpec PrintMore PrintProbSpec.
From Verif Require PrintProofs4 PrintProofs5.
Local Open Scope N_scope.
Local Open Scope list_scope.

(** an Ecr gate: which qubit is its control and which its target, then targets, controls and control values *)
Theorem C80_ecr : forall indent b p q, one_line indent -> p < 64 -> q < 64 -> masks_ok b ->
  exists t dp dq info, ecr_to_string indent b (2 ^ p) (2 ^ q) = Ok t /\ decimal_of p dp /\ decimal_of q dq /\ qubit_report indent b info /\
    lines t = [indent ++ to_text "Gate Type: Ecr"; indent ++ to_text "  Physical Control Qubit: {" ++ dp ++ to_text "}";
               indent ++ to_text "  Physical Target Qubit: {" ++ dq ++ to_text "}"] ++ info.
Proof. exact (fun indent b p q Hi => PrintProofs4.ecr_says indent Hi b p q). Qed.
Print Assumptions C80_ecr.
Theorem C80_ecr_told : forall indent b b' p p' q q', one_line indent -> p < 64 -> q < 64 -> p' < 64 -> q' < 64 -> masks_ok b -> masks_ok b' ->
  ecr_to_string indent b (2 ^ p) (2 ^ q) = ecr_to_string indent b' (2 ^ p') (2 ^ q') -> p = p' /\ q = q' /\ b = b'.
Proof. exact (fun indent b b' p p' q q' Hi => PrintProofs4.ecr_tells indent Hi b b' p p' q q'). Qed.
Print Assumptions C80_ecr_told.
(** a permutation gate: the whole permutation *)
Theorem C80_permutation : forall indent b dst, one_line indent -> Forall (fun x => x < 2 ^ 64) dst -> masks_ok b ->
  exists ds info, list_of dst ds /\ qubit_report indent b info /\
    lines (permutation_to_string indent b dst) = [indent ++ to_text "Gate Type: Permutation"; indent ++ to_text "Permutation: [" ++ ds ++ to_text "]"] ++ info.
Proof. exact (fun indent b dst Hi => PrintProofs4.perm_says indent Hi b dst). Qed.
Print Assumptions C80_permutation.
Theorem C80_permutation_told : forall indent b b' dst dst', one_line indent ->
  Forall (fun x => x < 2 ^ 64) dst -> Forall (fun x => x < 2 ^ 64) dst' -> masks_ok b -> masks_ok b' ->
  permutation_to_string indent b dst = permutation_to_string indent b' dst' -> dst = dst' /\ b = b'.
Proof. exact (fun indent b b' dst dst' Hi => PrintProofs4.perm_tells indent Hi b b' dst dst'). Qed.
Print Assumptions C80_permutation_told.
(** a probabilistic gate: the probabilities and the gates in order *)
Theorem C80_probabilistic : forall num indent dist gs, (forall r, one_line (num r)) -> one_line indent ->
  length dist = length gs -> Forall describable gs -> exists t l, prob_to_string num indent dist gs = Ok t /\
    lines t = (indent ++ to_text "Gate Type: Probabilistic") :: l /\ entries_report num indent dist gs l.
Proof. exact (fun num indent dist gs Hn Hi => PrintProofs5.prob_says num indent Hn Hi dist gs). Qed.
Print Assumptions C80_probabilistic.
Theorem C80_probabilistic_told : forall num indent dist dist' gs gs' t, (forall r, one_line (num r)) -> one_line indent ->
  length dist = length gs -> length dist' = length gs' -> Forall describable gs -> Forall describable gs' ->
  prob_to_string num indent dist gs = Ok t -> prob_to_string num indent dist' gs' = Ok t ->
  map num dist = map num dist' /\ Forall2 (printed_alike num) gs gs'.
Proof. exact (fun num indent dist dist' gs gs' t Hn Hi => PrintProofs5.prob_tells num indent Hn Hi dist dist' gs gs' t). Qed.
Print Assumptions C80_probabilistic_told.
(** a parametric rotation: its axis, its coefficient, its targets and its controls *)
Theorem C80_param : forall num indent known k b coef, (forall r, one_line (num r)) -> one_line indent -> masks_ok b ->
  exists t ts cs, param_to_string num indent (PRot known k b coef) = Some t /\
    list_of (mask_to_vector (g_t b)) ts /\ list_of (mask_to_vector (g_c b)) cs /\
    lines t = [indent ++ to_text "Gate Type: " ++ to_text (match k with RotX => "ParamRX" | RotY => "ParamRY" | RotZ => "ParamRZ" end);
               indent ++ to_text "  Parameter Coefficient: " ++ num coef;
               indent ++ to_text "  Target Qubits: {" ++ ts ++ to_text "}"; indent ++ to_text "  Control Qubits: {" ++ cs ++ to_text "}"].
Proof. exact (fun num indent known k b coef Hn Hi => PrintProofs4.rot_says indent Hi num Hn known k b coef). Qed.
Print Assumptions C80_param.
Theorem C80_param_told : forall num indent known known' k k' b b' coef coef' t, (forall r, one_line (num r)) -> one_line indent -> masks_ok b -> masks_ok b' ->
  param_to_string num indent (PRot known k b coef) = Some t -> param_to_string num indent (PRot known' k' b' coef') = Some t ->
  k = k' /\ num coef = num coef' /\ g_t b = g_t b' /\ g_c b = g_c b'.
Proof. exact (fun num indent known known' k k' b b' coef coef' t Hn Hi => PrintProofs4.rot_tells indent Hi num Hn known known' k k' b b' coef coef' t). Qed.
Print Assumptions C80_param_told.
(** ... but not the values its controls are compared with *)
Theorem C80_param_refuted : exists b b', masks_ok b /\ masks_ok b' /\ mask_to_values (g_c b) (g_cv b) = [1] /\ mask_to_values (g_c b') (g_cv b') = [0] /\
  forall num indent known k coef, param_to_string num indent (PRot known k b coef) = param_to_string num indent (PRot known k b' coef).
Proof. exact PrintProofs4.param_gates_hide. Qed.
Print Assumptions C80_param_refuted.
(** and the text of a parametric Pauli rotation does not tell its coefficient *)
Theorem C80_param_pauli_refuted : forall num indent known b p coef coef',
  param_to_string num indent (PPauliRotation known b p coef) = param_to_string num indent (PPauliRotation known b p coef').
Proof. exact PrintProofs4.param_pauli_hides. Qed.
Print Assumptions C80_param_pauli_refuted.

Example C80_ecr_example : masks_ok (GBase 6 9 8) /\ exists t, ecr_to_string (to_text "> ") (GBase 6 9 8) (2 ^ 2) (2 ^ 1) = Ok t /\
  lines t = [to_text "> Gate Type: Ecr"; to_text ">   Physical Control Qubit: {2}"; to_text ">   Physical Target Qubit: {1}";
             to_text ">   Target Qubits: {1, 2}"; to_text ">   Control Qubits: {0, 3}"; to_text ">   Control Value: {0, 1}"].
Proof. split; [now repeat split|]. eexists. split; reflexivity. Qed.
Example C80_permutation_example : lines (permutation_to_string [] (GBase 7 0 0) [2; 0; 1]) =
  [to_text "Gate Type: Permutation"; to_text "Permutation: [2, 0, 1]"; to_text "  Target Qubits: {0, 1, 2}"; to_text "  Control Qubits: {}"; to_text "  Control Value: {}"].
Proof. reflexivity. Qed.
Example C80_param_example : exists t, param_to_string (fun _ => to_text "0.5") [] (PRot true RotY (GBase 4 3 2) 1) = Some t /\
  lines t = [to_text "Gate Type: ParamRY"; to_text "  Parameter Coefficient: 0.5"; to_text "  Target Qubits: {2}"; to_text "  Control Qubits: {0, 1}"].
Proof. eexists. split; reflexivity. Qed.
Example C80_probabilistic_example : Forall describable [EStd GX (GBase 1 0 0); EStd (GRZ 1) (GBase 2 4 0)] /\
  exists t, prob_to_string (fun _ => to_text "0.5") [] [1/2; 1/2]%R [EStd GX (GBase 1 0 0); EStd (GRZ 1) (GBase 2 4 0)] = Ok t /\
  lines t = [to_text "Gate Type: Probabilistic";
             to_text "  --------------------"; to_text "  Probability: 0.5"; to_text "  Gate Type: X";
             to_text "    Target Qubits: {0}"; to_text "    Control Qubits: {}"; to_text "    Control Value: {}";
             to_text "  --------------------"; to_text "  Probability: 0.5"; to_text "  Gate Type: RZ"; to_text "    Angle: 0.5";
             to_text "    Target Qubits: {1}"; to_text "    Control Qubits: {2}"; to_text "    Control Value: {0}"].
Proof.
  split; [repeat constructor; eexists; reflexivity|]. eexists. split; reflexivity.
Qed.
