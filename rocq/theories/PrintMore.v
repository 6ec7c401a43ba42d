(** to_string of Ecr gates, permutation gates and parametric gates; [num] as in Print.v. *)
From Verif Require Export Print.
Local Open Scope N_scope.
Local Open Scope list_scope.

(** gate_standard.cpp:1303-1333: physical_control[0] and physical_target[0] read the first entry of a list without a check *)
Definition first_entry (l : list N) : res N := match l with [] => UB | a :: _ => Ok a end.
Definition ecr_to_string (indent : text) (b : base) (physical_control_mask physical_target_mask : N) : res text :=
  pc <- first_entry (mask_to_vector physical_control_mask) ;;
  pt <- first_entry (mask_to_vector physical_target_mask) ;;
  Ok (type_line indent "Ecr" ++ line (indent ++ lit "  Physical Control Qubit: {" ++ dec pc ++ lit "}") ++
      line (indent ++ lit "  Physical Target Qubit: {" ++ dec pt ++ lit "}") ++ qubit_info indent b).
(** gate_standard.cpp:1401-1413 *)
Fixpoint comma_before (l : list N) : text := match l with [] => [] | a :: r => lit ", " ++ dec a ++ comma_before r end.
Definition comma_between (l : list N) : text := match l with [] => [] | a :: r => dec a ++ comma_before r end.
Definition permutation_to_string (indent : text) (b : base) (dst : list N) : text :=
  type_line indent "Permutation" ++ line (indent ++ lit "Permutation: [" ++ comma_between dst ++ lit "]") ++ qubit_info indent b.
(** param_gate.cpp:68-83 get_qubit_info_as_string: the control values are not written *)
Definition param_info (num : R -> text) (indent : text) (b : base) (coef : R) : text :=
  line (indent ++ lit "  Parameter Coefficient: " ++ num coef) ++
  line (indent ++ lit "  Target Qubits: {" ++ listed (mask_to_vector (g_t b)) ++ lit "}") ++
  indent ++ lit "  Control Qubits: {" ++ listed (mask_to_vector (g_c b)) ++ lit "}".
(** param_gate_standard.cpp:15-21, 122-128, 229-235; param_gate_pauli.cpp:16-27, which writes neither the coefficient nor
    the control values.  Parametric probabilistic gates are left out (None). *)
Definition param_to_string (num : R -> text) (indent : text) (g : pgate) : option text :=
  match g with
  | PRot _ RotX b coef => Some (type_line indent "ParamRX" ++ param_info num indent b coef)
  | PRot _ RotY b coef => Some (type_line indent "ParamRY" ++ param_info num indent b coef)
  | PRot _ RotZ b coef => Some (type_line indent "ParamRZ" ++ param_info num indent b coef)
  | PPauliRotation _ b p _ => Some (type_line indent "ParamPauliRotation" ++ pauli_info indent b p)
  | PProb _ _ _ => None
  end.
