(** What a gate says about the qubits it acts on. *)
From Verif Require Export Circuit.

(** gate.hpp:297-299; gate_probabilistic.hpp:32-36.  A measurement has no controls (gate_measurement.hpp:18-21). *)
Definition c_control_values (g : cgate) : res (list N) :=
  match g with CElem (_, g) => Ok (gate_control_values g) | CMeas _ _ _ => Ok (mask_to_values 0 0) | CProb _ _ _ => Throw end.
(** gate.hpp:300-302; gate_probabilistic.hpp:37-39 *)
Definition c_operand_list (g : cgate) : list N := mask_to_vector (operand_mask g).
(** gate.hpp:303-305; gate_probabilistic.hpp:40-54 *)
Definition c_masks (g : cgate) : res (N * N * N) :=
  match g with
  | CElem (_, g) => Ok (g_t (g_base g), g_c (g_base g), g_cv (g_base g))
  | CMeas t _ _ => Ok (t, 0, 0)
  | CProb _ _ _ => Throw
  end.
(** param_gate.hpp:104-112; param_gate_probabilistic.hpp:37-59 *)
Definition p_control_values (g : pgate) : res (list N) :=
  match g with PRot _ _ b _ | PPauliRotation _ b _ _ => Ok (mask_to_values (g_c b) (g_cv b)) | PProb _ _ _ => Throw end.
Definition p_operand_list (g : pgate) : list N := mask_to_vector (poperand_mask g).

(** All answers together: target_qubit_list, control_qubit_list, control_value_list, operand_qubit_list. *)
Record report : Type := Report { r_targets : res (list N); r_controls : res (list N); r_values : res (list N); r_operands : list N }.
Definition gate_report (g : cgate) : report := Report (c_target_list g) (c_control_list g) (c_control_values g) (c_operand_list g).
Definition param_report (g : pgate) : report := Report (p_target_list g) (p_control_list g) (p_control_values g) (p_operand_list g).
