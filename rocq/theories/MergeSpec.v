(** What merging gates promises. *)
From Verif Require Export GateSpec Merge.

(** A gate a program can hold: returned by a factory, or by get_inverse of such a gate. *)
Inductive made : tgate -> Prop :=
| made_call vf k g : call_typed k -> make vf k = Ok g -> made (true, g)
| made_inverse t g g' : made (t, g) -> get_inverse g = Ok g' -> made (false, g').
(** The operands the gate reports are qubits of an n-qubit state. *)
Definition operands_below (n : N) (g : egate) : Prop :=
  Forall (fun q => q < n) (gate_target_list g ++ gate_control_list g).
(** The controls the gate reports all have the value at which they are active. *)
Definition active (g : egate) (x : N) : bool :=
  ctrl_ok (combine (gate_control_list g) (map (fun v => v =? 1) (gate_control_values g))) x.
(** Gates merge_gate does not support: their type is visibly Permutation. *)
Definition is_permutation (g : tgate) : bool :=
  match g with (true, EPermutation _ _ _) => true | _ => false end.
Definition is_rz (g : tgate) : bool := match snd g with EStd (GRZ _) _ => true | _ => false end.
