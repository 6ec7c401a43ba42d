(** What "the same circuit with its gates in another order" means. *)
From Verif Require Export CircuitSpec.

(** The gates of a circuit in order, each with its condition. *)
Definition in_order (c : circuit) : list (citem * option cond) := combine (c_gates c) (c_conds c).
(** Nothing random: neither a measurement nor a probabilistic gate. *)
Definition fixed_action (i : citem) : Prop :=
  match i with
  | IGate (CElem _) | IParam (PRot _ _ _ _) _ | IParam (PPauliRotation _ _ _ _) _ => True
  | _ => False
  end.
(** No qubit is an operand of both. *)
Definition no_common_qubit (i j : citem) : Prop := forall q, N.testbit (item_mask i) q = true -> N.testbit (item_mask j) q = false.
(** Neighbours that may change places: an unconditional gate and anything on other qubits; two gates on different
    qubits, whatever their conditions. *)
Inductive may_swap : citem * option cond -> citem * option cond -> Prop :=
| swap_past i j f : fixed_action i -> no_common_qubit i j -> may_swap (i, None) (j, f)
| swap_conditional i j f f' : fixed_action i -> fixed_action j -> no_common_qubit i j -> may_swap (i, f) (j, f').
Inductive reordered : list (citem * option cond) -> list (citem * option cond) -> Prop :=
| reordered_same l : reordered l l
| reordered_swap l1 a b l2 : may_swap a b \/ may_swap b a -> reordered (l1 ++ a :: b :: l2) (l1 ++ b :: a :: l2)
| reordered_then l l' l'' : reordered l l' -> reordered l' l'' -> reordered l l''.
(** Both return, with the same state, classical register and random numbers still to come; or both throw. *)
Definition same_result (n : N) (o o' : houtcome world unit) : Prop :=
  match o, o' with
  | HDone _ w, HDone _ w' => (forall x, x < 2 ^ n -> w_amp w' x = w_amp w x) /\ w_reg w' = w_reg w /\ forall k, w_rand w' k = w_rand w k
  | HThrown _, HThrown _ => True
  | _, _ => False
  end.

(** * Random gates *)
(** The bits of the classical register a gate may write. *)
Fixpoint bits_of_gate (g : cgate) : list N :=
  match g with CElem _ => [] | CMeas _ bit _ => [bit] | CProb _ _ gs => flat_map bits_of_gate gs end.
Fixpoint bits_of_param (g : pgate) : list N :=
  match g with
  | PProb _ _ gs => flat_map (fun g => match g with inl g => bits_of_gate g | inr g => bits_of_param g end) gs
  | _ => []
  end.
Definition bits_written (i : citem) : list N := match i with IGate g => bits_of_gate g | IParam g _ => bits_of_param g end.
(** Neighbours of any kind that have nothing to do with each other: no qubit of one is a qubit of the other, they write
    different classical bits, and where one has a condition the other writes none. *)
Definition unrelated (a b : citem * option cond) : Prop :=
  no_common_qubit (fst a) (fst b) /\ (forall k, In k (bits_written (fst a)) -> ~ In k (bits_written (fst b))) /\
  (snd a <> None -> bits_written (fst b) = []) /\ (snd b <> None -> bits_written (fst a) = []).
Inductive rearranged : list (citem * option cond) -> list (citem * option cond) -> Prop :=
| rearranged_same l : rearranged l l
| rearranged_swap l1 a b l2 : unrelated a b -> rearranged (l1 ++ a :: b :: l2) (l1 ++ b :: a :: l2)
| rearranged_then l l' l'' : rearranged l l' -> rearranged l' l'' -> rearranged l l''.
