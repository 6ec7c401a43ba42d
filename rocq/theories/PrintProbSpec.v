From Verif Require Export PrintSpec PrintProb.
Local Open Scope N_scope.
Local Open Scope list_scope.

(** l: for each probability and gate a ruler, the probability and the lines of the gate, indented by two more blanks *)
Inductive entries_report (num : R -> text) (indent : text) : list R -> list egate -> list text -> Prop :=
| no_entries : entries_report num indent [] [] []
| an_entry p dist g gs t l : gate_to_string num (indent ++ to_text "  ") g = Some t -> entries_report num indent dist gs l ->
    entries_report num indent (p :: dist) (g :: gs)
      ([indent ++ to_text "  --------------------"; indent ++ to_text "  Probability: " ++ num p] ++ lines t ++ l).
(** a gate whose text C80_gate describes *)
Definition describable (g : egate) : Prop := (exists k, gate_kind g = Some k) /\ masks_ok (g_base g).
(** gates of one name on the same operands whose angles print alike *)
Definition printed_alike (num : R -> text) (g g' : egate) : Prop :=
  exists k k', gate_kind g = Some k /\ gate_kind g' = Some k' /\ g_base g = g_base g' /\ fst k = fst k' /\ map num (snd k) = map num (snd k').
