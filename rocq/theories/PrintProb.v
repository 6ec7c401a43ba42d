(** to_string of probabilistic gates; [num] as in Print.v. *)
From Verif Require Export Print.
Local Open Scope N_scope.
Local Open Scope list_scope.

(** gate_probabilistic.cpp:88-100.  The constructor flattens nested probabilistic gates, so that the entries are plain
    gates; those whose text is left out of Print.v count as Throw here.  gate_list()[i] is read without a check. *)
Fixpoint prob_entries (num : R -> text) (indent : text) (dist : list R) (gs : list egate) : res text :=
  match dist, gs with
  | [], _ => Ok []
  | _ :: _, [] => UB
  | p :: dist', g :: gs' =>
    t <- match gate_to_string num (indent ++ lit "  ") g with Some t => Ok t | None => Throw end ;;
    r <- prob_entries num indent dist' gs' ;;
    Ok (line (indent ++ lit "  --------------------") ++ line (indent ++ lit "  Probability: " ++ num p) ++
        (match dist' with [] => t | _ => line t end) ++ r)
  end.
Definition prob_to_string (num : R -> text) (indent : text) (dist : list R) (gs : list egate) : res text :=
  r <- prob_entries num indent dist gs ;; Ok (type_line indent "Probabilistic" ++ r).
