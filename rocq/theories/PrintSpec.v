(** Reading printed text line by line. *)
From Verif Require Export Print.
Local Open Scope N_scope.
Local Open Scope list_scope.

(** The lines of a text: what stands before, between and after its newlines; nothing after the last newline is no line. *)
Fixpoint lines (t : text) : list text :=
  match t with
  | [] => []
  | c :: r => if Ascii.eqb c newline then [] :: lines r else match lines r with [] => [[c]] | l :: ls => (c :: l) :: ls end
  end.
Definition one_line (t : text) : Prop := ~ In newline t.
(** t is x in binary with n digits, the highest first *)
Definition binary_of (n x : N) (t : text) : Prop :=
  length t = N.to_nat n /\ forall k, k < n -> nth (N.to_nat (n - 1 - k)) t newline = if N.testbit x k then "1"%char else "0"%char.
(** t is the number a in decimal *)
Definition decimal_of (a : N) (t : text) : Prop := t <> [] /\ Forall (fun c => is_digit c = true) t /\ dec_val t = a.

(** The gates whose text ends in the lists of targets, controls and control values: their names and their angles. *)
Definition gate_kind (g : egate) : option (string * list R) :=
  match g with
  | EI => Some ("I"%string, []) | EGlobalPhase _ ph => Some ("GlobalPhase"%string, [ph]) | ESwap _ => Some ("Swap"%string, [])
  | EStd k _ => Some (match k with
    | GX => ("X", []) | GY => ("Y", []) | GZ => ("Z", []) | GH => ("H", []) | GS => ("S", []) | GSdag => ("Sdag", [])
    | GT => ("T", []) | GTdag => ("Tdag", []) | GSqrtX => ("SqrtX", []) | GSqrtXdag => ("SqrtXdag", [])
    | GSqrtY => ("SqrtY", []) | GSqrtYdag => ("SqrtYdag", []) | GP0 => ("P0", []) | GP1 => ("P1", [])
    | GRX a => ("RX", [a]) | GRY a => ("RY", [a]) | GRZ a => ("RZ", [a]) | GU1 l => ("U1", [l])
    | GU2 p l => ("U2", [p; l]) | GU3 t p l => ("U3", [t; p; l]) end)%string
  | _ => None
  end.
(** masks of 64 bits, control values only for control qubits *)
Definition masks_ok (b : base) : Prop := g_t b < two64 /\ g_c b < two64 /\ N.land (g_cv b) (g_c b) = g_cv b.
(** t is the numbers of l in decimal, separated by a comma and a space *)
Inductive list_of : list N -> text -> Prop :=
| list_none : list_of [] []
| list_one a t : decimal_of a t -> list_of [a] t
| list_more a t l r : decimal_of a t -> l <> [] -> list_of l r -> list_of (a :: l) (t ++ to_text ", " ++ r).

(** The printed state of n qubits with amplitudes psi; [show] prints an amplitude. *)
Definition amplitude_rows (show : C -> text) (bin : N -> text) (n : N) (psi : N -> C) : list text :=
  map (fun x => to_text "  " ++ bin x ++ to_text " : " ++ show (psi x)) (seqN (2 ^ n)).
Definition state_report (show : C -> text) (n : N) (psi : N -> C) (l : list text) : Prop :=
  exists dn dd bin, decimal_of n dn /\ decimal_of (2 ^ n) dd /\ (forall x, binary_of n x (bin x)) /\
    l = [to_text "Qubit Count : " ++ dn; to_text "Dimension : " ++ dd; to_text "State vector : "] ++ amplitude_rows show bin n psi.
Definition states_report (show : C -> text) (n B : N) (rows : N -> N -> C) (l : list text) : Prop :=
  exists dn dd num bin, decimal_of n dn /\ decimal_of (2 ^ n) dd /\ (forall b, b < B -> decimal_of b (num b)) /\ (forall x, binary_of n x (bin x)) /\
    l = [to_text "Qubit Count : " ++ dn; to_text "Dimension : " ++ dd] ++
        flat_map (fun b => [to_text "--------------------"; to_text "Batch_id : " ++ num b; to_text "State vector : "] ++ amplitude_rows show bin n (rows b)) (seqN B).
Definition density_report (show : C -> text) (n : N) (herm : bool) (m : N * N -> C) (l : list text) : Prop :=
  exists dn dd bin, decimal_of n dn /\ decimal_of (2 ^ n) dd /\ (forall x, binary_of n x (bin x)) /\
    l = [to_text "Qubit Count : " ++ dn; to_text "Dimension : " ++ dd; to_text "Is Hermitian : " ++ to_text (if herm then "true" else "false"); to_text "Density Matrix : "] ++
        flat_map (fun i => map (fun j => to_text "  (" ++ bin i ++ to_text ", " ++ bin j ++ to_text ") : " ++ show (m (i, j))) (seqN (2 ^ n))) (seqN (2 ^ n)).
(** A term: the coefficient, and in quotes a text that reads as the Pauli string *)
Definition term_report (show : C -> text) (p : pauli) (t : text) : Prop :=
  exists s, pauli_from_text s (p_coef p) = Ok p /\ t = show (p_coef p) ++ to_text " " ++ [quote] ++ s ++ [quote].
(** The last three lines of a gate's text *)
Definition qubit_report (indent : text) (b : base) (l : list text) : Prop :=
  exists ts cs vs, list_of (mask_to_vector (g_t b)) ts /\ list_of (mask_to_vector (g_c b)) cs /\ list_of (mask_to_values (g_c b) (g_cv b)) vs /\
    l = [indent ++ to_text "  Target Qubits: {" ++ ts ++ to_text "}"; indent ++ to_text "  Control Qubits: {" ++ cs ++ to_text "}"; indent ++ to_text "  Control Value: {" ++ vs ++ to_text "}"].
