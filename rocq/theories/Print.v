(** to_string of states, density matrices, operators and gates.  How a stream prints a floating point number or a pair
    of them is a parameter ([num], [show]); the stream itself is the text written so far. *)
From Verif Require Export Text PauliText Operator OperatorBatched State Json Density Circuit.
Local Open Scope N_scope.
Local Open Scope list_scope.

Definition newline : ascii := "010"%char.
Definition lit (s : string) : text := to_text s.
(** a string literal that ends in a newline *)
Definition line (t : text) : text := t ++ [newline].

(** state_vector.cpp:329-335, state_vector_batched.cpp:550-556, density_matrix.cpp:509-515: while (len--) tmp += ((n >> len) & 1) + '0' *)
Fixpoint binary (n : N) (len : nat) : text :=
  match len with O => [] | S k => ascii_of_N (N.land (N.shiftr n (N.of_nat k)) 1 + 48) :: binary n k end.

Section Printing.
  Variables (show : C -> text) (num : R -> text).

  (** the loop over i < _dim in both to_string functions; amp[i] is in bounds *)
  Definition amplitude_lines (n : N) (amp : list C) : text :=
    flat_map (fun i => line (lit "  " ++ binary i (N.to_nat n) ++ lit " : " ++ show (nth (N.to_nat i) amp C0))) (seqN (2 ^ n)).
  (** state_vector.cpp:321-339 *)
  Definition state_to_string (n : N) : host world text :=
    amp <~ get_amplitudes n;;
    hret (line (lit "Qubit Count : " ++ dec n) ++ line (lit "Dimension : " ++ dec (2 ^ n)) ++ line (lit "State vector : ") ++ amplitude_lines n amp).
  (** state_vector_batched.cpp:538-561 *)
  Definition states_to_string (n B : N) : host world text :=
    amp <~ b_get_amplitudes n B;;
    hret (line (lit "Qubit Count : " ++ dec n) ++ line (lit "Dimension : " ++ dec (2 ^ n)) ++
          flat_map (fun b => line (lit "--------------------") ++ line (lit "Batch_id : " ++ dec b) ++ line (lit "State vector : ") ++
                             amplitude_lines n (nth (N.to_nat b) amp [])) (seqN B)).
  (** density_matrix.cpp:502-524, with get_matrix (77-89) *)
  Definition bool_text (b : bool) : text := if b then lit "true" else lit "false".
  Definition dm_to_string (n : N) : host dmw text :=
    hget (fun w => line (lit "Qubit Count : " ++ dec n) ++ line (lit "Dimension : " ++ dec (2 ^ n)) ++ line (lit "Is Hermitian : " ++ bool_text (d_herm w)) ++ line (lit "Density Matrix : ") ++
      flat_map (fun i => flat_map (fun j => line (lit "  (" ++ binary i (N.to_nat n) ++ lit ", " ++ binary j (N.to_nat n) ++ lit ") : " ++ show (d_raw w (i, j)))) (seqN (2 ^ n))) (seqN (2 ^ n))).
  (** pauli_operator.cpp:484-489 *)
  Definition quote : ascii := "034"%char.
  Definition pauli_to_string (p : pauli) : text := show (p_coef p) ++ [" "%char; quote] ++ pauli_to_text p ++ [quote].
  (** operator.cpp:30-37 *)
  Definition op_to_string (o : operator) : text := flat_map (fun p => line (pauli_to_string p)) (o_terms o).
  (** operator_batched.cpp:414-423; _row_ptr of a default-constructed batch has extent 0, so that the loop bound wraps *)
  Definition ob_to_string (o : opbatch) : res text :=
    match ob_row o with
    | [] => UB
    | _ :: rest =>
      ts <- collectR (fun i => op <- ob_get_operator_at o i ;; Ok (line (lit "Operator " ++ dec i ++ lit ":") ++ op_to_string op)) (seqN (lenN rest)) ;;
      Ok (concat ts)
    end.

  (** * Gates *)
  (** for (i = 0; i < l.size(); ++i) ss << l[i] << (i == l.size() - 1 ? "" : ", ") *)
  Fixpoint listed (l : list N) : text :=
    match l with [] => [] | [a] => dec a | a :: r => dec a ++ lit ", " ++ listed r end.
  (** gate.cpp:101-119 get_qubit_info_as_string *)
  Definition qubit_info (indent : text) (b : base) : text :=
    indent ++ lit "  Target Qubits: {" ++ listed (mask_to_vector (g_t b)) ++ line (lit "}") ++
    indent ++ lit "  Control Qubits: {" ++ listed (mask_to_vector (g_c b)) ++ line (lit "}") ++
    indent ++ lit "  Control Value: {" ++ listed (mask_to_values (g_c b) (g_cv b)) ++ lit "}".
  Definition type_line (indent : text) (name : string) : text := line (indent ++ lit "Gate Type: " ++ lit name).
  Definition value_line (indent : text) (name : string) (v : R) : text := line (indent ++ lit "  " ++ lit name ++ lit ": " ++ num v).
  (** gate_standard.cpp:117-1181: XGate to U3Gate; U2Gate writes its angles before its type *)
  Definition std_heading (indent : text) (k : std1) : text :=
    match k with
    | GX => type_line indent "X" | GY => type_line indent "Y" | GZ => type_line indent "Z" | GH => type_line indent "H"
    | GS => type_line indent "S" | GSdag => type_line indent "Sdag" | GT => type_line indent "T" | GTdag => type_line indent "Tdag"
    | GSqrtX => type_line indent "SqrtX" | GSqrtXdag => type_line indent "SqrtXdag"
    | GSqrtY => type_line indent "SqrtY" | GSqrtYdag => type_line indent "SqrtYdag" | GP0 => type_line indent "P0" | GP1 => type_line indent "P1"
    | GRX a => type_line indent "RX" ++ value_line indent "Angle" a
    | GRY a => type_line indent "RY" ++ value_line indent "Angle" a
    | GRZ a => type_line indent "RZ" ++ value_line indent "Angle" a
    | GU1 l => type_line indent "U1" ++ value_line indent "Lambda" l
    | GU2 p l => value_line indent "Phi" p ++ value_line indent "Lambda" l ++ type_line indent "U2"
    | GU3 t p l => type_line indent "U3" ++ value_line indent "Theta" t ++ value_line indent "Phi" p ++ value_line indent "Lambda" l
    end.
  (** gate_pauli.cpp:7-18 and 51-63: the control values are not written *)
  Definition pauli_info (indent : text) (b : base) (p : pauli) : text :=
    indent ++ lit "  Control Qubits: {" ++ listed (mask_to_vector (g_c b)) ++ line (lit "}") ++
    indent ++ lit "  Pauli Operator: " ++ [quote] ++ pauli_to_text p ++ [quote].
  (** gate_standard.cpp:11-17, 59-66, 1237-1243 and the above.  Ecr, permutation and matrix gates are left out (None). *)
  Definition gate_to_string (indent : text) (g : egate) : option text :=
    match g with
    | EI => Some (type_line indent "I" ++ qubit_info indent (g_base g))
    | EGlobalPhase b ph => Some (type_line indent "GlobalPhase" ++ value_line indent "Phase" ph ++ qubit_info indent b)
    | EStd k b => Some (std_heading indent k ++ qubit_info indent b)
    | ESwap b => Some (type_line indent "Swap" ++ qubit_info indent b)
    | EPauli b p => Some (type_line indent "Pauli" ++ pauli_info indent b p)
    | EPauliRotation b p a => Some (type_line indent "PauliRotation" ++ value_line indent "Angle" a ++ pauli_info indent b p)
    | EEcr _ _ _ | EPermutation _ _ _ | EDense _ _ _ | ESparse _ _ => None
    end.
  (** gate_measurement.cpp:12-20; a measurement has one target and no control *)
  Definition measurement_to_string (indent : text) (t bit : N) (reset : bool) : text :=
    type_line indent "Measurement" ++ line (indent ++ lit "  Classical Bit Index: " ++ dec bit) ++ line (indent ++ lit "  Reset: " ++ bool_text reset) ++ qubit_info indent (GBase t 0 0).
End Printing.
