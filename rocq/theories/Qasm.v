(** OpenQASM 2.0 (src/qasm/qasm2.cpp).  Error messages are not modelled: an error is [Throw]. *)
From Verif Require Export QasmText Circuit.
Local Open Scope N_scope.
Local Notation "s1 =t s2" := (text_eqb s1 s2) (at level 70).

(** * split_statements *)
(** qasm2.cpp:23-31; lines and columns are counted without wrapping *)
Record location : Type := Loc { l_line : N; l_column : N }.
Record statement : Type := Statement { st_text : text; st_loc : location }.
(** qasm2.cpp:150-157 advance *)
Definition newline : ascii := ascii_of_N 10.
Definition advance (c : ascii) (l : location) : location :=
  if Ascii.eqb c newline then Loc (l_line l + 1) 1 else Loc (l_line l) (l_column l + 1).
(** the local variables of split_statements *)
Record lexer : Type := Lexer {
  x_statements : list statement; x_current : text; x_current_loc : location; x_loc : location;
  x_has_content : bool; x_in_line_comment : bool; x_in_block_comment : bool; x_in_string : bool }.
Definition x_advance (c : ascii) (x : lexer) : lexer :=
  Lexer (x_statements x) (x_current x) (x_current_loc x) (advance c (x_loc x)) (x_has_content x)
        (x_in_line_comment x) (x_in_block_comment x) (x_in_string x).
Definition x_set_line (b : bool) (x : lexer) : lexer :=
  Lexer (x_statements x) (x_current x) (x_current_loc x) (x_loc x) (x_has_content x) b (x_in_block_comment x) (x_in_string x).
Definition x_set_block (b : bool) (x : lexer) : lexer :=
  Lexer (x_statements x) (x_current x) (x_current_loc x) (x_loc x) (x_has_content x) (x_in_line_comment x) b (x_in_string x).
(** qasm2.cpp:194-207: one character outside comments *)
Definition x_content (c : ascii) (x : lexer) : lexer :=
  let start := negb (x_has_content x) && negb (is_space c) in
  let current_loc := if start then x_loc x else x_current_loc x in
  let has_content := x_has_content x || start in
  let in_string := if Ascii.eqb c """" then negb (x_in_string x) else x_in_string x in
  if negb in_string && Ascii.eqb c ";" then
    let stmt := trim (x_current x) in
    Lexer (match stmt with [] => x_statements x | _ => x_statements x ++ [Statement stmt current_loc] end)
          [] current_loc (x_loc x) false (x_in_line_comment x) (x_in_block_comment x) in_string
  else
    Lexer (x_statements x) (x_current x ++ [c]) current_loc (x_loc x) has_content
          (x_in_line_comment x) (x_in_block_comment x) in_string.
(** qasm2.cpp:159-208: [next] is '\0' at the end of the source *)
Fixpoint split_loop (s : text) (x : lexer) : lexer :=
  match s with
  | [] => x
  | c :: r =>
    if x_in_line_comment x then
      split_loop r (x_advance c (if Ascii.eqb c newline then x_set_line false x else x))
    else if x_in_block_comment x then
      match r with
      | next :: r' =>
        if Ascii.eqb c "*" && Ascii.eqb next "/"
        then split_loop r' (x_set_block false (x_advance next (x_advance c x)))
        else split_loop r (x_advance c x)
      | [] => x_advance c x
      end
    else
      match r with
      | next :: r' =>
        if negb (x_in_string x) && Ascii.eqb c "/" && Ascii.eqb next "/"
        then split_loop r' (x_advance next (x_advance c (x_set_line true x)))
        else if negb (x_in_string x) && Ascii.eqb c "/" && Ascii.eqb next "*"
        then split_loop r' (x_advance next (x_advance c (x_set_block true x)))
        else split_loop r (x_advance c (x_content c x))
      | [] => x_advance c (x_content c x)
      end
  end.
(** qasm2.cpp:140-219 *)
Definition split_statements (source : text) : res (list statement) :=
  let x := split_loop source (Lexer [] [] (Loc 1 1) (Loc 1 1) false false false false) in
  if x_in_block_comment x then Throw
  else if x_in_string x then Throw
  else match trim (x_current x) with
       | [] => Ok (x_statements x)
       | _ => Throw
       end.

(** * ExprParser *)
(** qasm2.cpp:245-259: skip_spaces and consume *)
Definition skip_spaces (s : text) : text := drop_while is_space s.
Definition consume (c : ascii) (s : text) : option text :=
  match skip_spaces s with
  | d :: r => if Ascii.eqb d c then Some r else None
  | [] => None
  end.
(** qasm2.cpp:261-342.  The parser state is the rest of the source; angles are real numbers.  Every call and every
    turn of a loop uses one unit of fuel; [UB] is the result of running out of it, which [parse_expr] never does. *)
Fixpoint parse_add_sub (fuel : nat) (s : text) : res (R * text) :=
  match fuel with
  | O => UB
  | S fuel => x <- parse_mul_div fuel s;; add_sub_loop fuel (fst x) (snd x)
  end
with add_sub_loop (fuel : nat) (lhs : R) (s : text) : res (R * text) :=
  match fuel with
  | O => UB
  | S fuel =>
    match consume "+" s with
    | Some s => x <- parse_mul_div fuel s;; add_sub_loop fuel (lhs + fst x)%R (snd x)
    | None =>
      match consume "-" s with
      | Some s => x <- parse_mul_div fuel s;; add_sub_loop fuel (lhs + - fst x)%R (snd x)
      | None => Ok (lhs, skip_spaces s)
      end
    end
  end
with parse_mul_div (fuel : nat) (s : text) : res (R * text) :=
  match fuel with
  | O => UB
  | S fuel => x <- parse_unary fuel s;; mul_div_loop fuel (fst x) (snd x)
  end
with mul_div_loop (fuel : nat) (lhs : R) (s : text) : res (R * text) :=
  match fuel with
  | O => UB
  | S fuel =>
    match consume "*" s with
    | Some s => x <- parse_unary fuel s;; mul_div_loop fuel (lhs * fst x)%R (snd x)
    | None =>
      match consume "/" s with
      | Some s =>
        x <- parse_unary fuel s;;
        if Req_EM_T (fst x) 0 then Throw else mul_div_loop fuel (lhs / fst x)%R (snd x)
      | None => Ok (lhs, skip_spaces s)
      end
    end
  end
with parse_unary (fuel : nat) (s : text) : res (R * text) :=
  match fuel with
  | O => UB
  | S fuel =>
    match consume "+" s with
    | Some s => parse_unary fuel s
    | None =>
      match consume "-" s with
      | Some s => x <- parse_unary fuel s;; Ok ((- fst x)%R, snd x)
      | None => parse_primary fuel s
      end
    end
  end
with parse_primary (fuel : nat) (s : text) : res (R * text) :=
  match fuel with
  | O => UB
  | S fuel =>
    match consume "(" s with
    | Some s =>
      x <- parse_add_sub fuel s;;
      match consume ")" (snd x) with
      | Some s => Ok (fst x, s)
      | None => Throw
      end
    | None =>
      match skip_spaces s with
      | [] => Throw
      | c :: r =>
        if is_alpha c || Ascii.eqb c "_" then
          if text_eqb (c :: take_while is_word r) (txt "pi") then Ok (PI, drop_while is_word r) else Throw
        else
          match strtod (c :: r) with
          | Some x => Ok x
          | None => Throw
          end
      end
    end
  end.
(** qasm2.cpp:227-234 *)
Definition parse_expr (s : text) : res R :=
  x <- parse_add_sub (6 * length s + 6) s;;
  match skip_spaces (snd x) with
  | [] => Ok (fst x)
  | _ => Throw
  end.

(** * Statements *)
(** qasm2.cpp:344-361.  [begin] is the text since the last top-level comma.  The depth is an int; it is unbounded
    here. *)
Fixpoint comma_loop (s begin : text) (depth : Z) (parts : list text) : res (list text * text) :=
  match s with
  | [] => if (depth =? 0)%Z then Ok (parts, begin) else Throw
  | c :: r =>
    let depth := if Ascii.eqb c "(" then (depth + 1)%Z else depth in
    let depth := if Ascii.eqb c ")" then (depth - 1)%Z else depth in
    if (depth <? 0)%Z then Throw
    else if Ascii.eqb c "," && (depth =? 0)%Z then comma_loop r [] depth (parts ++ [trim begin])
    else comma_loop r (begin ++ [c]) depth parts
  end.
Definition split_comma_list (s : text) : res (list text) :=
  x <- comma_loop s [] 0 [];;
  let '(parts, begin) := x in
  let parts := match begin with [] => parts | _ => parts ++ [trim begin] end in
  Ok (match parts with [[]] => [] | _ => parts end).

(** qasm2.cpp:33-41 Register and RegisterOperand; std::map<std::string, Register>: the names are distinct *)
Record register : Type := Register { r_offset : N; r_size : N }.
Definition registers : Type := list (text * register).
Fixpoint find_register (name : text) (rs : registers) : option register :=
  match rs with
  | [] => None
  | (n, r) :: rs => if n =t name then Some r else find_register name rs
  end.
(** qasm2.cpp:372-377, 383, 418-423: the parts of name[index]: the brackets are found by find, the closing one must be the last character *)
Definition bracketed (op : text) : option (text * text) :=
  match find_char "[" op, find_char "]" op with
  | Some lb, Some rb =>
    if Nat.eqb (rb + 1) (length op) && Nat.leb lb rb
    then Some (trim (substr op 0 lb), trim (substr op (lb + 1) (rb - lb - 1)))
    else None
  | _, _ => None
  end.
(** qasm2.cpp:366-393 *)
Definition parse_indexed_register (operand : text) (rs : registers) : res N :=
  match bracketed (trim operand) with
  | None => Throw
  | Some (name, index_text) =>
    match find_register name rs with
    | None => Throw
    | Some r =>
      match parse_u64 index_text with
      | None => Throw
      | Some index => if r_size r <=? index then Throw else Ok ((r_offset r + index) mod 2 ^ 64)
      end
    end
  end.
(** qasm2.cpp:397-412 *)
Definition parse_measure_register_operand (operand : text) (rs : registers) : res register :=
  let op := trim operand in
  match find_char "[" op, find_char "]" op with
  | None, None => match find_register op rs with Some r => Ok r | None => Throw end
  | _, _ => i <- parse_indexed_register op rs;; Ok (Register i 1)
  end.
(** qasm2.cpp:414-430, 432-439; [keyword] is the length of the keyword *)
Definition parse_register_decl (stmt : text) (keyword : nat) : res N :=
  match bracketed (trim (skipn keyword stmt)) with
  | None => Throw
  | Some (_, size_text) =>
    match parse_u64 size_text with
    | Some size => if size =? 0 then Throw else Ok size
    | None => Throw
    end
  end.
Definition parse_register_name (stmt : text) (keyword : nat) : res text :=
  let s := trim (skipn keyword stmt) in
  match find_char "[" s with
  | None => Throw
  | Some lb => Ok (trim (substr s 0 lb))
  end.

(** * Reader *)
(** qasm2.hpp Qasm2Circuit, and the members of Reader (qasm2.cpp:485-488) *)
Record reader : Type := Reader {
  rd_circuit : circuit; rd_n_qubits : N; rd_n_clbits : N; rd_warnings : list text;
  rd_qregs : registers; rd_cregs : registers; rd_saw_version : bool }.
Definition rd_new : reader := Reader c_new 0 0 [] [] [] false.
Definition rd_with_circuit (c : circuit) (r : reader) : reader :=
  Reader c (rd_n_qubits r) (rd_n_clbits r) (rd_warnings r) (rd_qregs r) (rd_cregs r) (rd_saw_version r).
Definition rd_warn (w : text) (r : reader) : reader :=
  Reader (rd_circuit r) (rd_n_qubits r) (rd_n_clbits r) (rd_warnings r ++ [w]) (rd_qregs r) (rd_cregs r) (rd_saw_version r).
Definition rd_version (r : reader) : reader :=
  Reader (rd_circuit r) (rd_n_qubits r) (rd_n_clbits r) (rd_warnings r) (rd_qregs r) (rd_cregs r) true.

Section Reading.
  Variable vf : bool.   (* whether vector_to_mask is compiled with its checks, see Gates.v *)

  (** gate::X<Prec>(..) etc.: the call of the gate factory for a name.  qasm2.cpp:454-469, 588-686: expect, then the factory; [id]
      adds nothing. *)
  Definition gate_call (name : text) (params : list R) (qs : list N) : res (option call) :=
    match params, qs with
    | [], [a] =>
      if name =t txt "id" then Ok None
      else if name =t txt "x" then Ok (Some (Call1 GX a [] []))
      else if name =t txt "y" then Ok (Some (Call1 GY a [] []))
      else if name =t txt "z" then Ok (Some (Call1 GZ a [] []))
      else if name =t txt "h" then Ok (Some (Call1 GH a [] []))
      else if name =t txt "s" then Ok (Some (Call1 GS a [] []))
      else if name =t txt "sdg" then Ok (Some (Call1 GSdag a [] []))
      else if name =t txt "t" then Ok (Some (Call1 GT a [] []))
      else if name =t txt "tdg" then Ok (Some (Call1 GTdag a [] []))
      else Throw
    | [u], [a] =>
      if name =t txt "rx" then Ok (Some (Call1 (GRX u) a [] []))
      else if name =t txt "ry" then Ok (Some (Call1 (GRY u) a [] []))
      else if name =t txt "rz" then Ok (Some (Call1 (GRZ u) a [] []))
      else if name =t txt "u1" then Ok (Some (Call1 (GU1 u) a [] []))
      else Throw
    | [u; v], [a] => if name =t txt "u2" then Ok (Some (Call1 (GU2 u v) a [] [])) else Throw
    | [u; v; w], [a] => if name =t txt "u3" then Ok (Some (Call1 (GU3 u v w) a [] [])) else Throw
    | [], [a; b] =>
      if name =t txt "cx" then Ok (Some (CallCX a b))
      else if name =t txt "cnot" then Ok (Some (CallCX a b))
      else if name =t txt "cy" then Ok (Some (Call1 GY b [a] []))
      else if name =t txt "cz" then Ok (Some (CallCZ a b))
      else if name =t txt "ch" then Ok (Some (Call1 GH b [a] []))
      else if name =t txt "swap" then Ok (Some (CallSwap a b [] []))
      else Throw
    | [u], [a; b] =>
      if name =t txt "crx" then Ok (Some (Call1 (GRX u) b [a] []))
      else if name =t txt "cry" then Ok (Some (Call1 (GRY u) b [a] []))
      else if name =t txt "crz" then Ok (Some (Call1 (GRZ u) b [a] []))
      else if name =t txt "cu1" then Ok (Some (Call1 (GU1 u) b [a] []))
      else Throw
    | [u; v; w], [a; b] => if name =t txt "cu3" then Ok (Some (Call1 (GU3 u v w) b [a] [])) else Throw
    | [], [a; b; c] =>
      if name =t txt "ccx" then Ok (Some (CallCCX a b c))
      else if name =t txt "cswap" then Ok (Some (CallSwap b c [a] []))
      else Throw
    | _, _ => Throw
    end.
  Definition reader_add_gate (name : text) (params : list R) (qs : list N) (r : reader) : res reader :=
    k <- gate_call name params qs;;
    match k with
    | None => Ok r
    | Some k => g <- make vf k;; Ok (rd_with_circuit (add_gate (rd_circuit r) (CElem (true, g))) r)
    end.

  (** qasm2.cpp:560-569: the closing parenthesis matching the first character *)
  Fixpoint close_paren (s : text) (depth : Z) (i : nat) : option nat :=
    match s with
    | [] => None
    | c :: r =>
      let depth := if Ascii.eqb c "(" then (depth + 1)%Z else depth in
      let depth := if Ascii.eqb c ")" then (depth - 1)%Z else depth in
      if (depth =? 0)%Z then Some i else close_paren r depth (S i)
    end.
  Definition has_repeats (qs : list N) : bool :=
    let fix go (l : list N) := match l with [] => false | x :: r => existsb (N.eqb x) r || go r end in go qs.
  (** qasm2.cpp:542-586; adjacent_find on the sorted operands finds a repetition *)
  Definition parse_gate (stmt : text) (r : reader) : res reader :=
    let r := if rd_saw_version r then r else rd_version (rd_warn (txt "OPENQASM 2.0 header is missing") r) in
    match take_while is_word stmt with
    | [] => Throw
    | name =>
      let name := lower name in
      let name := if name =t txt "u" then txt "u3" else name in
      let rest := trim (drop_while is_word stmt) in
      x <- match rest with
           | c :: _ =>
             if Ascii.eqb c "(" then
               match close_paren rest 0 0 with
               | None => Throw
               | Some close =>
                 ps <- split_comma_list (substr rest 1 (close - 1));;
                 params <- Circuit.mapR parse_expr ps;;
                 Ok (params, trim (skipn (close + 1) rest))
               end
             else Ok ([], rest)
           | [] => Ok ([], rest)
           end;;
      let '(params, rest) := x in
      operands <- split_comma_list rest;;
      qubits <- Circuit.mapR (fun o => parse_indexed_register o (rd_qregs r)) operands;;
      if has_repeats qubits then Throw else reader_add_gate name params qubits r
    end.
  (** qasm2.cpp:690-706 *)
  Fixpoint add_measurements (k : nat) (i q c : N) (r : reader) : res reader :=
    match k with
    | O => Ok r
    | S k =>
      g <- make_measurement ((q + i) mod 2 ^ 64) ((c + i) mod 2 ^ 64) false;;
      add_measurements k (i + 1) q c (rd_with_circuit (add_gate (rd_circuit r) g) r)
    end.
  Definition parse_measure (stmt : text) (r : reader) : res reader :=
    let rest := trim (skipn 7 stmt) in
    match find_text (txt "->") rest with
    | None => Throw
    | Some arrow =>
      qubits <- parse_measure_register_operand (trim (substr rest 0 arrow)) (rd_qregs r);;
      clbits <- parse_measure_register_operand (trim (skipn (arrow + 2) rest)) (rd_cregs r);;
      if r_size qubits =? r_size clbits
      then add_measurements (N.to_nat (r_size qubits)) 0 (r_offset qubits) (r_offset clbits) r
      else Throw
    end.
  (** qasm2.cpp:492-538 *)
  Definition handle_statement (st : statement) (r : reader) : res reader :=
    let stmt := trim (st_text st) in
    let low := lower stmt in
    if starts_with_word low (txt "openqasm") && (trim (skipn 8 low) =t txt "2.0") then Ok (rd_version r)
    else if starts_with_word low (txt "include") then
      if trim (skipn 7 low) =t txt """qelib1.inc""" then Ok r else Throw
    else if starts_with_word low (txt "qreg") then
      name <- parse_register_name stmt 4;;
      match find_register name (rd_qregs r) with
      | Some _ => Throw
      | None =>
        size <- parse_register_decl stmt 4;;
        Ok (Reader (rd_circuit r) ((rd_n_qubits r + size) mod 2 ^ 64) (rd_n_clbits r) (rd_warnings r)
                   (rd_qregs r ++ [(name, Register (rd_n_qubits r) size)]) (rd_cregs r) (rd_saw_version r))
      end
    else if starts_with_word low (txt "creg") then
      name <- parse_register_name stmt 4;;
      match find_register name (rd_cregs r) with
      | Some _ => Throw
      | None =>
        size <- parse_register_decl stmt 4;;
        Ok (Reader (rd_circuit r) (rd_n_qubits r) ((rd_n_clbits r + size) mod 2 ^ 64) (rd_warnings r)
                   (rd_qregs r) (rd_cregs r ++ [(name, Register (rd_n_clbits r) size)]) (rd_saw_version r))
      end
    else if starts_with_word low (txt "barrier") then Ok (rd_warn (txt "barrier is ignored") r)
    else if starts_with_word low (txt "measure") then parse_measure stmt r
    else if existsb (starts_with_word low) [txt "reset"; txt "if"; txt "gate"; txt "opaque"] then Throw
    else parse_gate stmt r.
  Fixpoint handle_statements (sts : list statement) (r : reader) : res reader :=
    match sts with [] => Ok r | st :: sts => r <- handle_statement st r;; handle_statements sts r end.
  (** qasm2.cpp:477-482, 982-985 *)
  Definition loads (source : text) : res reader :=
    sts <- split_statements source;; handle_statements sts rd_new.
End Reading.

(** * Writing *)
(** qasm2.cpp:49-112 *)
Inductive op_view : Type :=
| IgnoredOp
| NamedUnitaryOp (name : text) (targets controls control_values : list N)
| RotationOp (name : text) (angle : R) (target : N) (controls control_values : list N)
| UGateOp (name : text) (params : list R) (target : N) (controls control_values : list N)
| MeasurementOp (target classical_bit : N) (reset : bool)
| UnsupportedCircuitOp.
Inductive qasm_op : Type :=
| QGate (name : text) (params : list text) (qubits : list N)
| QMeasure (qubits : list N) (classical_bit : N).

(** qasm2.cpp:711-717 *)
Definition single_target (targets : list N) : res N := match targets with [t] => Ok t | _ => Throw end.
(** qasm2.cpp:742-814; the tag of an elementary gate tells whether gate_type() is the gate's own type *)
Definition classify_gate (g : cgate) : res op_view :=
  match g with
  | CElem (false, _) => Ok UnsupportedCircuitOp
  | CElem (true, EI) => Ok IgnoredOp
  | CElem (true, EStd k b) =>
    let targets := mask_to_vector (g_t b) in
    let controls := mask_to_vector (g_c b) in
    let control_values := mask_to_values (g_c b) (g_cv b) in
    let named name := Ok (NamedUnitaryOp (txt name) targets controls control_values) in
    let rotation name angle := t <- single_target targets;; Ok (RotationOp (txt name) angle t controls control_values) in
    let u name params := t <- single_target targets;; Ok (UGateOp (txt name) params t controls control_values) in
    match k with
    | GX => named "x"%string | GY => named "y"%string | GZ => named "z"%string | GH => named "h"%string
    | GS => named "s"%string | GSdag => named "sdg"%string | GT => named "t"%string | GTdag => named "tdg"%string
    | GRX a => rotation "rx"%string a | GRY a => rotation "ry"%string a | GRZ a => rotation "rz"%string a
    | GU1 l => u "u1"%string [l] | GU2 p l => u "u2"%string [p; l] | GU3 t p l => u "u3"%string [t; p; l]
    | _ => Ok UnsupportedCircuitOp
    end
  | CElem (true, ESwap b) =>
    Ok (NamedUnitaryOp (txt "swap") (mask_to_vector (g_t b)) (mask_to_vector (g_c b)) (mask_to_values (g_c b) (g_cv b)))
  | CElem (true, _) => Ok UnsupportedCircuitOp
  | CMeas t bit reset => t <- single_target (mask_to_vector t);; Ok (MeasurementOp t bit reset)
  | CProb _ _ _ => Ok UnsupportedCircuitOp
  end.
(** qasm2.cpp:818-833: parametric gates are never exported *)
Definition classify_item (i : citem) : res op_view :=
  match i with IGate g => classify_gate g | IParam _ _ => Ok UnsupportedCircuitOp end.

(** qasm2.cpp:441-446 *)
Definition all_control_values_are_one (vs : list N) : bool := forallb (N.eqb 1) vs.
Section Writing.
  Variable format_angle : R -> text.   (* qasm2.cpp:448-452: std::setprecision(17) *)

  (** qasm2.cpp:837-880 *)
  Definition lower_named (name : text) (targets controls control_values : list N) : res qasm_op :=
    if negb (all_control_values_are_one control_values) then Throw
    else match controls with
         | [] => Ok (QGate name [] targets)
         | [c] =>
           if name =t txt "x" then t <- single_target targets;; Ok (QGate (txt "cx") [] [c; t])
           else if name =t txt "z" then t <- single_target targets;; Ok (QGate (txt "cz") [] [c; t])
           else if name =t txt "swap" then
             match targets with [a; b] => Ok (QGate (txt "cswap") [] [c; a; b]) | _ => Throw end
           else if (name =t txt "y") || (name =t txt "h") then
             t <- single_target targets;; Ok (QGate (txt "c" ++ name) [] [c; t])
           else Throw
         | [c1; c2] => if name =t txt "x" then t <- single_target targets;; Ok (QGate (txt "ccx") [] [c1; c2; t]) else Throw
         | _ => Throw
         end.
  (** qasm2.cpp:884-900 *)
  Definition lower_rotation (name : text) (angle : R) (target : N) (controls control_values : list N) : res qasm_op :=
    if negb (all_control_values_are_one control_values) then Throw
    else match controls with
         | [] => Ok (QGate name [format_angle angle] [target])
         | [c] => Ok (QGate (txt "c" ++ name) [format_angle angle] [c; target])
         | _ => Throw
         end.
  (** qasm2.cpp:904-924 *)
  Definition lower_u (name : text) (params : list R) (target : N) (controls control_values : list N) : res qasm_op :=
    if negb (all_control_values_are_one control_values) then Throw
    else match controls with
         | [] => Ok (QGate name (map format_angle params) [target])
         | [c] =>
           if (name =t txt "u1") || (name =t txt "u3")
           then Ok (QGate (txt "c" ++ name) (map format_angle params) [c; target]) else Throw
         | _ => Throw
         end.
  (** qasm2.cpp:928-950 *)
  Definition lower_to_qasm2 (v : op_view) : res (option qasm_op) :=
    match v with
    | IgnoredOp => Ok None
    | NamedUnitaryOp name ts cs vs => o <- lower_named name ts cs vs;; Ok (Some o)
    | RotationOp name a t cs vs => o <- lower_rotation name a t cs vs;; Ok (Some o)
    | UGateOp name ps t cs vs => o <- lower_u name ps t cs vs;; Ok (Some o)
    | MeasurementOp t c reset => if reset : bool then Throw else Ok (Some (QMeasure [t] c))
    | UnsupportedCircuitOp => Throw
    end.
  (** qasm2.cpp:719-730; qubit + 1 and classical_bit + 1 are computed modulo 2^64 *)
  Definition required_qubits (o : qasm_op) : N :=
    match o with QGate _ _ qs | QMeasure qs _ => fold_left (fun m q => N.max m ((q + 1) mod 2 ^ 64)) qs 0 end.
  Definition required_clbits (o : qasm_op) : N := match o with QGate _ _ _ => 0 | QMeasure _ c => (c + 1) mod 2 ^ 64 end.
  (** qasm2.cpp:732-738 *)
  Definition q_text (i : N) : text := txt "q[" ++ dec i ++ txt "]".
  Definition c_text (i : N) : text := txt "c[" ++ dec i ++ txt "]".
  Fixpoint comma_join (l : list text) : text :=
    match l with [] => [] | [x] => x | x :: r => x ++ txt ", " ++ comma_join r end.
  (** qasm2.cpp:954-978 *)
  Definition write_op (o : qasm_op) : text :=
    match o with
    | QMeasure qs c => txt "measure " ++ match qs with q :: _ => q_text q | [] => [] end ++ txt " -> " ++ c_text c ++ txt ";"
    | QGate name params qs =>
      name ++ match params with [] => [] | _ => txt "(" ++ comma_join params ++ txt ")" end ++
      txt " " ++ comma_join (map q_text qs) ++ txt ";"
    end.
  (** qasm2.cpp:987-1021: the loop over the gate list; classical conditions are not looked at *)
  Fixpoint dump_gates (is : list citem) : res (N * N * text) :=
    match is with
    | [] => Ok (0, 0, [])
    | i :: is =>
      v <- classify_item i;;
      o <- lower_to_qasm2 v;;
      x <- dump_gates is;;
      let '(nq, nc, body) := x in
      match o with
      | None => Ok (nq, nc, body)
      | Some o => Ok (N.max (required_qubits o) nq, N.max (required_clbits o) nc, write_op o ++ [newline] ++ body)
      end
    end.
  Definition dumps (c : circuit) (n_qubits : option N) : res text :=
    x <- dump_gates (c_gates c);;
    let '(nq, nc, body) := x in
    if match n_qubits with Some n => n <? nq | None => false end then Throw
    else
      let n := match n_qubits with Some n => n | None => nq end in
      if n =? 0 then Throw
      else Ok (txt "OPENQASM 2.0;" ++ [newline] ++ txt "include ""qelib1.inc"";" ++ [newline] ++
               txt "qreg q[" ++ dec n ++ txt "];" ++ [newline] ++
               (if nc =? 0 then [] else txt "creg c[" ++ dec nc ++ txt "];" ++ [newline]) ++ body).
End Writing.
