(** What OpenQASM 2.0 sources mean, without reference to the reader.  [location] and [statement] are the records of
    Qasm.v: a line and a column, and a statement's text and location. *)
From Verif Require Export GateSpec Qasm.
Local Open Scope N_scope.

(** * From characters to statements *)
(** the position after a character *)
Definition next_location (l : location) (c : ascii) : location :=
  if Ascii.eqb c newline then Loc (l_line l + 1) 1 else Loc (l_line l) (l_column l + 1).
Definition after (l : location) (s : text) : location := fold_left next_location s l.
(** a character outside comments; [tk_quoted]: it is inside a string *)
Record token : Type := Token { tk_char : ascii; tk_loc : location; tk_quoted : bool }.
Fixpoint mark (quoted : bool) (l : location) (s : text) : list token :=
  match s with [] => [] | c :: r => Token c l quoted :: mark quoted (next_location l c) r end.
Definition contains (t s : text) : Prop := exists a b, s = a ++ t ++ b.
Definition begins (t s : text) : Prop := exists b, s = t ++ b.
Inductive ending : Type := Complete | OpenComment | OpenString.
(** [scan l s ts e]: the source [s], which starts at [l], has the characters [ts] outside comments *)
Inductive scan : location -> text -> list token -> ending -> Prop :=
| scan_end l : scan l [] [] Complete
| scan_char l c s ts e :
    c <> """"%char -> ~ begins (txt "//") (c :: s) -> ~ begins (txt "/*") (c :: s) ->
    scan (next_location l c) s ts e -> scan l (c :: s) (Token c l false :: ts) e
| scan_line_comment l a s ts e :
    ~ In newline a -> scan (after l (txt "//" ++ a ++ [newline])) s ts e ->
    scan l (txt "//" ++ a ++ [newline] ++ s) ts e
| scan_last_line_comment l a : ~ In newline a -> scan l (txt "//" ++ a) [] Complete
| scan_block_comment l a s ts e :
    ~ contains (txt "*/") (a ++ txt "*") -> scan (after l (txt "/*" ++ a ++ txt "*/")) s ts e ->
    scan l (txt "/*" ++ a ++ txt "*/" ++ s) ts e
| scan_open_comment l a : ~ contains (txt "*/") a -> scan l (txt "/*" ++ a) [] OpenComment
| scan_string l a s ts e :
    ~ In """"%char a -> scan (after l (txt """" ++ a ++ txt """")) s ts e ->
    scan l (txt """" ++ a ++ txt """" ++ s) (mark true l (txt """" ++ a ++ txt """") ++ ts) e
| scan_open_string l a : ~ In """"%char a -> scan l (txt """" ++ a) (mark true l (txt """" ++ a)) OpenString.

Definition separator (t : token) : Prop := tk_char t = ";"%char /\ tk_quoted t = false.
Definition blank (ts : list token) : Prop := Forall (fun t => is_space (tk_char t) = true) ts.
(** the statement a run of characters holds: without the spaces around it, located at its first character *)
Definition holds_statement (ts : list token) (st : statement) : Prop :=
  exists before body after, ts = before ++ body ++ after /\ blank before /\ blank after /\
    st_text st = map tk_char body /\
    (exists first r, body = first :: r /\ is_space (tk_char first) = false /\ st_loc st = tk_loc first) /\
    (exists r last, body = r ++ [last] /\ is_space (tk_char last) = false).
(** [statements ts sts rest]: every separator ends a statement, blank ones are dropped, [rest] follows the last one *)
Inductive statements : list token -> list statement -> list token -> Prop :=
| statements_end ts : (forall t, In t ts -> ~ separator t) -> statements ts [] ts
| statements_blank ts sep more sts rest :
    (forall t, In t ts -> ~ separator t) -> separator sep -> blank ts ->
    statements more sts rest -> statements (ts ++ [sep] ++ more) sts rest
| statements_next ts sep st more sts rest :
    (forall t, In t ts -> ~ separator t) -> separator sep -> holds_statement ts st ->
    statements more sts rest -> statements (ts ++ [sep] ++ more) (st :: sts) rest.

(** * Angle expressions *)
Inductive expr : Type :=
| Num (v : R) | Pi
| Plus (e : expr) | Minus (e : expr)
| Add (e1 e2 : expr) | Sub (e1 e2 : expr) | Mul (e1 e2 : expr) | Div (e1 e2 : expr).
Definition binary (f : R -> R -> option R) (x y : option R) : option R :=
  match x, y with Some x, Some y => f x y | _, _ => None end.
(** None: a division by zero *)
Fixpoint value (e : expr) : option R :=
  match e with
  | Num v => Some v
  | Pi => Some PI
  | Plus e => value e
  | Minus e => option_map Ropp (value e)
  | Add e1 e2 => binary (fun x y => Some (x + y)%R) (value e1) (value e2)
  | Sub e1 e2 => binary (fun x y => Some (x - y)%R) (value e1) (value e2)
  | Mul e1 e2 => binary (fun x y => Some (x * y)%R) (value e1) (value e2)
  | Div e1 e2 => binary (fun x y => if Req_EM_T y 0 then None else Some (x / y)%R) (value e1) (value e2)
  end.
Definition spaces (s : text) : Prop := Forall (fun c => is_space c = true) s.
(** the number written by digits, the most significant one first *)
Definition digit_value (c : ascii) : N :=
  if is_digit c then code c - 48 else code (to_lower c) - 87.
Fixpoint written (base : N) (ds : text) : N :=
  match ds with [] => 0 | d :: r => digit_value d * base ^ N.of_nat (length r) + written base r end.
Definition is_decimal (c : ascii) : Prop := is_digit c = true.
Definition is_hexadecimal (c : ascii) : Prop := is_digit c = true \/ 97 <= code (to_lower c) <= 102.
(** nothing, or a mark such as e, an optional sign, and digits *)
Inductive exponent_text (marks : list ascii) : text -> Z -> Prop :=
| no_exponent : exponent_text marks [] 0
| exponent_plain m ds : In m marks -> ds <> [] -> Forall is_decimal ds -> exponent_text marks (m :: ds) (Z.of_N (written 10 ds))
| exponent_plus m ds : In m marks -> ds <> [] -> Forall is_decimal ds ->
    exponent_text marks (m :: "+"%char :: ds) (Z.of_N (written 10 ds))
| exponent_minus m ds : In m marks -> ds <> [] -> Forall is_decimal ds ->
    exponent_text marks (m :: "-"%char :: ds) (- Z.of_N (written 10 ds)).
(** digits with at most one point *)
Inductive mantissa_text (dig : ascii -> Prop) : text -> text -> text -> Prop :=
| whole ip : ip <> [] -> Forall dig ip -> mantissa_text dig ip [] ip
| pointed ip fp : ip ++ fp <> [] -> Forall dig ip -> Forall dig fp -> mantissa_text dig ip fp (ip ++ txt "." ++ fp).
(** 12, 1.5, .5, 2., 1.5e-3 *)
Inductive decimal : text -> R -> Prop :=
| decimal_number ip fp m ex e : mantissa_text is_decimal ip fp m -> exponent_text ["e"%char; "E"%char] ex e ->
    decimal (m ++ ex) (IZR (Z.of_N (written 10 (ip ++ fp))) * powerRZ 10 (e - Z.of_nat (length fp))).
(** 0x1F, 0x1.8p-2: not in OpenQASM, but accepted *)
Inductive hexadecimal : text -> R -> Prop :=
| hexadecimal_number x ip fp m ex e :
    (x = "x"%char \/ x = "X"%char) -> mantissa_text is_hexadecimal ip fp m -> exponent_text ["p"%char; "P"%char] ex e ->
    hexadecimal ("0"%char :: x :: m ++ ex)
                (IZR (Z.of_N (written 16 (ip ++ fp))) * powerRZ 2 (e - 4 * Z.of_nat (length fp))).
(** the grammar: spaces may precede every token *)
Inductive sum : text -> expr -> Prop :=
| sum_one s e : product s e -> sum s e
| sum_add s1 e1 sp s2 e2 : sum s1 e1 -> spaces sp -> product s2 e2 -> sum (s1 ++ sp ++ txt "+" ++ s2) (Add e1 e2)
| sum_sub s1 e1 sp s2 e2 : sum s1 e1 -> spaces sp -> product s2 e2 -> sum (s1 ++ sp ++ txt "-" ++ s2) (Sub e1 e2)
with product : text -> expr -> Prop :=
| product_one s e : signed s e -> product s e
| product_mul s1 e1 sp s2 e2 : product s1 e1 -> spaces sp -> signed s2 e2 -> product (s1 ++ sp ++ txt "*" ++ s2) (Mul e1 e2)
| product_div s1 e1 sp s2 e2 : product s1 e1 -> spaces sp -> signed s2 e2 -> product (s1 ++ sp ++ txt "/" ++ s2) (Div e1 e2)
with signed : text -> expr -> Prop :=
| signed_plus sp s e : spaces sp -> signed s e -> signed (sp ++ txt "+" ++ s) (Plus e)
| signed_minus sp s e : spaces sp -> signed s e -> signed (sp ++ txt "-" ++ s) (Minus e)
| signed_pi sp : spaces sp -> signed (sp ++ txt "pi") Pi
| signed_decimal sp s v : spaces sp -> decimal s v -> signed (sp ++ s) (Num v)
| signed_hexadecimal sp s v : spaces sp -> hexadecimal s v -> signed (sp ++ s) (Num v)
| signed_group sp s e sp' : spaces sp -> sum s e -> spaces sp' -> signed (sp ++ txt "(" ++ s ++ sp' ++ txt ")") e.
Definition expression (s : text) (e : expr) : Prop := exists s' sp, s = s' ++ sp /\ sum s' e /\ spaces sp.

(** * Programs *)
Definition word (s : text) : Prop := s <> [] /\ Forall (fun c => is_word c = true) s.
(** name[12] *)
Inductive bit_text : text -> text -> N -> Prop :=
| bit_of name s1 s2 ds s3 : word name -> spaces s1 -> spaces s2 -> spaces s3 -> ds <> [] -> Forall is_decimal ds ->
    bit_text (name ++ s1 ++ txt "[" ++ s2 ++ ds ++ s3 ++ txt "]") name (written 10 ds).
Inductive operand : Type := Bit (name : text) (i : N) | Whole (name : text).
Inductive operand_text : text -> operand -> Prop :=
| operand_bit s name i : bit_text s name i -> operand_text s (Bit name i)
| operand_whole name : word name -> operand_text name (Whole name).
(** texts separated by commas *)
Inductive listed {A} (P : text -> A -> Prop) : text -> list A -> Prop :=
| listed_one s x : P s x -> listed P s [x]
| listed_more s x s1 s2 r xs : P s x -> spaces s1 -> spaces s2 -> listed P r xs ->
    listed P (s ++ s1 ++ txt "," ++ s2 ++ r) (x :: xs).
Inductive qstatement : Type :=
| Version | Include
| Qreg (name : text) (size : N) | Creg (name : text) (size : N)
| Barrier
| Measure (qubits bits : operand)
| Apply (name : text) (angles : list expr) (qubits : list (text * N))
| NotSupported.
Definition keywords : list text :=
  map txt ["openqasm"; "include"; "qreg"; "creg"; "barrier"; "measure"; "reset"; "if"; "gate"; "opaque"]%string.
Definition not_word (s : text) : Prop := match s with [] => True | c :: _ => is_word c = false end.
(** keywords and gate names may be written in upper case *)
Inductive statement_text : text -> qstatement -> Prop :=
| text_version k sp : lower k = txt "openqasm" -> spaces sp -> sp <> [] -> statement_text (k ++ sp ++ txt "2.0") Version
| text_include k sp file : lower k = txt "include" -> spaces sp -> lower file = txt """qelib1.inc""" ->
    statement_text (k ++ sp ++ file) Include
| text_qreg k sp s name size : lower k = txt "qreg" -> spaces sp -> sp <> [] -> bit_text s name size ->
    statement_text (k ++ sp ++ s) (Qreg name size)
| text_creg k sp s name size : lower k = txt "creg" -> spaces sp -> sp <> [] -> bit_text s name size ->
    statement_text (k ++ sp ++ s) (Creg name size)
| text_barrier k s : lower k = txt "barrier" -> not_word s -> statement_text (k ++ s) Barrier
| text_measure k sp s1 q sp1 sp2 s2 c : lower k = txt "measure" -> spaces sp -> sp <> [] -> spaces sp1 -> spaces sp2 ->
    operand_text s1 q -> operand_text s2 c -> statement_text (k ++ sp ++ s1 ++ sp1 ++ txt "->" ++ sp2 ++ s2) (Measure q c)
| text_apply k sp s qs : word k -> ~ In (lower k) keywords -> spaces sp -> sp <> [] ->
    listed (fun s q => bit_text s (fst q) (snd q)) s qs -> statement_text (k ++ sp ++ s) (Apply (lower k) [] qs)
| text_apply_empty k sp sp' sp'' s qs : word k -> ~ In (lower k) keywords -> spaces sp -> spaces sp' -> spaces sp'' ->
    listed (fun s q => bit_text s (fst q) (snd q)) s qs ->
    statement_text (k ++ sp ++ txt "(" ++ sp' ++ txt ")" ++ sp'' ++ s) (Apply (lower k) [] qs)
| text_apply_angles k sp as_ es sp' s qs : word k -> ~ In (lower k) keywords -> spaces sp -> spaces sp' ->
    listed expression as_ es -> listed (fun s q => bit_text s (fst q) (snd q)) s qs ->
    statement_text (k ++ sp ++ txt "(" ++ as_ ++ txt ")" ++ sp' ++ s) (Apply (lower k) es qs)
| text_not_supported k s : In (lower k) (map txt ["reset"; "if"; "gate"; "opaque"]%string) -> not_word s ->
    statement_text (k ++ s) NotSupported.

(** the gates of qelib1.inc that are supported, as calls of the gate factory *)
Inductive qelib : string -> list R -> list N -> option call -> Prop :=
| qelib_id a : qelib "id" [] [a] None
| qelib_x a : qelib "x" [] [a] (Some (Call1 GX a [] []))
| qelib_y a : qelib "y" [] [a] (Some (Call1 GY a [] []))
| qelib_z a : qelib "z" [] [a] (Some (Call1 GZ a [] []))
| qelib_h a : qelib "h" [] [a] (Some (Call1 GH a [] []))
| qelib_s a : qelib "s" [] [a] (Some (Call1 GS a [] []))
| qelib_sdg a : qelib "sdg" [] [a] (Some (Call1 GSdag a [] []))
| qelib_t a : qelib "t" [] [a] (Some (Call1 GT a [] []))
| qelib_tdg a : qelib "tdg" [] [a] (Some (Call1 GTdag a [] []))
| qelib_rx u a : qelib "rx" [u] [a] (Some (Call1 (GRX u) a [] []))
| qelib_ry u a : qelib "ry" [u] [a] (Some (Call1 (GRY u) a [] []))
| qelib_rz u a : qelib "rz" [u] [a] (Some (Call1 (GRZ u) a [] []))
| qelib_u1 u a : qelib "u1" [u] [a] (Some (Call1 (GU1 u) a [] []))
| qelib_u2 u v a : qelib "u2" [u; v] [a] (Some (Call1 (GU2 u v) a [] []))
| qelib_u3 u v w a : qelib "u3" [u; v; w] [a] (Some (Call1 (GU3 u v w) a [] []))
| qelib_u u v w a : qelib "u" [u; v; w] [a] (Some (Call1 (GU3 u v w) a [] []))
| qelib_cx c a : qelib "cx" [] [c; a] (Some (CallCX c a))
| qelib_cnot c a : qelib "cnot" [] [c; a] (Some (CallCX c a))
| qelib_cy c a : qelib "cy" [] [c; a] (Some (Call1 GY a [c] []))
| qelib_cz c a : qelib "cz" [] [c; a] (Some (CallCZ c a))
| qelib_ch c a : qelib "ch" [] [c; a] (Some (Call1 GH a [c] []))
| qelib_crx u c a : qelib "crx" [u] [c; a] (Some (Call1 (GRX u) a [c] []))
| qelib_cry u c a : qelib "cry" [u] [c; a] (Some (Call1 (GRY u) a [c] []))
| qelib_crz u c a : qelib "crz" [u] [c; a] (Some (Call1 (GRZ u) a [c] []))
| qelib_cu1 u c a : qelib "cu1" [u] [c; a] (Some (Call1 (GU1 u) a [c] []))
| qelib_cu3 u v w c a : qelib "cu3" [u; v; w] [c; a] (Some (Call1 (GU3 u v w) a [c] []))
| qelib_ccx c1 c2 a : qelib "ccx" [] [c1; c2; a] (Some (CallCCX c1 c2 a))
| qelib_swap a b : qelib "swap" [] [a; b] (Some (CallSwap a b [] []))
| qelib_cswap c a b : qelib "cswap" [] [c; a; b] (Some (CallSwap a b [c] [])).

(** registers are numbered in the order of their declarations *)
Definition declared : Type := list (text * N).
Definition total (ds : declared) : N := fold_right (fun d n => snd d + n) 0 ds.
Fixpoint range_of (ds : declared) (name : text) : option (N * N) :=
  match ds with
  | [] => None
  | (n, size) :: ds => if text_eqb n name then Some (0, size) else option_map (fun r => (size + fst r, snd r)) (range_of ds name)
  end.
Definition bit_number (ds : declared) (name : text) (i : N) : option N :=
  match range_of ds name with
  | Some (start, size) => if i <? size then Some (start + i) else None
  | None => None
  end.
Definition operand_range (ds : declared) (o : operand) : option (N * N) :=
  match o with
  | Bit name i => option_map (fun k => (k, 1)) (bit_number ds name i)
  | Whole name => range_of ds name
  end.
(** what has been read so far *)
Record qprogram : Type := QProgram {
  qp_qregs : declared; qp_cregs : declared; qp_gates : list cgate; qp_warnings : list text; qp_version : bool }.
Definition qp_start : qprogram := QProgram [] [] [] [] false.
Definition missing_version (p : qprogram) : list text :=
  if qp_version p then [] else [txt "OPENQASM 2.0 header is missing"].
(** the effect of one statement *)
Inductive effect (vf : bool) : qprogram -> qstatement -> qprogram -> Prop :=
| effect_version p : effect vf p Version (QProgram (qp_qregs p) (qp_cregs p) (qp_gates p) (qp_warnings p) true)
| effect_include p : effect vf p Include p
| effect_qreg p name size : size <> 0 -> range_of (qp_qregs p) name = None ->
    effect vf p (Qreg name size) (QProgram (qp_qregs p ++ [(name, size)]) (qp_cregs p) (qp_gates p) (qp_warnings p) (qp_version p))
| effect_creg p name size : size <> 0 -> range_of (qp_cregs p) name = None ->
    effect vf p (Creg name size) (QProgram (qp_qregs p) (qp_cregs p ++ [(name, size)]) (qp_gates p) (qp_warnings p) (qp_version p))
| effect_barrier p : effect vf p Barrier
    (QProgram (qp_qregs p) (qp_cregs p) (qp_gates p) (qp_warnings p ++ [txt "barrier is ignored"]) (qp_version p))
| effect_measure p q c qs cs k gs :
    operand_range (qp_qregs p) q = Some (qs, k) -> operand_range (qp_cregs p) c = Some (cs, k) ->
    length gs = N.to_nat k ->
    (forall i g, nth_error gs i = Some g -> make_measurement (qs + N.of_nat i) (cs + N.of_nat i) false = Ok g) ->
    effect vf p (Measure q c) (QProgram (qp_qregs p) (qp_cregs p) (qp_gates p ++ gs) (qp_warnings p) (qp_version p))
| effect_apply p name es vs bits qs k gs :
    Forall2 (fun e v => value e = Some v) es vs ->
    Forall2 (fun b q => bit_number (qp_qregs p) (fst b) (snd b) = Some q) bits qs -> NoDup qs ->
    qelib (string_of_list_ascii name) vs qs k ->
    match k with None => gs = [] | Some k => exists g, make vf k = Ok g /\ gs = [CElem (true, g)] end ->
    effect vf p (Apply name es bits)
      (QProgram (qp_qregs p) (qp_cregs p) (qp_gates p ++ gs) (qp_warnings p ++ missing_version p) true).
Inductive effects (vf : bool) : qprogram -> list qstatement -> qprogram -> Prop :=
| effects_none p : effects vf p [] p
| effects_more p q p1 qs p2 : effect vf p q p1 -> effects vf p1 qs p2 -> effects vf p (q :: qs) p2.
(** the registers that a program declares *)
Definition qubits_declared (qs : list qstatement) : declared :=
  flat_map (fun q => match q with Qreg name size => [(name, size)] | _ => [] end) qs.
Definition bits_declared (qs : list qstatement) : declared :=
  flat_map (fun q => match q with Creg name size => [(name, size)] | _ => [] end) qs.

(** * Writing *)
Definition angles (k : std1) : list R :=
  match k with
  | GRX a | GRY a | GRZ a | GU1 a => [a]
  | GU2 p l => [p; l]
  | GU3 t p l => [t; p; l]
  | _ => []
  end.
Definition with_angles (f : R -> R) (k : std1) : std1 :=
  match k with
  | GRX a => GRX (f a) | GRY a => GRY (f a) | GRZ a => GRZ (f a)
  | GU1 a => GU1 (f a) | GU2 p l => GU2 (f p) (f l) | GU3 t p l => GU3 (f t) (f p) (f l)
  | k => k
  end.
Definition gate_angles (g : cgate) : list R := match g with CElem (_, EStd k _) => angles k | _ => [] end.
(** the gate with every angle [a] replaced by [f a] *)
Definition gate_with_angles (f : R -> R) (g : cgate) : cgate :=
  match g with CElem (v, EStd k b) => CElem (v, EStd (with_angles f k) b) | g => g end.
(** a printed angle: a decimal number, maybe negative *)
Inductive angle_text : text -> R -> Prop :=
| angle_positive s v : decimal s v -> angle_text s v
| angle_negative s v : decimal s v -> angle_text (txt "-" ++ s) (- v).
(** what a user can put into a circuit: gates and measurements from the gate factory, and gates of which the type is not
    visible; classical bits are u64, and the last of them has no successor *)
Inductive from_factory (vf : bool) : citem -> Prop :=
| factory_gate k g : call_typed k -> make vf k = Ok g -> from_factory vf (IGate (CElem (true, g)))
| factory_hidden g : from_factory vf (IGate (CElem (false, g)))
| factory_measurement q bit reset g : bit + 1 < 2 ^ 64 -> make_measurement q bit reset = Ok g -> from_factory vf (IGate g)
| factory_probabilistic known dist gs : from_factory vf (IGate (CProb known dist gs))
| factory_parametric g key : from_factory vf (IParam g key).
(** what can be written: the identity, what a gate statement makes, and measurements without reset *)
Inductive exportable (vf : bool) : citem -> Prop :=
| export_identity : exportable vf (IGate (CElem (true, EI)))
| export_gate name vs qs k g : qelib name vs qs (Some k) -> make vf k = Ok g -> exportable vf (IGate (CElem (true, g)))
| export_measurement q bit g : make_measurement q bit false = Ok g -> exportable vf (IGate g).
Definition item_qubits (i : citem) : list N :=
  match i with
  | IGate (CElem (_, g)) => gate_target_list g ++ gate_control_list g
  | IGate (CMeas t _ _) => mask_to_vector t
  | _ => []
  end.
Definition item_bits (i : citem) : list N := match i with IGate (CMeas _ bit _) => [bit] | _ => [] end.
(** one more than the largest index *)
Definition count_needed (l : list N) : N := fold_right (fun q n => N.max (q + 1) n) 0 l.
Definition qubits_needed (c : circuit) : N := count_needed (flat_map item_qubits (c_gates c)).
Definition bits_needed (c : circuit) : N := count_needed (flat_map item_bits (c_gates c)).
(** all gates but the identity gates *)
Definition gates_written (c : circuit) : list cgate :=
  flat_map (fun i => match i with IGate (CElem (_, EI)) => [] | IGate g => [g] | IParam _ _ => [] end) (c_gates c).
