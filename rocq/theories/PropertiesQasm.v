(** OpenQASM 2.0: C40, C41, C42, C43, C53. *)
From Verif Require Import QasmSpec.
From Verif Require QasmProofs QasmProofs3 QasmProofs4 QasmProofs6 QasmProofs8 QasmProofs9.
Local Open Scope N_scope.

(** * Statements *)
(** C43: comments are removed, strings are kept whole, every semicolon outside them ends a statement, and statements
    lose the spaces around them. *)
Theorem C43_split : forall source ts sts rest,
  scan (Loc 1 1) source ts Complete -> statements ts sts rest -> blank rest -> split_statements source = Ok sts.
Proof. exact QasmProofs.split_statements_ok. Qed.
Print Assumptions C43_split.
(** Text after the last semicolon is an error. *)
Theorem C43_missing_semicolon : forall source ts sts rest,
  scan (Loc 1 1) source ts Complete -> statements ts sts rest -> ~ blank rest -> split_statements source = Throw.
Proof. exact QasmProofs.split_statements_missing. Qed.
Print Assumptions C43_missing_semicolon.
(** So is a comment or a string that is not closed. *)
Theorem C43_unterminated : forall source ts e, scan (Loc 1 1) source ts e -> e <> Complete -> split_statements source = Throw.
Proof. exact QasmProofs.split_statements_open. Qed.
Print Assumptions C43_unterminated.
(** These are all the cases. *)
Theorem C43_total : forall source, exists ts e sts rest, scan (Loc 1 1) source ts e /\ statements ts sts rest.
Proof. exact QasmProofs9.scanned. Qed.
Print Assumptions C43_total.
Example C43_example :
  split_statements (txt "// a;b" ++ [newline] ++ txt " include ""/*;//"" ;;" ++ txt "h /*;*/q[0]; ") =
  Ok [Statement (txt "include ""/*;//""") (Loc 2 2); Statement (txt "h q[0]") (Loc 2 20)].
Proof. reflexivity. Qed.
(** A comment does not separate words, although it does in OpenQASM. *)
Theorem C43_comment_separates_refuted : exists a b sts sts',
  split_statements (a ++ txt "/*c*/" ++ b) = Ok sts /\ split_statements (a ++ txt " " ++ b) = Ok sts' /\ map st_text sts <> map st_text sts'.
Proof. exists (txt "qreg"), (txt "q[1];"). eexists. eexists. split; [vm_compute; reflexivity|]. split; [vm_compute; reflexivity|]. discriminate. Qed.
Print Assumptions C43_comment_separates_refuted.

(** * Angles *)
(** C42: an expression has the value of its syntax tree; a division by zero is an error. *)
Theorem C42_value : forall s e, expression s e -> parse_expr s = match value e with Some v => Ok v | None => Throw end.
Proof. exact QasmProofs3.parse_expr_value. Qed.
Print Assumptions C42_value.
(** Everything else is rejected. *)
Theorem C42_rejects : forall s, (forall e, ~ expression s e) -> parse_expr s = Throw.
Proof. exact QasmProofs3.parse_expr_rejects. Qed.
Print Assumptions C42_rejects.
Example C42_example : exists e, expression (txt "-pi/2 - 1*(2 - .5e1)") e /\
  e = Sub (Div (Minus Pi) (Num (IZR 2 * powerRZ 10 0))) (Mul (Num (IZR 1 * powerRZ 10 0)) (Sub (Num (IZR 2 * powerRZ 10 0)) (Num (IZR 5 * powerRZ 10 0)))).
Proof. eexists. split; [exact QasmProofs9.angle_example|reflexivity]. Qed.

(** * Registers *)
(** C41: if all registers together have less than 2^64 qubits, the bits that a program declares get different qubits, and
    these are below the reported number of qubits. *)
Theorem C41_distinct_qubits_partial : forall vf source r s1 a i k1 s2 b j k2, loads vf source = Ok r ->
  fold_right (fun d n => r_size (snd d) + n) 0 (rd_qregs r) < 2 ^ 64 ->
  bit_text s1 a i -> bit_text s2 b j ->
  parse_indexed_register s1 (rd_qregs r) = Ok k1 -> parse_indexed_register s2 (rd_qregs r) = Ok k2 ->
  k1 < rd_n_qubits r /\ (k1 = k2 -> a = b /\ i = j).
Proof. exact QasmProofs9.qubits_distinct. Qed.
Print Assumptions C41_distinct_qubits_partial.
(** Likewise for classical bits. *)
Theorem C41_distinct_bits_partial : forall vf source r s1 a i k1 s2 b j k2, loads vf source = Ok r ->
  fold_right (fun d n => r_size (snd d) + n) 0 (rd_cregs r) < 2 ^ 64 ->
  bit_text s1 a i -> bit_text s2 b j ->
  parse_indexed_register s1 (rd_cregs r) = Ok k1 -> parse_indexed_register s2 (rd_cregs r) = Ok k2 ->
  k1 < rd_n_clbits r /\ (k1 = k2 -> a = b /\ i = j).
Proof. exact QasmProofs9.bits_distinct. Qed.
Print Assumptions C41_distinct_bits_partial.
Example C41_example : exists r, loads true (txt "qreg a[2]; qreg b[3]; creg c[1];") = Ok r /\
  parse_indexed_register (txt "b[1]") (rd_qregs r) = Ok 3 /\ rd_n_qubits r = 5 /\ rd_n_clbits r = 1.
Proof. eexists. split; [vm_compute; reflexivity|]. split; [|split]; reflexivity. Qed.
(** From 2^64 qubits on they alias: here X is applied to qubit 0 twice. *)
Theorem C41_distinct_refuted : exists source r, loads true source = Ok r /\
  source = txt "OPENQASM 2.0; qreg a[18446744073709551615]; qreg b[2]; x a[0]; x b[1];" /\
  c_gates (rd_circuit r) = [IGate (CElem (true, EStd GX (GBase 1 0 0))); IGate (CElem (true, EStd GX (GBase 1 0 0)))].
Proof.
  exists (txt "OPENQASM 2.0; qreg a[18446744073709551615]; qreg b[2]; x a[0]; x b[1];"). eexists.
  split; [vm_compute; reflexivity|]. split; reflexivity.
Qed.
Print Assumptions C41_distinct_refuted.

(** * Programs *)
(** C53: a source is read to the registers, gates and warnings that its statements stand for, and it is accepted only if
    they stand for something. *)
Theorem C53_program : forall vf source ts sts rest qs,
  scan (Loc 1 1) source ts Complete -> statements ts sts rest -> blank rest ->
  Forall2 statement_text (map st_text sts) qs ->
  total (qubits_declared qs) < 2 ^ 64 -> total (bits_declared qs) < 2 ^ 64 ->
  (forall p, effects vf qp_start qs p -> exists r, loads vf source = Ok r /\
     c_gates (rd_circuit r) = map IGate (qp_gates p) /\ c_conds (rd_circuit r) = map (fun _ => None) (qp_gates p) /\
     rd_n_qubits r = total (qp_qregs p) /\ rd_n_clbits r = total (qp_cregs p) /\ rd_warnings r = qp_warnings p) /\
  (forall r, loads vf source = Ok r -> exists p, effects vf qp_start qs p).
Proof. exact QasmProofs9.loads_program. Qed.
Print Assumptions C53_program.
Example C53_example : exists qs p,
  Forall2 statement_text [txt "OPENQASM 2.0"; txt "QREG q [ 3 ]"; txt "rx( -pi/2 ) q[1]"; txt "CX q[2] , q[0]"] qs /\
  effects true qp_start qs p /\
  qp_gates p = [CElem (true, EStd (GRX (- PI / (2 * 1))) (GBase 2 0 0)); CElem (true, EStd GX (GBase 1 4 4))].
Proof. exact QasmProofs9.program_example. Qed.

(** * Writing *)
(** C40: reading the text of a circuit gives its gates in order, without the identity gates.  Angles are printed as decimal
    numbers: [f a] is the number printed for the angle [a]. *)
Theorem C40_round_trip_partial : forall vf format_angle f c n s,
  Forall (from_factory vf) (c_gates c) -> (forall m, n = Some m -> m < 2 ^ 64) ->
  (forall g a, In g (gates_written c) -> In a (gate_angles g) -> angle_text (format_angle a) (f a)) ->
  dumps format_angle c n = Ok s ->
  exists r, loads vf s = Ok r /\
    c_gates (rd_circuit r) = map IGate (map (gate_with_angles f) (gates_written c)) /\
    c_conds (rd_circuit r) = map (fun _ => None) (gates_written c) /\
    rd_n_qubits r = match n with Some n => n | None => qubits_needed c end /\
    rd_n_clbits r = bits_needed c /\ rd_warnings r = [].
Proof. exact QasmProofs9.round_trip. Qed.
Print Assumptions C40_round_trip_partial.
(** If the printed numbers are exact, the gates are the same. *)
Theorem C40_round_trip_exact_partial : forall vf format_angle c n s,
  Forall (from_factory vf) (c_gates c) -> (forall m, n = Some m -> m < 2 ^ 64) ->
  (forall g a, In g (gates_written c) -> In a (gate_angles g) -> angle_text (format_angle a) a) ->
  dumps format_angle c n = Ok s ->
  exists r, loads vf s = Ok r /\ c_gates (rd_circuit r) = map IGate (gates_written c).
Proof. exact QasmProofs9.round_trip_exact. Qed.
Print Assumptions C40_round_trip_exact_partial.
(** A circuit is written if it has only identity gates, gates that OpenQASM statements make and measurements without reset,
    and fits a non-empty register; otherwise an exception is thrown. *)
Theorem C40_accepts : forall vf format_angle c n, Forall (from_factory vf) (c_gates c) ->
  let size := match n with Some n => n | None => qubits_needed c end in
  let writable := Forall (exportable vf) (c_gates c) /\ qubits_needed c <= size /\ size <> 0 in
  (writable -> exists s, dumps format_angle c n = Ok s) /\ (~ writable -> dumps format_angle c n = Throw).
Proof. exact QasmProofs8.dumps_accepts. Qed.
Print Assumptions C40_accepts.
Example C40_example : exists c s r, Forall (from_factory true) (c_gates c) /\
  (forall g a, In g (gates_written c) -> In a (gate_angles g) -> angle_text ((fun _ => txt "-0.5") a) a) /\
  dumps (fun _ => txt "-0.5") c None = Ok s /\
  s = txt "OPENQASM 2.0;" ++ [newline] ++ txt "include ""qelib1.inc"";" ++ [newline] ++ txt "qreg q[3];" ++ [newline] ++ txt "creg c[2];" ++ [newline] ++
      txt "cx q[2], q[0];" ++ [newline] ++ txt "crx(-0.5) q[0], q[1];" ++ [newline] ++ txt "measure q[1] -> c[1];" ++ [newline] /\
  loads true s = Ok r /\ length (c_gates c) = 4%nat /\ length (c_gates (rd_circuit r)) = 3%nat.
Proof. exact QasmProofs9.round_trip_example. Qed.
(** Classical conditions are dropped without a word. *)
Theorem C40_conditions_refuted : exists c s r, Forall (from_factory true) (c_gates c) /\
  dumps (fun _ => []) c None = Ok s /\ loads true s = Ok r /\
  c_gates (rd_circuit r) = c_gates c /\ c_conds (rd_circuit r) <> c_conds c.
Proof. exact QasmProofs9.conditions_dropped. Qed.
Print Assumptions C40_conditions_refuted.
(** The text of a measurement into the last classical bit cannot be read. *)
Theorem C40_last_bit_refuted : exists c g s, make_measurement 0 18446744073709551615 false = Ok g /\
  c_gates c = [IGate g] /\ dumps (fun _ => []) c None = Ok s /\ loads true s = Throw.
Proof.
  exists (Circuit [IGate (CMeas 1 18446744073709551615 false)] [None]). eexists. eexists.
  split; [reflexivity|]. split; [reflexivity|]. split; [vm_compute; reflexivity|]. vm_compute. reflexivity.
Qed.
Print Assumptions C40_last_bit_refuted.
