(** The statements of PropertiesQasm.v that need a few steps more, and their examples. *)
From Verif Require Export QasmProofs8.
From Coq Require Import Lia Lra.
Local Open Scope N_scope.

Lemma scanned source : exists ts e sts rest, scan (Loc 1 1) source ts e /\ statements ts sts rest.
Proof.
  destruct (scan_total source (Loc 1 1)) as (ts & e & H). destruct (statements_total ts) as (sts & rest & H').
  exists ts, e, sts, rest. now split.
Qed.
Lemma qubits_distinct vf source r s1 a i k1 s2 b j k2 : loads vf source = Ok r -> sizes_total (rd_qregs r) < 2 ^ 64 ->
  bit_text s1 a i -> bit_text s2 b j ->
  parse_indexed_register s1 (rd_qregs r) = Ok k1 -> parse_indexed_register s2 (rd_qregs r) = Ok k2 ->
  k1 < rd_n_qubits r /\ (k1 = k2 -> a = b /\ i = j).
Proof.
  intros E Ht. unfold loads in E. inv_bind E. destruct (handle_all_ok _ _ _ _ E rd_new_ok) as [C _]. now apply bits_apart; [|apply C].
Qed.
Lemma bits_distinct vf source r s1 a i k1 s2 b j k2 : loads vf source = Ok r -> sizes_total (rd_cregs r) < 2 ^ 64 ->
  bit_text s1 a i -> bit_text s2 b j ->
  parse_indexed_register s1 (rd_cregs r) = Ok k1 -> parse_indexed_register s2 (rd_cregs r) = Ok k2 ->
  k1 < rd_n_clbits r /\ (k1 = k2 -> a = b /\ i = j).
Proof.
  intros E Ht. unfold loads in E. inv_bind E. destruct (handle_all_ok _ _ _ _ E rd_new_ok) as [_ C]. now apply bits_apart; [|apply C].
Qed.
Lemma loads_program vf source ts sts rest qs :
  scan (Loc 1 1) source ts Complete -> statements ts sts rest -> blank rest ->
  Forall2 statement_text (map st_text sts) qs ->
  total (qubits_declared qs) < 2 ^ 64 -> total (bits_declared qs) < 2 ^ 64 ->
  (forall p, effects vf qp_start qs p -> exists r, loads vf source = Ok r /\
     c_gates (rd_circuit r) = map IGate (qp_gates p) /\ c_conds (rd_circuit r) = map (fun _ => None) (qp_gates p) /\
     rd_n_qubits r = total (qp_qregs p) /\ rd_n_clbits r = total (qp_cregs p) /\ rd_warnings r = qp_warnings p) /\
  (forall r, loads vf source = Ok r -> exists p, effects vf qp_start qs p).
Proof.
  intros H1 H2 H3 H4 H5 H6. pose proof (loads_iff vf source ts sts rest qs H1 H2 H3 H4 H5 H6) as L. split.
  - intros p Hp. exists (reader_of p). split; [apply L; eauto|]. repeat split.
  - intros r Hr. apply L in Hr. destruct Hr as (p & Hp & _). eauto.
Qed.
Lemma round_trip vf fmt f c n s :
  Forall (from_factory vf) (c_gates c) -> (forall m, n = Some m -> m < 2 ^ 64) ->
  (forall g a, In g (gates_written c) -> In a (gate_angles g) -> angle_text (fmt a) (f a)) ->
  dumps fmt c n = Ok s ->
  exists r, loads vf s = Ok r /\
    c_gates (rd_circuit r) = map IGate (map (gate_with_angles f) (gates_written c)) /\
    c_conds (rd_circuit r) = map (fun _ => None) (gates_written c) /\
    rd_n_qubits r = match n with Some n => n | None => qubits_needed c end /\
    rd_n_clbits r = bits_needed c /\ rd_warnings r = [].
Proof.
  intros H1 H2 H3 H4. eexists. split; [eapply dumps_loads; eauto|]. unfold reader_of. cbn [rd_circuit rd_n_qubits rd_n_clbits rd_warnings header qp_gates qp_qregs qp_cregs qp_warnings].
  split; [reflexivity|]. split; [unfold circuit_of; cbn [c_conds]; now rewrite map_map|].
  split; [unfold total; cbn [fold_right snd]; unfold required; apply N.add_0_r|]. split; [|reflexivity].
  destruct (bits_needed c =? 0) eqn:E; [apply N.eqb_eq in E; now rewrite E|]. unfold total. cbn [fold_right snd]. apply N.add_0_r.
Qed.
Lemma gate_same_angles g : gate_with_angles (fun a => a) g = g.
Proof. destruct g as [[v [| |[]| | | | | | |]]| |]; reflexivity. Qed.
Lemma round_trip_exact vf fmt c n s :
  Forall (from_factory vf) (c_gates c) -> (forall m, n = Some m -> m < 2 ^ 64) ->
  (forall g a, In g (gates_written c) -> In a (gate_angles g) -> angle_text (fmt a) a) ->
  dumps fmt c n = Ok s ->
  exists r, loads vf s = Ok r /\ c_gates (rd_circuit r) = map IGate (gates_written c).
Proof.
  intros H1 H2 H3 H4. destruct (round_trip vf fmt (fun a => a) c n s H1 H2 H3 H4) as (r & E & G & _). exists r. split; [exact E|].
  rewrite G. f_equal. rewrite <- (map_id (gates_written c)) at 2. apply map_ext. apply gate_same_angles.
Qed.

(** * Examples *)
Lemma small_number c d : is_digit c = true -> digit_value c = d -> signed [c] (Num (IZR (Z.of_N d) * powerRZ 10 0)).
Proof.
  intros H <-. assert (E : digit_value c = written 10 [c]) by (cbn; now rewrite N.mul_1_r, N.add_0_r). rewrite E.
  apply (signed_decimal []); [constructor|]. apply (decimal_number [c] [] [c] [] 0%Z); [|constructor]. apply whole; [discriminate|now repeat constructor].
Qed.
Lemma angle_example : expression (txt "-pi/2 - 1*(2 - .5e1)")
  (Sub (Div (Minus Pi) (Num (IZR 2 * powerRZ 10 0))) (Mul (Num (IZR 1 * powerRZ 10 0)) (Sub (Num (IZR 2 * powerRZ 10 0)) (Num (IZR 5 * powerRZ 10 0))))).
Proof.
  exists (txt "-pi/2 - 1*(2 - .5e1)"), []. split; [reflexivity|]. split; [|constructor].
  apply (sum_sub (txt "-pi/2") _ (txt " ") (txt " 1*(2 - .5e1)")); [|repeat constructor|].
  - apply sum_one. apply (product_div (txt "-pi") _ [] (txt "2")); [|constructor|now apply (small_number "2" 2)].
    apply product_one. apply (signed_minus [] (txt "pi")); [constructor|]. apply (signed_pi []). constructor.
  - apply (product_mul (txt " 1") _ [] (txt "(2 - .5e1)")); [|constructor|].
    + apply product_one. apply (signed_decimal (txt " ") (txt "1")); [repeat constructor|].
      apply (decimal_number (txt "1") [] (txt "1") [] 0%Z); [|constructor]. apply whole; [discriminate|now repeat constructor].
    + apply (signed_group [] (txt "2 - .5e1") _ []); [constructor| |constructor].
      apply (sum_sub (txt "2") _ (txt " ") (txt " .5e1")); [|repeat constructor|].
      * apply sum_one, product_one. now apply (small_number "2" 2).
      * apply product_one. apply (signed_decimal (txt " ") (txt ".5e1")); [repeat constructor|].
        apply (decimal_number [] (txt "5") (txt ".5") (txt "e1") 1%Z).
        -- apply (pointed _ [] (txt "5")); [discriminate|constructor|now repeat constructor].
        -- apply (exponent_plain _ "e"%char (txt "1")); [now left|discriminate|now repeat constructor].
Qed.
Lemma program_example : exists qs p,
  Forall2 statement_text [txt "OPENQASM 2.0"; txt "QREG q [ 3 ]"; txt "rx( -pi/2 ) q[1]"; txt "CX q[2] , q[0]"] qs /\
  effects true qp_start qs p /\
  qp_gates p = [CElem (true, EStd (GRX (- PI / (2 * 1))) (GBase 2 0 0)); CElem (true, EStd GX (GBase 1 4 4))].
Proof.
  exists [Version; Qreg (txt "q") 3; Apply (txt "rx") [Div (Minus Pi) (Num (IZR 2 * powerRZ 10 0))] [(txt "q", 1)]; Apply (txt "cx") [] [(txt "q", 2); (txt "q", 0)]].
  eexists. split; [|split].
  - constructor; [apply (text_version (txt "OPENQASM") (txt " ")); [reflexivity|repeat constructor|discriminate]|].
    constructor; [apply (text_qreg (txt "QREG") (txt " ") (txt "q [ 3 ]")); [reflexivity|repeat constructor|discriminate|];
                  apply (bit_of (txt "q") (txt " ") (txt " ") (txt "3") (txt " ")); [apply word_q|..]; try discriminate; now repeat constructor|].
    constructor.
    { apply (text_apply_angles (txt "rx") [] (txt " -pi/2 ") _ (txt " ") (txt "q[1]")); [split; [discriminate|words]| |constructor|repeat constructor| |].
      - cbn [keywords map In]; intros D; repeat (destruct D as [D|D]; [discriminate|]); exact D.
      - constructor. exists (txt " -pi/2"), (txt " "). split; [reflexivity|]. split; [|repeat constructor].
        apply sum_one. apply (product_div (txt " -pi") _ [] (txt "2")); [|constructor|now apply (small_number "2" 2)].
        apply product_one. apply (signed_minus (txt " ") (txt "pi")); [repeat constructor|]. apply (signed_pi []). constructor.
      - constructor. apply (bit_of (txt "q") [] [] (txt "1") []); [apply word_q|..]; try discriminate; now repeat constructor. }
    constructor; [|constructor].
    apply (text_apply (txt "CX") (txt " ") (txt "q[2] , q[0]")); [split; [discriminate|words]| |repeat constructor|discriminate|].
    + intros D; vm_compute in D; repeat (destruct D as [D|D]; [discriminate|]); exact D.
    + apply (listed_more _ (txt "q[2]") (txt "q", 2) (txt " ") (txt " ") (txt "q[0]")); [|repeat constructor|repeat constructor|constructor];
        [apply (bit_of (txt "q") [] [] (txt "2") [])|apply (bit_of (txt "q") [] [] (txt "0") [])]; try apply word_q; try discriminate; now repeat constructor.
  - econstructor; [apply effect_version|]. econstructor; [apply effect_qreg; [discriminate|reflexivity]|].
    econstructor; [|econstructor; [|constructor]].
    + eapply (effect_apply true _ (txt "rx") _ [(- PI / (2 * 1))%R] _ [1]).
      * constructor; [|constructor]. cbn [value option_map binary]. change (powerRZ 10 0) with 1%R.
        destruct (Req_EM_T (2 * 1) 0) as [E|_]; [exfalso; lra|reflexivity].
      * constructor; [reflexivity|constructor].
      * repeat constructor. intros [].
      * apply qelib_rx.
      * eexists. split; [reflexivity|reflexivity].
    + eapply (effect_apply true _ (txt "cx") _ [] _ [2; 0]).
      * constructor.
      * constructor; [reflexivity|]. constructor; [reflexivity|constructor].
      * repeat constructor; cbn; intuition discriminate.
      * apply qelib_cx.
      * eexists. split; [reflexivity|reflexivity].
  - reflexivity.
Qed.
Lemma round_trip_example : exists c s r, Forall (from_factory true) (c_gates c) /\
  (forall g a, In g (gates_written c) -> In a (gate_angles g) -> angle_text ((fun _ => txt "-0.5") a) a) /\
  dumps (fun _ => txt "-0.5") c None = Ok s /\
  s = txt "OPENQASM 2.0;" ++ [newline] ++ txt "include ""qelib1.inc"";" ++ [newline] ++ txt "qreg q[3];" ++ [newline] ++ txt "creg c[2];" ++ [newline] ++
      txt "cx q[2], q[0];" ++ [newline] ++ txt "crx(-0.5) q[0], q[1];" ++ [newline] ++ txt "measure q[1] -> c[1];" ++ [newline] /\
  loads true s = Ok r /\ length (c_gates c) = 4%nat /\ length (c_gates (rd_circuit r)) = 3%nat.
Proof.
  set (c := Circuit [IGate (CElem (true, EStd GX (GBase 1 4 4))); IGate (CElem (true, EI)); IGate (CElem (true, EStd (GRX (- / 2)) (GBase 2 1 1))); IGate (CMeas 2 1 false)] [None; None; None; None]).
  assert (H1 : Forall (from_factory true) (c_gates c)).
  { repeat constructor.
    - apply (factory_gate _ (Call1 GX 0 [2] [])); [|reflexivity]. cbn. repeat constructor.
    - apply (factory_gate _ CallI); [|reflexivity]. exact I.
    - apply (factory_gate _ (Call1 (GRX (- / 2)) 1 [0] [])); [|reflexivity]. cbn. repeat constructor.
    - apply (factory_measurement _ 1 1 false); reflexivity. }
  assert (H2 : forall g a, In g (gates_written c) -> In a (gate_angles g) -> angle_text ((fun _ => txt "-0.5") a) a).
  { intros g a Hg Ha. cbn in Hg. destruct Hg as [<-|[<-|[<-|[]]]]; cbn in Ha; [destruct Ha|destruct Ha as [<-|[]]|destruct Ha].
    replace (- / 2)%R with (- (IZR (Z.of_N (written 10 (txt "0" ++ txt "5"))) * powerRZ 10 (0 - Z.of_nat (length (txt "5")))))%R.
    - apply angle_negative. apply (decimal_number (txt "0") (txt "5") (txt "0.5") [] 0%Z); [|constructor].
      apply (pointed _ (txt "0") (txt "5")); [discriminate|now repeat constructor|now repeat constructor].
    - change (- (5 * / (10 * 1)) = - / 2)%R. field. }
  assert (H3 : exists s, dumps (fun _ => txt "-0.5") c None = Ok s /\
    s = txt "OPENQASM 2.0;" ++ [newline] ++ txt "include ""qelib1.inc"";" ++ [newline] ++ txt "qreg q[3];" ++ [newline] ++ txt "creg c[2];" ++ [newline] ++
      txt "cx q[2], q[0];" ++ [newline] ++ txt "crx(-0.5) q[0], q[1];" ++ [newline] ++ txt "measure q[1] -> c[1];" ++ [newline]).
  { eexists. split; [|reflexivity]. vm_compute. reflexivity. }
  destruct H3 as (s & H3 & Es).
  destruct (round_trip_exact true _ c None s H1 ltac:(discriminate) H2 H3) as (r & E & G).
  exists c, s, r. split; [exact H1|]. split; [exact H2|]. split; [exact H3|]. split; [exact Es|]. split; [exact E|].
  split; [reflexivity|]. rewrite G. reflexivity.
Qed.
Lemma conditions_dropped : exists c s r, Forall (from_factory true) (c_gates c) /\
  dumps (fun _ => []) c None = Ok s /\ loads true s = Ok r /\
  c_gates (rd_circuit r) = c_gates c /\ c_conds (rd_circuit r) <> c_conds c.
Proof.
  exists (Circuit [IGate (CElem (true, EStd GX (GBase 1 0 0)))] [Some (fun _ => Ok false)]). eexists. eexists.
  split; [|split; [vm_compute; reflexivity|split; [vm_compute; reflexivity|split; [reflexivity|discriminate]]]].
  repeat constructor. apply (factory_gate _ (Call1 GX 0 [] [])); [|reflexivity]. cbn. repeat constructor.
Qed.
