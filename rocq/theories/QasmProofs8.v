(** Reading back what was written. *)
From Verif Require Export QasmProofs7.
From Coq Require Import Lia ZifyBool ZifyN ZifyNat Permutation.
Local Open Scope N_scope.

(** * Lines *)
Definition quiet_char (c : ascii) : bool := negb (Ascii.eqb c """" || Ascii.eqb c ";" || Ascii.eqb c "/").
Definition quiet (s : text) : Prop := Forall (fun c => quiet_char c = true) s.
Lemma quiet_app a b : quiet a -> quiet b -> quiet (a ++ b).
Proof. intros. apply Forall_app. now split. Qed.
Lemma quiet_number s : Forall (fun c => number_char c = true) s -> quiet s.
Proof. apply Forall_impl. intros c. every_char c. Qed.
Lemma quiet_word s : Forall (fun c => is_word c = true) s -> quiet s.
Proof. apply Forall_impl. intros c. every_char c. Qed.
Record line_ok (s : text) : Prop := {
  ln_tokens : exists T : location -> list token, (forall l, map tk_char (T l) = s) /\
    (forall l t, In t (T l) -> ~ separator t) /\ (forall l b ts e, scan (after l s) b ts e -> scan l (s ++ b) (T l ++ ts) e);
  ln_starts : starts_tight s; ln_ends : ends_tight s }.
Lemma mark_chars q s : forall l, map tk_char (mark q l s) = s.
Proof. induction s as [|c s IH]; intros l; cbn; [reflexivity|]. now rewrite IH. Qed.
Lemma quiet_mark q s : quiet s -> forall l t, In t (mark q l s) -> ~ separator t.
Proof.
  induction 1 as [|c s Hc Hs IH]; intros l t H; [destruct H|]. cbn in H. destruct H as [<-|H]; [|eapply IH; eauto].
  intros [E _]. cbn in E. subst c. discriminate.
Qed.
Lemma quiet_scan s : quiet s -> forall l b ts e, scan (after l s) b ts e -> scan l (s ++ b) (mark false l s ++ ts) e.
Proof.
  induction 1 as [|c s Hc Hs IH]; intros l b ts e H; cbn [app mark]; [exact H|].
  assert (N : c <> "/"%char /\ c <> """"%char) by (split; intros ->; discriminate).
  apply scan_char; [apply N|intros (r & E); apply N; now injection E|intros (r & E); apply N; now injection E|]. apply IH. exact H.
Qed.
Lemma quiet_line s : quiet s -> starts_tight s -> ends_tight s -> line_ok s.
Proof.
  intros H H1 H2. split; auto. exists (fun l => mark false l s). split; [intros; apply mark_chars|]. split; [now apply quiet_mark|now apply quiet_scan].
Qed.
Lemma include_line : line_ok (txt "include ""qelib1.inc""").
Proof.
  split; [|reflexivity|reflexivity].
  exists (fun l => mark false l (txt "include ") ++ mark true (after l (txt "include ")) (txt """qelib1.inc""")).
  split; [intros l; rewrite map_app, !mark_chars; reflexivity|]. split.
  - intros l t Ht. apply in_app_or in Ht. destruct Ht as [Ht|Ht].
    + revert Ht. apply quiet_mark. repeat constructor.
    + intros [_ E]. assert (G : forall s l t, In t (mark true l s) -> tk_quoted t = true).
      { clear. induction s as [|c s IH]; intros l t H; [destruct H|]. cbn in H. destruct H as [<-|H]; [reflexivity|eauto]. }
      apply G in Ht. congruence.
  - intros l b ts e H. rewrite <- app_assoc.
    change (txt "include ""qelib1.inc""" ++ b) with (txt "include " ++ txt """" ++ txt "qelib1.inc" ++ txt """" ++ b).
    apply quiet_scan; [repeat constructor|]. apply (scan_string _ (txt "qelib1.inc")); [cbn; intuition discriminate|exact H].
Qed.
Lemma ends_last s : ends_tight s -> exists r c, s = r ++ [c] /\ is_space c = false.
Proof.
  unfold ends_tight. destruct (rev s) as [|c r] eqn:E; [easy|]. intros H. exists (rev r), c. split; [|exact H].
  rewrite <- (rev_involutive s), E. reflexivity.
Qed.
Definition lines (ss : list text) : text := flat_map (fun s => s ++ txt ";" ++ [newline]) ss.
Lemma lines_scan ss : Forall line_ok ss -> forall l, exists ts sts, scan l (lines ss) ts Complete /\ map st_text sts = ss /\
  forall pre, blank pre -> exists rest, statements (pre ++ ts) sts rest /\ blank rest.
Proof.
  induction 1 as [|s ss Hs Hss IH]; intros l.
  - exists [], []. split; [constructor|]. split; [reflexivity|]. intros pre Hp. exists pre. rewrite app_nil_r. split; [|exact Hp].
    constructor. intros t Ht [E _]. unfold blank in Hp. rewrite Forall_forall in Hp. apply Hp in Ht. rewrite E in Ht. discriminate.
  - destruct Hs as [(T & HT1 & HT2 & HT3) H1 H2]. set (l1 := after l s). set (l2 := next_location l1 ";"%char).
    destruct (IH (next_location l2 newline)) as (ts & sts & Hsc & Hst & Hpre).
    assert (exists c0 s0, s = c0 :: s0) as (c0 & s0 & Es) by (destruct s as [|c0 s0]; [destruct H1|eauto]).
    specialize (HT1 l). pose proof (HT2 l) as HT2l. destruct (T l) as [|first r] eqn:ET; [rewrite Es in HT1; discriminate|].
    exists ((first :: r) ++ Token ";" l1 false :: Token newline l2 false :: ts), (Statement s (tk_loc first) :: sts).
    split; [|split].
    + cbn [lines flat_map]. fold (lines ss). rewrite <- app_assoc. rewrite <- ET. apply HT3. fold l1.
      cbn [app txt to_text list_ascii_of_string]. apply (scan_char l1 ";"%char); [discriminate|intros (? & E); discriminate|intros (? & E); discriminate|].
      apply (scan_char l2 newline); [discriminate|intros (? & E); discriminate|intros (? & E); discriminate|]. exact Hsc.
    + cbn [map st_text]. now rewrite Hst.
    + intros pre Hp. destruct (Hpre [Token newline l2 false]) as (rest & Hr & Hb); [repeat constructor|].
      exists rest. split; [|exact Hb]. rewrite app_assoc. apply (statements_next (pre ++ first :: r) (Token ";" l1 false) _ ([Token newline l2 false] ++ ts)).
      * intros t Ht. apply in_app_or in Ht. destruct Ht as [Ht|Ht]; [|now apply HT2l].
        intros [E _]. unfold blank in Hp. rewrite Forall_forall in Hp. apply Hp in Ht. rewrite E in Ht. discriminate.
      * split; reflexivity.
      * exists pre, (first :: r), []. rewrite app_nil_r. split; [reflexivity|]. split; [exact Hp|]. split; [constructor|].
        split; [symmetry; exact HT1|]. split.
        -- exists first, r. split; [reflexivity|]. split; [|reflexivity]. cbn [map] in HT1. rewrite Es in HT1, H1. injection HT1 as E _. cbn in H1. now rewrite E.
        -- destruct (ends_last _ H2) as (r0 & cz & E & Hz). rewrite E in HT1. clear - HT1 Hz.
           destruct (exists_last (l := first :: r)) as (r' & z & E'); [discriminate|]. exists r', z. split; [exact E'|].
           rewrite E', map_app in HT1. cbn in HT1. apply app_inj_tail in HT1. destruct HT1 as [_ ->]. exact Hz.
      * exact Hr.
Qed.
Lemma loads_lines vf ss qs : Forall line_ok ss -> Forall2 statement_text ss qs ->
  total (qubits_declared qs) < 2 ^ 64 -> total (bits_declared qs) < 2 ^ 64 ->
  forall p, effects vf qp_start qs p -> loads vf (lines ss) = Ok (reader_of p).
Proof.
  intros Hl Hs Tq Tc p He. destruct (lines_scan ss Hl (Loc 1 1)) as (ts & sts & Hsc & Hst & Hpre).
  destruct (Hpre [] (Forall_nil _)) as (rest & Hr & Hb). cbn [app] in Hr.
  apply (loads_iff vf (lines ss) ts sts rest qs); auto; [now rewrite Hst|]. eauto.
Qed.

(** * Numbers, angles and lists *)
Lemma dec_text n : n < 2 ^ 64 -> dec n <> [] /\ Forall is_decimal (dec n) /\ written 10 (dec n) = n.
Proof. intros H. destruct (dec_spec n H) as (A & B & C). split; [exact A|]. split; [exact B|]. rewrite <- written_num by exact B. exact C. Qed.
Lemma named_bit name n : word name -> n < 2 ^ 64 -> bit_text (name ++ txt "[" ++ dec n ++ txt "]") name n.
Proof.
  intros Hw Hn. destruct (dec_text n Hn) as (A & B & C). rewrite <- C at 2.
  apply (bit_of name [] [] (dec n) []); auto; constructor.
Qed.
Lemma word_q : word (txt "q").
Proof. split; [discriminate|words]. Qed.
Lemma word_c : word (txt "c").
Proof. split; [discriminate|words]. Qed.
Lemma angle_expression s v : angle_text s v -> exists e, expression s e /\ value e = Some v /\ Forall (fun c => number_char c = true) s.
Proof.
  intros [s' v' H|s' v' H]; pose proof (decimal_chars _ _ H) as Hc.
  - exists (Num v'). split; [|split; [reflexivity|exact Hc]]. exists s', []. rewrite app_nil_r. split; [reflexivity|]. split; [|constructor].
    apply sum_one, product_one. apply (signed_decimal []); [constructor|exact H].
  - exists (Minus (Num v')). split; [|split; [reflexivity|constructor; [reflexivity|exact Hc]]]. exists (txt "-" ++ s'), []. rewrite app_nil_r.
    split; [reflexivity|]. split; [|constructor].
    apply sum_one, product_one. apply (signed_minus []); [constructor|]. apply (signed_decimal []); [constructor|exact H].
Qed.
Lemma join_listed {A} (P : text -> A -> Prop) l xs : Forall2 P l xs -> l <> [] -> listed P (comma_join l) xs.
Proof.
  induction 1 as [|s x l xs Hx H IH]; [congruence|]. intros _. cbn [comma_join]. destruct l as [|s2 l].
  - inversion H; subst. now constructor.
  - apply (listed_more P s x [] [" "%char]); [exact Hx|constructor|repeat constructor|]. apply IH. discriminate.
Qed.
Lemma join_quiet l : Forall quiet l -> quiet (comma_join l).
Proof.
  induction 1 as [|s l Hs Hl IH]; [constructor|]. cbn [comma_join]. destruct l; [exact Hs|].
  apply quiet_app; [exact Hs|]. apply quiet_app; [repeat constructor|exact IH].
Qed.
Lemma bit_quiet name n : word name -> n < 2 ^ 64 -> quiet (name ++ txt "[" ++ dec n ++ txt "]").
Proof.
  intros [_ Hw] Hn. destruct (dec_text n Hn) as (_ & B & _).
  apply quiet_app; [now apply quiet_word|]. apply quiet_app; [repeat constructor|]. apply quiet_app; [|repeat constructor].
  apply quiet_word. eapply Forall_impl; [|exact B]. intros c. apply digit_word.
Qed.

(** * Counting *)
Lemma count_le l n : count_needed l <= n <-> Forall (fun q => q < n) l.
Proof.
  induction l as [|q l IH]; cbn [count_needed fold_right]; [split; [constructor|lia]|].
  fold (count_needed l). rewrite Forall_cons_iff, <- IH. lia.
Qed.
Lemma count_eq l m : (forall n, Forall (fun q => q < n) l <-> Forall (fun q => q < n) m) -> count_needed l = count_needed m.
Proof.
  intros H. apply N.le_antisymm; apply count_le; apply H; apply count_le; lia.
Qed.
Lemma count_perm l m : Permutation l m -> count_needed l = count_needed m.
Proof. intros P. apply count_eq. intros n. rewrite !Forall_forall. split; intros H x Hx; apply H; [apply Permutation_sym in P|]; eapply Permutation_in; eauto. Qed.
Lemma count_app l m : count_needed (l ++ m) = N.max (count_needed l) (count_needed m).
Proof. induction l as [|q l IH]; [symmetry; apply N.max_0_l|]. cbn [app count_needed fold_right]. fold (count_needed (l ++ m)) (count_needed l). rewrite IH. lia. Qed.
Lemma required_count qs : Forall (fun q => q + 1 < 2 ^ 64) qs -> forall acc,
  fold_left (fun m q => N.max m ((q + 1) mod 2 ^ 64)) qs acc = N.max acc (count_needed qs).
Proof.
  induction 1 as [|q qs Hq Hqs IH]; intros acc; cbn [fold_left]; [unfold count_needed; cbn; lia|].
  rewrite IH. change (count_needed (q :: qs)) with (N.max (q + 1) (count_needed qs)). rewrite N.mod_small by exact Hq. lia.
Qed.

(** * Operations *)
Definition op_line (o : qasm_op) : text :=
  match o with
  | QMeasure qs c => txt "measure " ++ match qs with q :: _ => q_text q | [] => [] end ++ txt " -> " ++ c_text c
  | QGate name params qs =>
    name ++ match params with [] => [] | _ => txt "(" ++ comma_join params ++ txt ")" end ++ txt " " ++ comma_join (map q_text qs)
  end.
Lemma write_op_line o : write_op o = op_line o ++ txt ";".
Proof. destruct o as [name params qs|qs c]; cbn [write_op op_line]; rewrite <- ?app_assoc; reflexivity. Qed.
Lemma qelib_name name vs qs k : qelib name vs qs (Some k) ->
  word (txt name) /\ lower (txt name) = txt name /\ ~ In (txt name) keywords /\ qs <> [].
Proof.
  intros H. inversion H; subst; (split; [split; [discriminate|words]|]; split; [reflexivity|]; split; [|discriminate]);
    cbn [keywords map In]; intros D; repeat (destruct D as [D|D]; [discriminate|]); exact D.
Qed.
Definition header (n nc : N) (gs : list cgate) : qprogram :=
  QProgram [(txt "q", n)] (if nc =? 0 then [] else [(txt "c", nc)]) gs [] true.
Lemma bit_number_one name n i : i < n -> bit_number [(name, n)] name i = Some i.
Proof.
  intros H. unfold bit_number, range_of. assert (E : text_eqb name name = true) by (now apply text_eqb_eq). rewrite E.
  now rewrite (proj2 (N.ltb_lt _ _) H).
Qed.
Lemma bit_line_ends name n : ends_tight (name ++ txt "[" ++ dec n ++ txt "]").
Proof. repeat apply ends_app. reflexivity. Qed.
Lemma join_ends l : l <> [] -> Forall ends_tight l -> ends_tight (comma_join l).
Proof.
  intros Hn H. induction H as [|s l Hs Hl IH]; [congruence|]. cbn [comma_join]. destruct l; [exact Hs|].
  repeat apply ends_app. apply IH. discriminate.
Qed.
Lemma gate_op_line vf fmt f g o n nc gs : gate_wf g -> writes_gate vf fmt g o -> n < 2 ^ 64 ->
  (forall a, In a (gate_angles (CElem (true, g))) -> angle_text (fmt a) (f a)) ->
  Forall (fun q => q < n) (item_qubits (IGate (CElem (true, g)))) ->
  line_ok (op_line o) /\ exists q, statement_text (op_line o) q /\ qubits_declared [q] = [] /\ bits_declared [q] = [] /\
    effect vf (header n nc gs) q (header n nc (gs ++ [gate_with_angles f (CElem (true, g))])).
Proof.
  intros Hw (name & qs & -> & P & Hne & F) Hn Ha Hq. destruct (F f) as (k & g' & Hl & Hm & Hg).
  destruct (qelib_name _ _ _ _ Hl) as (N1 & N2 & N3 & N4).
  assert (Hqs : Forall (fun q => q < n) qs).
  { rewrite Forall_forall in *. intros x Hx. apply Hq. eapply Permutation_in; eauto. }
  assert (Hnd : NoDup qs).
  { eapply Permutation_NoDup; [apply Permutation_sym; exact P|]. destruct (base_operands_distinct (g_base g)) as [D _]; [apply Hw|].
    eapply Permutation_NoDup; [apply Permutation_app_comm|exact D]. }
  set (as_ := gate_angles (CElem (true, g))) in *.
  assert (Hes : exists es, Forall2 expression (map fmt as_) es /\ Forall2 (fun e v => value e = Some v) es (map f as_) /\ Forall quiet (map fmt as_)).
  { clear - Ha. clearbody as_. induction as_ as [|a l IH]; [exists []; repeat split; constructor|].
    destruct IH as (es & E1 & E2 & E3); [intros b Hb; apply Ha; now right|].
    destruct (angle_expression _ _ (Ha a (or_introl eq_refl))) as (e & H1 & H2 & H3). exists (e :: es).
    repeat split; constructor; auto using quiet_number. }
  destruct Hes as (es & E1 & E2 & E3).
  assert (Hbits : listed (fun s (q : text * N) => bit_text s (fst q) (snd q)) (comma_join (map q_text qs)) (map (fun q => (txt "q", q)) qs)).
  { apply join_listed; [|destruct qs; [congruence|discriminate]]. clear - Hqs Hn. induction Hqs as [|q qs Hq Hqs IH]; constructor; [|exact IH].
    cbn [fst snd]. apply (named_bit (txt "q")); [apply word_q|lia]. }
  assert (Hbq : quiet (comma_join (map q_text qs))).
  { apply join_quiet. rewrite Forall_map. eapply Forall_impl; [|exact Hqs]. intros q Hq'. apply (bit_quiet (txt "q")); [apply word_q|]. cbn in Hq'. lia. }
  assert (Hbe : ends_tight (comma_join (map q_text qs))).
  { apply join_ends; [destruct qs; [congruence|discriminate]|]. rewrite Forall_map. apply Forall_forall. intros q _. apply (bit_line_ends (txt "q")). }
  cbn [op_line]. split.
  - apply quiet_line.
    + apply quiet_app; [apply quiet_word, N1|]. apply quiet_app; [|apply quiet_app; [repeat constructor|exact Hbq]].
      destruct (map fmt as_) as [|s0 l0] eqn:E; [constructor|]. rewrite <- E in *. apply quiet_app; [repeat constructor|].
      apply quiet_app; [now apply join_quiet|repeat constructor].
    + apply starts_app. destruct N1 as [N1 N1']. destruct N1' as [|c s Hc _]; [congruence|]. cbn. now apply word_not_space.
    + repeat apply ends_app. exact Hbe.
  - exists (Apply (txt name) es (map (fun q => (txt "q", q)) qs)). split.
    + rewrite <- N2 at 2. destruct (map fmt as_) as [|s0 l0] eqn:E.
      * inversion E1; subst. apply (text_apply (txt name) (txt " ")); auto; [now rewrite N2|repeat constructor|discriminate].
      * replace (txt name ++ (txt "(" ++ comma_join (s0 :: l0) ++ txt ")") ++ txt " " ++ comma_join (map q_text qs))
          with (txt name ++ [] ++ txt "(" ++ comma_join (s0 :: l0) ++ txt ")" ++ txt " " ++ comma_join (map q_text qs))
          by (rewrite <- !app_assoc; reflexivity).
        apply text_apply_angles; auto; [now rewrite N2|constructor|repeat constructor|apply join_listed; [exact E1|discriminate]].
    + split; [reflexivity|]. split; [reflexivity|].
      change (header n nc (gs ++ [gate_with_angles f (CElem (true, g))])) with
        (QProgram (qp_qregs (header n nc gs)) (qp_cregs (header n nc gs)) (qp_gates (header n nc gs) ++ [gate_with_angles f (CElem (true, g))])
          (qp_warnings (header n nc gs) ++ missing_version (header n nc gs)) true).
      apply (effect_apply vf (header n nc gs) (txt name) es (map f as_) _ qs (Some k)); auto.
      * clear - Hqs. induction Hqs as [|q qs Hq Hqs IH]; constructor; [|exact IH]. cbn [fst snd header qp_qregs]. now apply bit_number_one.
      * unfold to_text. rewrite string_of_list_ascii_of_string. exact Hl.
      * exists g'. split; [exact Hm|]. now rewrite Hg.
Qed.
Lemma measure_op_line vf q bit n nc gs : q < 64 -> q < n -> bit < nc -> n < 2 ^ 64 -> nc < 2 ^ 64 ->
  make_measurement q bit false = Ok (CMeas (2 ^ q) bit false) ->
  line_ok (op_line (QMeasure [q] bit)) /\ exists s, statement_text (op_line (QMeasure [q] bit)) s /\ qubits_declared [s] = [] /\ bits_declared [s] = [] /\
    effect vf (header n nc gs) s (header n nc (gs ++ [CMeas (2 ^ q) bit false])).
Proof.
  intros Hq64 Hq Hb Hn Hnc Hm. assert (q < 2 ^ 64) by lia. split.
  - apply quiet_line; cbn [op_line].
    + apply quiet_app; [repeat constructor|]. apply quiet_app; [apply (bit_quiet (txt "q")); [apply word_q|lia]|].
      apply quiet_app; [repeat constructor|]. apply (bit_quiet (txt "c")); [apply word_c|lia].
    + reflexivity.
    + repeat apply ends_app. reflexivity.
  - exists (Measure (Bit (txt "q") q) (Bit (txt "c") bit)). split; [|split; [reflexivity|split; [reflexivity|]]].
    + apply (text_measure (txt "measure") (txt " ") (q_text q) _ (txt " ") (txt " ") (c_text bit)); try (now repeat constructor); try discriminate; constructor;
        [apply (named_bit (txt "q")); [apply word_q|lia]|apply (named_bit (txt "c")); [apply word_c|lia]].
    + change (header n nc (gs ++ [CMeas (2 ^ q) bit false])) with
        (QProgram (qp_qregs (header n nc gs)) (qp_cregs (header n nc gs)) (qp_gates (header n nc gs) ++ [CMeas (2 ^ q) bit false])
          (qp_warnings (header n nc gs)) (qp_version (header n nc gs))).
      assert (E0 : nc =? 0 = false) by lia.
      apply (effect_measure vf (header n nc gs) _ _ q bit 1).
      * cbn [operand_range header qp_qregs]. now rewrite bit_number_one.
      * cbn [operand_range header qp_cregs]. rewrite E0. now rewrite bit_number_one.
      * reflexivity.
      * intros [|i] g Hg; cbn in Hg; [|destruct i; discriminate]. injection Hg as <-. cbn [N.of_nat]. now rewrite !N.add_0_r.
Qed.
Lemma declared_app q qs : qubits_declared (q :: qs) = qubits_declared [q] ++ qubits_declared qs /\ bits_declared (q :: qs) = bits_declared [q] ++ bits_declared qs.
Proof. destruct q; split; reflexivity. Qed.
Definition item_gates (i : citem) : list cgate := match i with IGate (CElem (_, EI)) => [] | IGate g => [g] | IParam _ _ => [] end.
Lemma triple_inj {A B D} (a a' : A) (b b' : B) (d d' : D) : (a, b, d) = (a', b', d') -> a = a' /\ b = b' /\ d = d'.
Proof. intros E. injection E. auto. Qed.
(** the body of the text *)
Lemma dump_gates_ok vf fmt f is : Forall (from_factory vf) is ->
  (forall i g a, In i is -> In g (item_gates i) -> In a (gate_angles g) -> angle_text (fmt a) (f a)) ->
  forall nq nc body, dump_gates fmt is = Ok (nq, nc, body) ->
  nq = count_needed (flat_map item_qubits is) /\ nc = count_needed (flat_map item_bits is) /\ nc < 2 ^ 64 /\
  exists ss, body = lines ss /\ forall n ncl gs, n < 2 ^ 64 -> nq <= n -> nc <= ncl -> ncl < 2 ^ 64 -> Forall line_ok ss /\
    exists qs, Forall2 statement_text ss qs /\ qubits_declared qs = [] /\ bits_declared qs = [] /\
      effects vf (header n ncl gs) qs (header n ncl (gs ++ map (gate_with_angles f) (flat_map item_gates is))).
Proof.
  induction 1 as [|i is Hi His IH]; intros Ha nq nc body E.
  - cbn in E. injection E as <- <- <-. split; [reflexivity|]. split; [reflexivity|]. split; [reflexivity|]. exists [].
    split; [reflexivity|]. intros n ncl gs _ _ _ _. split; [constructor|]. exists []. repeat split; try constructor. cbn. rewrite app_nil_r. constructor.
  - assert (exists x nq' nc' body', lowered fmt i = Ok x /\ dump_gates fmt is = Ok (nq', nc', body') /\
      (nq, nc, body) = match x with None => (nq', nc', body') | Some o => (N.max (required_qubits o) nq', N.max (required_clbits o) nc', write_op o ++ [newline] ++ body') end) as (x & nq' & nc' & body' & E1 & E2 & E3).
    { cbn [dump_gates] in E. inv_bind E. inv_bind E. inv_bind E. destruct v1 as [[nq' nc'] body']. exists v0, nq', nc', body'.
      split; [unfold lowered; rewrite E0; exact E1|]. split; [exact E2|]. destruct v0; injection E as <- <- <-; reflexivity. }
    destruct (IH (fun j g a Hj => Ha j g a (or_intror Hj)) nq' nc' body' E2) as (I1 & I2 & I3 & ss & I4 & I5). clear IH.
    pose proof (fun g a => Ha i g a (or_introl eq_refl)) as Hai.
    destruct (lowered_written _ _ _ _ Hi E1) as [|g o Hw Ho|q bit Hq Hb Hm].
    + injection E3 as -> -> ->. split; [exact I1|]. split; [exact I2|]. split; [exact I3|]. exists ss. split; [exact I4|exact I5].
    + injection E3 as -> -> ->. assert (R1 : required_qubits o = count_needed (item_qubits (IGate (CElem (true, g)))) /\ required_clbits o = 0).
      { destruct Ho as (name & qs & -> & P & _ & _). cbn [required_qubits required_clbits]. split; [|reflexivity].
        rewrite required_count; [rewrite N.max_0_l; now apply count_perm|].
        destruct (base_operands_distinct (g_base g)) as [_ D]; [apply Hw|]. rewrite Forall_forall in *. intros x Hx.
        assert (x < 64); [|lia]. apply D. eapply Permutation_in; [apply Permutation_app_comm|]. eapply Permutation_in; eauto. }
      destruct R1 as [R1 R2].
      assert (Hne : g <> EI) by (destruct Ho as (? & ? & _ & _ & Hne & _); exact Hne).
      assert (Hig : item_gates (IGate (CElem (true, g))) = [CElem (true, g)]) by (destruct g; [congruence|reflexivity..]).
      cbn [flat_map]. rewrite !count_app, <- I1, <- I2, R1, R2. split; [reflexivity|]. split; [cbn; lia|]. split; [lia|].
      exists (op_line o :: ss). split; [rewrite I4, write_op_line; cbn [lines flat_map]; now rewrite <- !app_assoc|].
      intros n ncl gs Hn Hnq Hnc Hncl. rewrite Hig in *.
      destruct (gate_op_line vf fmt f g o n ncl gs Hw Ho Hn) as (L & q & S1 & S2 & S3 & S4).
      { intros a. apply Hai. now left. }
      { apply count_le. lia. }
      destruct (I5 n ncl (gs ++ [gate_with_angles f (CElem (true, g))])) as (J1 & qs & J2 & J3 & J4 & J5); [lia..|].
      split; [constructor; auto|]. exists (q :: qs). split; [constructor; auto|].
      destruct (declared_app q qs) as [-> ->]. rewrite S2, S3, J3, J4. split; [reflexivity|]. split; [reflexivity|].
      econstructor; [exact S4|]. rewrite <- app_assoc in J5. exact J5.
    + apply triple_inj in E3. destruct E3 as (-> & -> & ->). assert (Hp : 2 ^ q < two64) by (apply N.pow_lt_mono_r; lia).
      assert (Hiq : item_qubits (IGate (CMeas (2 ^ q) bit false)) = [q]) by (cbn [item_qubits]; now apply pow2_vector).
      cbn [flat_map]. rewrite Hiq. cbn [item_bits]. rewrite !count_app, <- I1, <- I2.
      assert (R1 : required_qubits (QMeasure [q] bit) = count_needed [q]).
      { cbn [required_qubits]. rewrite required_count; [lia|]. repeat constructor. lia. }
      assert (R2 : required_clbits (QMeasure [q] bit) = count_needed [bit]).
      { cbn [required_clbits count_needed fold_right]. rewrite N.mod_small by exact Hb. lia. }
      rewrite R1, R2. assert (R3 : count_needed [bit] = bit + 1) by (cbn; lia). assert (R4 : count_needed [q] = q + 1) by (cbn; lia).
      split; [reflexivity|]. split; [reflexivity|]. split; [lia|].
      exists (op_line (QMeasure [q] bit) :: ss). split; [rewrite I4, write_op_line; cbn [lines flat_map]; now rewrite <- !app_assoc|].
      intros n ncl gs Hn Hnq Hnc Hncl.
      destruct (measure_op_line vf q bit n ncl gs) as (L & s & S1 & S2 & S3 & S4); [lia..|exact Hm|].
      destruct (I5 n ncl (gs ++ [CMeas (2 ^ q) bit false])) as (J1 & qs & J2 & J3 & J4 & J5); [lia..|].
      split; [constructor; auto|]. exists (s :: qs). split; [constructor; auto|].
      destruct (declared_app s qs) as [-> ->]. rewrite S2, S3, J3, J4. split; [reflexivity|]. split; [reflexivity|].
      econstructor; [exact S4|]. rewrite <- app_assoc in J5. exact J5.
Qed.
Lemma header_lines n nc : n < 2 ^ 64 -> nc < 2 ^ 64 -> n <> 0 -> exists ss qs,
  lines ss = txt "OPENQASM 2.0;" ++ [newline] ++ txt "include ""qelib1.inc"";" ++ [newline] ++ txt "qreg q[" ++ dec n ++ txt "];" ++ [newline] ++
               (if nc =? 0 then [] else txt "creg c[" ++ dec nc ++ txt "];" ++ [newline]) /\
  Forall line_ok ss /\ Forall2 statement_text ss qs /\ qubits_declared qs = [(txt "q", n)] /\
  bits_declared qs = (if nc =? 0 then [] else [(txt "c", nc)]) /\
  forall vf, effects vf qp_start qs (header n nc []).
Proof.
  intros Hn Hnc H0.
  assert (L1 : line_ok (txt "OPENQASM 2.0")) by (apply quiet_line; [repeat constructor|reflexivity..]).
  assert (L3 : forall w name k, quiet w -> starts_tight w -> word name -> k < 2 ^ 64 -> line_ok (w ++ name ++ txt "[" ++ dec k ++ txt "]")).
  { intros w name k Hw1 Hw2 Hw3 Hk. apply quiet_line; [apply quiet_app; [exact Hw1|now apply bit_quiet]|now apply starts_app|repeat apply ends_app; reflexivity]. }
  assert (S1 : statement_text (txt "OPENQASM 2.0") Version).
  { apply (text_version (txt "OPENQASM") (txt " ")); [reflexivity|repeat constructor|discriminate]. }
  assert (S2 : statement_text (txt "include ""qelib1.inc""") Include).
  { apply (text_include (txt "include") (txt " ") (txt """qelib1.inc""")); [reflexivity|repeat constructor|reflexivity]. }
  assert (S3 : statement_text (txt "qreg " ++ txt "q" ++ txt "[" ++ dec n ++ txt "]") (Qreg (txt "q") n)).
  { apply (text_qreg (txt "qreg") (txt " ") (txt "q" ++ txt "[" ++ dec n ++ txt "]")); [reflexivity|repeat constructor|discriminate|]. apply named_bit; [apply word_q|exact Hn]. }
  destruct (nc =? 0) eqn:Enc.
  - exists [txt "OPENQASM 2.0"; txt "include ""qelib1.inc"""; txt "qreg " ++ txt "q" ++ txt "[" ++ dec n ++ txt "]"], [Version; Include; Qreg (txt "q") n].
    split; [cbn [lines flat_map]; rewrite <- !app_assoc; reflexivity|].
    split; [constructor; [exact L1|]; constructor; [exact include_line|]; constructor; [apply L3; [repeat constructor|reflexivity|apply word_q|exact Hn]|constructor]|].
    split; [repeat (constructor; [assumption|]); constructor|]. split; [reflexivity|]. split; [reflexivity|].
    intros vf. econstructor; [apply effect_version|]. econstructor; [apply effect_include|]. econstructor; [apply effect_qreg; [exact H0|reflexivity]|].
    unfold header. rewrite Enc. constructor.
  - assert (S4 : statement_text (txt "creg " ++ txt "c" ++ txt "[" ++ dec nc ++ txt "]") (Creg (txt "c") nc)).
    { apply (text_creg (txt "creg") (txt " ") (txt "c" ++ txt "[" ++ dec nc ++ txt "]")); [reflexivity|repeat constructor|discriminate|]. apply named_bit; [apply word_c|exact Hnc]. }
    exists [txt "OPENQASM 2.0"; txt "include ""qelib1.inc"""; txt "qreg " ++ txt "q" ++ txt "[" ++ dec n ++ txt "]"; txt "creg " ++ txt "c" ++ txt "[" ++ dec nc ++ txt "]"],
      [Version; Include; Qreg (txt "q") n; Creg (txt "c") nc].
    split; [cbn [lines flat_map]; rewrite <- !app_assoc; reflexivity|].
    split; [constructor; [exact L1|]; constructor; [exact include_line|]; constructor; [apply L3; [repeat constructor|reflexivity|apply word_q|exact Hn]|]; constructor; [apply L3; [repeat constructor|reflexivity|apply word_c|exact Hnc]|constructor]|].
    split; [repeat (constructor; [assumption|]); constructor|]. split; [reflexivity|]. split; [reflexivity|].
    intros vf. econstructor; [apply effect_version|]. econstructor; [apply effect_include|]. econstructor; [apply effect_qreg; [exact H0|reflexivity]|].
    econstructor; [apply effect_creg; [lia|reflexivity]|].
    unfold header. rewrite Enc. constructor.
Qed.
Lemma effects_app vf p a p1 b p2 : effects vf p a p1 -> effects vf p1 b p2 -> effects vf p (a ++ b) p2.
Proof. induction 1; intros H2; [exact H2|]. cbn. econstructor; eauto. Qed.
Definition required (c : circuit) (n : option N) : N := match n with Some n => n | None => qubits_needed c end.
Theorem dumps_loads vf fmt f c n s : Forall (from_factory vf) (c_gates c) -> (forall m, n = Some m -> m < 2 ^ 64) ->
  (forall g a, In g (gates_written c) -> In a (gate_angles g) -> angle_text (fmt a) (f a)) ->
  dumps fmt c n = Ok s -> loads vf s = Ok (reader_of (header (required c n) (bits_needed c) (map (gate_with_angles f) (gates_written c)))).
Proof.
  intros Hc Hm Ha E. unfold dumps in E. inv_bind E. destruct v as [[nq nc] body].
  destruct (dump_gates_ok vf fmt f (c_gates c) Hc) with (nq := nq) (nc := nc) (body := body) as (N1 & N2 & N3 & ss & Eb & HB); [|exact E0|].
  { intros i g a Hi Hg. apply Ha. unfold gates_written. apply in_flat_map. exists i. split; auto. }
  destruct (match n with Some n => n <? nq | None => false end) eqn:Eg; [discriminate|].
  destruct (match n with Some n => n | None => nq end =? 0) eqn:E0'; [discriminate|]. injection E as <-.
  fold (bits_needed c) in N2. fold (qubits_needed c) in N1.
  assert (En : match n with Some n => n | None => nq end = required c n) by (unfold required; destruct n; [reflexivity|exact N1]).
  rewrite En in *. assert (Hn : required c n < 2 ^ 64).
  { unfold required in *. destruct n as [m|]; [now apply Hm|]. rewrite <- N1.
    assert (nq <= 64); [|lia]. rewrite N1. apply count_le. apply Forall_forall. intros x Hx. apply in_flat_map in Hx. destruct Hx as (i & Hi & Hx).
    rewrite Forall_forall in Hc. specialize (Hc i Hi). assert (exists y, lowered fmt i = Ok y) as (y & Ey).
    { clear - E0 Hi. revert nq nc body E0. induction (c_gates c) as [|j js IH]; [destruct Hi|]. intros nq nc body E. cbn [dump_gates] in E.
      inv_bind E. inv_bind E. inv_bind E. destruct Hi as [->|Hi].
      - exists v0. unfold lowered. rewrite E0. exact E1.
      - destruct v1 as [[? ?] ?]. eapply IH; eauto. }
    destruct (lowered_written _ _ _ _ Hc Ey) as [|g o Hw Ho|q bit Hq Hb Hmm].
    - destruct Hx.
    - cbn [item_qubits] in Hx. destruct (base_operands_distinct (g_base g)) as [_ D]; [apply Hw|]. rewrite Forall_forall in D. apply D.
      unfold gate_target_list, gate_control_list in Hx. apply in_app_iff. apply in_app_iff in Hx. destruct Hx; [right|left]; assumption.
    - cbn [item_qubits] in Hx. rewrite pow2_vector in Hx by (apply N.pow_lt_mono_r; lia). destruct Hx as [<-|[]]. exact Hq. }
  assert (Hle : nq <= required c n). { unfold required. destruct n as [m|]; [lia|lia]. }
  destruct (header_lines (required c n) nc Hn N3) as (hs & hqs & Hh & HL & HS & HQ & HC & HE); [lia|].
  destruct (HB (required c n) nc [] Hn Hle (N.le_refl _) N3) as (BL & bqs & BS & BQ & BC & BE).
  match goal with |- loads vf ?t = _ => replace t with (lines (hs ++ ss)) end.
  2: { assert (El : lines (hs ++ ss) = lines hs ++ lines ss) by apply flat_map_app. rewrite El, Hh, <- Eb, <- !app_assoc. reflexivity. }
  rewrite <- N2. apply (loads_lines vf (hs ++ ss) (hqs ++ bqs)).
  - apply Forall_app. now split.
  - now apply Forall2_app.
  - unfold qubits_declared. rewrite flat_map_app. fold (qubits_declared hqs) (qubits_declared bqs). rewrite HQ, BQ. cbn. lia.
  - unfold bits_declared. rewrite flat_map_app. fold (bits_declared hqs) (bits_declared bqs). rewrite HC, BC. destruct (nc =? 0); cbn; lia.
  - eapply effects_app; [apply HE|exact BE].
Qed.
Lemma Ok_inj {A} (a b : A) : Ok a = Ok b -> a = b.
Proof. intros E. now injection E. Qed.
(** what is accepted *)
Lemma dump_gates_accepts vf fmt is : Forall (from_factory vf) is ->
  (Forall (exportable vf) is -> exists x, dump_gates fmt is = Ok x) /\ (~ Forall (exportable vf) is -> dump_gates fmt is = Throw).
Proof.
  induction 1 as [|i is Hi His [IH1 IH2]]; [split; [intros _; eexists; reflexivity|intros H; destruct H; constructor]|].
  assert (D : (exportable vf i /\ exists v x, classify_item i = Ok v /\ lower_to_qasm2 fmt v = Ok x) \/
    (~ exportable vf i /\ (classify_item i = Throw \/ exists v, classify_item i = Ok v /\ lower_to_qasm2 fmt v = Throw))).
  { destruct (lowered fmt i) as [x| |] eqn:E.
    - left. split; [eapply written_exportable; eapply lowered_written; eauto|]. unfold lowered in E. inv_bind E. eauto.
    - right. split; [intros He; destruct (lowered_accepts vf fmt i He) as (x & Ex); congruence|].
      unfold lowered in E. destruct (classify_item i) as [v| |]; [right; exists v; auto|now left|discriminate].
    - exfalso. eapply lowered_total; eauto. }
  destruct D as [(He & v & x & E1 & E2)|(Hne & D)].
  - split.
    + intros H. inversion H; subst. destruct (IH1 H3) as ([[nq nc] body] & E3). cbn [dump_gates]. rewrite E1. cbn [bindR]. rewrite E2. cbn [bindR]. rewrite E3. cbn [bindR].
      destruct x; eexists; reflexivity.
    + intros H. assert (Hn : ~ Forall (exportable vf) is) by (intros H'; apply H; now constructor).
      cbn [dump_gates]. rewrite E1. cbn [bindR]. rewrite E2. cbn [bindR]. rewrite (IH2 Hn). reflexivity.
  - split.
    + intros H. inversion H; subst. contradiction.
    + intros _. cbn [dump_gates]. destruct D as [E|(v & E1 & E2)]; [now rewrite E|]. rewrite E1. cbn [bindR]. now rewrite E2.
Qed.
Theorem dumps_accepts vf fmt c n : Forall (from_factory vf) (c_gates c) ->
  (Forall (exportable vf) (c_gates c) /\ qubits_needed c <= required c n /\ required c n <> 0 -> exists s, dumps fmt c n = Ok s) /\
  (~ (Forall (exportable vf) (c_gates c) /\ qubits_needed c <= required c n /\ required c n <> 0) -> dumps fmt c n = Throw).
Proof.
  intros Hc. destruct (dump_gates_accepts vf fmt _ Hc) as [A1 A2]. unfold dumps.
  assert (Hd : forall x, dump_gates fmt (c_gates c) = Ok x -> fst (fst x) = qubits_needed c).
  { intros x E. clear A1 A2. unfold qubits_needed. revert x E. induction Hc as [|i is Hi His IH]; intros x E; [injection E as <-; reflexivity|].
    cbn [dump_gates] in E. inv_bind E. inv_bind E. inv_bind E. specialize (IH _ E2). destruct v1 as [[nq nc] body]. cbn [fst snd] in IH.
    assert (El : lowered fmt i = Ok v0) by (unfold lowered; rewrite E0; exact E1).
    cbn [flat_map]. rewrite count_app, <- IH. destruct (lowered_written _ _ _ _ Hi El) as [|g o Hw Ho|q bit Hq Hb Hm]; apply Ok_inj in E; subst x; cbn [fst].
    - symmetry. apply N.max_0_l.
    - f_equal. destruct Ho as (name & qs & -> & P & _ & _). cbn [required_qubits]. rewrite required_count; [rewrite N.max_0_l; now apply count_perm|].
      destruct (base_operands_distinct (g_base g)) as [_ D]; [apply Hw|]. rewrite Forall_forall in *. intros x Hx.
      assert (x < 64); [|lia]. apply D. eapply Permutation_in; [apply Permutation_app_comm|]. eapply Permutation_in; eauto.
    - f_equal. cbn [item_qubits]. rewrite pow2_vector by (apply N.pow_lt_mono_r; lia). cbn [required_qubits]. rewrite required_count; [lia|].
      repeat constructor. lia. }
  destruct (Classical_Prop.classic (Forall (exportable vf) (c_gates c))) as [H|H].
  - destruct (A1 H) as (x & E). pose proof (Hd x E) as Eq. rewrite E. destruct x as [[nq nc] body]. cbn [fst] in Eq. cbn [bindR]. subst nq.
    assert (Er : match n with Some n => n | None => qubits_needed c end = required c n) by reflexivity. rewrite Er.
    assert (Eb : match n with Some n => n <? qubits_needed c | None => false end = (required c n <? qubits_needed c)).
    { unfold required. destruct n; [reflexivity|]. symmetry. apply N.ltb_irrefl. }
    rewrite Eb. split.
    + intros (_ & H1 & H2). rewrite (proj2 (N.ltb_ge _ _) H1), (proj2 (N.eqb_neq _ _) H2). eauto.
    + intros Hn. destruct (required c n <? qubits_needed c) eqn:E1; [reflexivity|]. destruct (required c n =? 0) eqn:E2; [reflexivity|].
      exfalso. apply Hn. split; [exact H|]. lia.
  - split; [intros (H' & _); contradiction|]. intros _. now rewrite (A2 H).
Qed.
