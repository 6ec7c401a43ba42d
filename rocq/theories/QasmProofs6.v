(** Reading a program. *)
From Verif Require Export QasmProofs5.
From Coq Require Import Lia ZifyBool ZifyN ZifyNat.
Local Open Scope N_scope.

Definition circuit_of (gs : list cgate) : circuit := Circuit (map IGate gs) (map (fun _ => None) gs).
Definition reader_of (p : qprogram) : reader :=
  Reader (circuit_of (qp_gates p)) (total (qp_qregs p)) (total (qp_cregs p)) (qp_warnings p)
         (regs_from 0 (qp_qregs p)) (regs_from 0 (qp_cregs p)) (qp_version p).
Lemma circuit_of_snoc gs g : add_gate (circuit_of gs) g = circuit_of (gs ++ [g]).
Proof. unfold circuit_of, add_gate. cbn [c_gates c_conds]. now rewrite !map_app. Qed.

Lemma mapR_ok {A B} (f : A -> res B) l m : Circuit.mapR f l = Ok m <-> Forall2 (fun x y => f x = Ok y) l m.
Proof.
  revert m. induction l as [|x l IH]; intros m; cbn [Circuit.mapR].
  - split; [intros E; injection E as <-; constructor|intros H; inversion H; reflexivity].
  - split.
    + intros E. inv_bind E. inv_bind E. injection E as <-. constructor; [assumption|]. now apply IH.
    + intros H. inversion H as [|? y ? m' Hy Hm]; subst. rewrite Hy. cbn [bindR]. apply IH in Hm. now rewrite Hm.
Qed.
Lemma Forall2_weaken {A B} (R S : A -> B -> Prop) l m : (forall x y, R x y -> S x y) -> Forall2 R l m -> Forall2 S l m.
Proof. intros H. induction 1; constructor; auto. Qed.
Lemma opt_ok {A} (o : option A) v : match o with Some v => Ok v | None => Throw end = Ok v <-> o = Some v.
Proof. destruct o; split; intros E; inversion E; reflexivity. Qed.
Lemma has_repeats_NoDup l : has_repeats l = false <-> NoDup l.
Proof.
  induction l as [|x l IH]; [split; [constructor|reflexivity]|]. cbn. rewrite Bool.orb_false_iff.
  change ((fix go (l : list N) := match l with [] => false | x :: r => existsb (N.eqb x) r || go r end) l)%bool with (has_repeats l).
  rewrite IH. split.
  - intros [H1 H2]. constructor; [|exact H2]. intros Hin. assert (E : existsb (N.eqb x) l = true) by (apply existsb_exists; exists x; now rewrite N.eqb_refl).
    congruence.
  - intros H. inversion H as [|? ? H1 H2]; subst. split; [|exact H2]. destruct (existsb (N.eqb x) l) eqn:E; [|reflexivity].
    apply existsb_exists in E. destruct E as (y & Hy & Exy). apply N.eqb_eq in Exy. now subst.
Qed.

(** * Gate names *)
Lemma text_eqb_txt name s : text_eqb name (txt s) = true -> string_of_list_ascii name = s.
Proof. intros H. apply text_eqb_eq in H. subst. apply string_of_list_ascii_of_string. Qed.
Lemma string_txt name s : string_of_list_ascii name = s -> name = txt s.
Proof. intros <-. unfold to_text. now rewrite list_ascii_of_string_of_list_ascii. Qed.
Lemma gate_call_sound name vs qs k : gate_call name vs qs = Ok k -> qelib (string_of_list_ascii name) vs qs k.
Proof.
  intros E. destruct vs as [|u [|v [|w [|? ?]]]]; destruct qs as [|a [|b [|c [|? ?]]]]; try discriminate; cbn [gate_call] in E;
    repeat match type of E with
    | (if text_eqb name ?t then _ else _) = _ => let H := fresh "H" in destruct (text_eqb name t) eqn:H;
        [apply text_eqb_txt in H; rewrite H; injection E as <-; constructor|]
    | Throw = Ok _ => discriminate
    end.
Qed.
Lemma gate_call_iff name vs qs k :
  gate_call (if text_eqb name (txt "u") then txt "u3" else name) vs qs = Ok k <-> qelib (string_of_list_ascii name) vs qs k.
Proof.
  split.
  - intros E. destruct (text_eqb name (txt "u")) eqn:H.
    + apply gate_call_sound in E. change (string_of_list_ascii (txt "u3")) with "u3"%string in E.
      apply text_eqb_txt in H. rewrite H. inversion E; subst. constructor.
    + now apply gate_call_sound.
  - intros H. remember (string_of_list_ascii name) as s eqn:Es. symmetry in Es. apply string_txt in Es. subst name.
    inversion H; subst; reflexivity.
Qed.

Definition warned (p : qprogram) : qprogram :=
  QProgram (qp_qregs p) (qp_cregs p) (qp_gates p) (qp_warnings p ++ missing_version p) true.
Lemma warned_reader p : (if rd_saw_version (reader_of p) then reader_of p
  else rd_version (rd_warn (txt "OPENQASM 2.0 header is missing") (reader_of p))) = reader_of (warned p).
Proof.
  destruct p as [q c g w v]. unfold warned, missing_version, reader_of, rd_version, rd_warn. cbn. destruct v; [now rewrite app_nil_r|reflexivity].
Qed.
Lemma apply_iff vf p name es bits r' :
  (vs <- Circuit.mapR (fun e => match value e with Some v => Ok v | None => Throw end) es;;
   qs <- Circuit.mapR (fun b => match bit_number (qp_qregs p) (fst b) (snd b) with Some k => Ok k | None => Throw end) bits;;
   if has_repeats qs then Throw
   else reader_add_gate vf (if text_eqb name (txt "u") then txt "u3" else name) vs qs (reader_of (warned p))) = Ok r' <->
  exists p', effect vf p (Apply name es bits) p' /\ r' = reader_of p'.
Proof.
  split.
  - intros E. inv_bind E. inv_bind E. destruct (has_repeats v0) eqn:Hr; [discriminate|]. unfold reader_add_gate in E. inv_bind E.
    apply gate_call_iff in E2. apply has_repeats_NoDup in Hr. apply mapR_ok in E0, E1.
    assert (F0 : Forall2 (fun e v => value e = Some v) es v)
      by (eapply Forall2_weaken; [|exact E0]; intros ? ?; apply opt_ok).
    assert (F1 : Forall2 (fun b q => bit_number (qp_qregs p) (fst b) (snd b) = Some q) bits v0)
      by (eapply Forall2_weaken; [|exact E1]; intros ? ?; apply opt_ok).
    destruct v1 as [k|].
    + inv_bind E. injection E as <-. eexists. split.
      * eapply effect_apply with (gs := [CElem (true, v1)]); eauto. cbn. eauto.
      * unfold rd_with_circuit, reader_of, warned. cbn. now rewrite circuit_of_snoc.
    + injection E as <-. eexists. split.
      * eapply effect_apply with (gs := []); eauto. reflexivity.
      * unfold reader_of, warned. cbn. now rewrite app_nil_r.
  - intros (p' & H & ->). inversion H as [| | | | | |p0 n es' vs bits' qs k gs F0 F1 Hd Hq Hk]; subst.
    rewrite (proj2 (mapR_ok (fun e => match value e with Some v => Ok v | None => Throw end) es vs))
      by (eapply Forall2_weaken; [|exact F0]; intros ? ?; apply opt_ok).
    cbn [bindR].
    rewrite (proj2 (mapR_ok (fun b : text * N => match bit_number (qp_qregs p) (fst b) (snd b) with Some k => Ok k | None => Throw end) bits qs))
      by (eapply Forall2_weaken; [|exact F1]; intros ? ?; apply opt_ok).
    cbn [bindR]. rewrite (proj2 (has_repeats_NoDup qs) Hd). unfold reader_add_gate. rewrite (proj2 (gate_call_iff _ _ _ _) Hq). cbn [bindR].
    destruct k as [k|].
    + destruct Hk as (g & Eg & ->). rewrite Eg. cbn [bindR]. unfold rd_with_circuit, reader_of, warned. cbn. now rewrite circuit_of_snoc.
    + subst gs. unfold reader_of, warned. cbn. now rewrite app_nil_r.
Qed.

(** * Gate statements *)
Lemma listed_bits_ends s bits : listed (fun s (q : text * N) => bit_text s (fst q) (snd q)) s bits -> starts_tight s /\ ends_tight s.
Proof.
  assert (B : forall s n i, bit_text s n i -> starts_tight s /\ ends_tight s).
  { intros t n i H. destruct H as [name s1 s2 ds s3 [Hn Hw] _ _ _ _ _]. split.
    - apply starts_app. destruct Hw as [|c name Hc _]; [congruence|]. cbn. now apply word_not_space.
    - repeat apply ends_app. reflexivity. }
  induction 1 as [s x Hx|s x s1 s2 r xs Hx H1 H2 Hr IH]; [eapply B; eauto|]. destruct (B _ _ _ Hx) as [A _]. split.
  - now apply starts_app.
  - repeat apply ends_app. apply IH.
Qed.
Lemma listed_bits_head s bits : listed (fun s (q : text * N) => bit_text s (fst q) (snd q)) s bits ->
  exists c r, s = c :: r /\ Ascii.eqb c "(" = false.
Proof.
  assert (B : forall s n i, bit_text s n i -> exists c r, s = c :: r /\ Ascii.eqb c "(" = false).
  { intros t n i H. destruct H as [name s1 s2 ds s3 [Hn Hw] _ _ _ _ _]. destruct Hw as [|c name Hc _]; [congruence|].
    exists c. eexists. split; [reflexivity|]. now apply word_facts. }
  intros H. destruct H as [s x Hx|s x s1 s2 r xs Hx H1 H2 Hr]; [eapply B; eauto|].
  destruct (B _ _ _ Hx) as (c & r' & -> & Hc). exists c. eexists. split; [reflexivity|exact Hc].
Qed.
Lemma pad_left a s : spaces a -> tight s -> trim (a ++ s) = s.
Proof. intros Ha Hs. rewrite <- (app_nil_r s) at 1. apply trim_pad; auto. constructor. Qed.

Section Apply.
  Variable vf : bool.
  Variable p : qprogram.
  Hypothesis Hq : total (qp_qregs p) < 2 ^ 64.
  Definition tail (name : text) (x : list R * text) : res reader :=
    let '(params, rest) := x in
    operands <- split_comma_list rest;;
    qubits <- Circuit.mapR (fun o => parse_indexed_register o (rd_qregs (reader_of (warned p)))) operands;;
    if has_repeats qubits then Throw else reader_add_gate vf name params qubits (reader_of (warned p)).
  Lemma tail_ok name vs s bits : listed (fun s q => bit_text s (fst q) (snd q)) s bits ->
    tail name (vs, s) =
    (qs <- Circuit.mapR (fun b => match bit_number (qp_qregs p) (fst b) (snd b) with Some k => Ok k | None => Throw end) bits;;
     if has_repeats qs then Throw else reader_add_gate vf name vs qs (reader_of (warned p))).
  Proof.
    intros H. destruct (split_operands (qp_qregs p) s bits Hq H) as (ps & E & M). unfold tail. rewrite E. cbn [bindR].
    change (rd_qregs (reader_of (warned p))) with (regs_from 0 (qp_qregs p)). now rewrite M.
  Qed.
  Lemma parse_gate_word k R : word k -> not_word R ->
    parse_gate vf (k ++ R) (reader_of p) =
    (x <- match trim R with
          | c :: _ => if Ascii.eqb c "(" then
               match close_paren (trim R) 0 0 with
               | None => Throw
               | Some close =>
                 ps <- split_comma_list (substr (trim R) 1 (close - 1));;
                 params <- Circuit.mapR parse_expr ps;;
                 Ok (params, trim (skipn (close + 1) (trim R)))
               end
             else Ok ([], trim R)
          | [] => Ok ([], trim R) end;;
     tail (if text_eqb (lower k) (txt "u") then txt "u3" else lower k) x).
  Proof.
    intros [Hk Hw] HR. unfold parse_gate. cbv zeta. rewrite warned_reader.
    assert (E1 : take_while is_word (k ++ R) = k).
    { apply take_while_app; [exact Hw|]. destruct R; [exact I|exact HR]. }
    assert (E2 : drop_while is_word (k ++ R) = R).
    { apply drop_while_app_stop; [exact Hw|]. destruct R; [exact I|exact HR]. }
    rewrite E1, E2. destruct k as [|c k]; [congruence|]. reflexivity.
  Qed.
  Lemma gate_plain k sp s bits : word k -> spaces sp -> sp <> [] -> listed (fun s q => bit_text s (fst q) (snd q)) s bits ->
    forall r', parse_gate vf (k ++ sp ++ s) (reader_of p) = Ok r' <-> exists p', effect vf p (Apply (lower k) [] bits) p' /\ r' = reader_of p'.
  Proof.
    intros Hk Hsp Hne Hl r'. rewrite parse_gate_word by auto using not_word_spaces.
    destruct (listed_bits_ends _ _ Hl) as [T1 T2]. rewrite pad_left by auto using tight_of.
    destruct (listed_bits_head _ _ Hl) as (c & r & Es & Hc).
    replace (match s with c :: _ => _ | [] => _ end) with (Ok (@nil R, s)) by (rewrite Es, Hc; reflexivity).
    cbn [bindR]. rewrite (tail_ok _ _ _ bits) by exact Hl. rewrite <- apply_iff. reflexivity.
  Qed.
  Lemma gate_group k sp t sp' s bits : word k -> spaces sp -> balanced t -> spaces sp' ->
    listed (fun s q => bit_text s (fst q) (snd q)) s bits ->
    parse_gate vf (k ++ sp ++ txt "(" ++ t ++ txt ")" ++ sp' ++ s) (reader_of p) =
    (ps <- split_comma_list t;; vs <- Circuit.mapR parse_expr ps;;
     tail (if text_eqb (lower k) (txt "u") then txt "u3" else lower k) (vs, s)).
  Proof.
    intros Hk Hsp Ht Hsp' Hl. destruct (listed_bits_ends _ _ Hl) as [T1 T2].
    rewrite parse_gate_word; [|exact Hk|].
    2: { destruct Hsp as [|c sp Hc _]; [reflexivity|]. cbn. now apply space_not_word. }
    rewrite pad_left; [|exact Hsp|apply tight_of; [reflexivity|repeat apply ends_app; exact T2]].
    rewrite close_paren_group by exact Ht. cbn [app]. change (txt "(" ++ t ++ txt ")" ++ sp' ++ s) with ("("%char :: t ++ txt ")" ++ sp' ++ s).
    cbv iota. change (Ascii.eqb "(" "(") with true. cbv iota.
    replace (1 + length t - 1)%nat with (length t) by lia.
    replace (substr ("("%char :: t ++ txt ")" ++ sp' ++ s) 1 (length t)) with t
      by (symmetry; change ("("%char :: t ++ txt ")" ++ sp' ++ s) with ([ "("%char ] ++ t ++ txt ")" ++ sp' ++ s); apply (substr_mid ["("%char])).
    replace (skipn (1 + length t + 1) ("("%char :: t ++ txt ")" ++ sp' ++ s)) with (sp' ++ s).
    2: { symmetry. replace ("("%char :: t ++ txt ")" ++ sp' ++ s) with ((("("%char :: t) ++ txt ")") ++ sp' ++ s) by (now rewrite <- app_assoc).
         apply skipn_exact. rewrite app_length. cbn [length txt to_text list_ascii_of_string]. lia. }
    rewrite pad_left by auto using tight_of.
    destruct (split_comma_list t) as [ps| |]; cbn [bindR]; try reflexivity.
    destruct (Circuit.mapR parse_expr ps) as [vs| |]; reflexivity.
  Qed.
  Lemma gate_empty k sp sp' sp'' s bits : word k -> spaces sp -> spaces sp' -> spaces sp'' ->
    listed (fun s q => bit_text s (fst q) (snd q)) s bits ->
    forall r', parse_gate vf (k ++ sp ++ txt "(" ++ sp' ++ txt ")" ++ sp'' ++ s) (reader_of p) = Ok r' <->
      exists p', effect vf p (Apply (lower k) [] bits) p' /\ r' = reader_of p'.
  Proof.
    intros Hk H1 H2 H3 Hl r'. rewrite (gate_group k sp sp' sp'' s bits) by auto using balanced_spaces.
    rewrite split_spaces by exact H2. cbn [bindR Circuit.mapR]. rewrite (tail_ok _ _ _ bits) by exact Hl. rewrite <- apply_iff. reflexivity.
  Qed.
  Lemma gate_listed k sp as_ es sp' s bits : word k -> spaces sp -> spaces sp' -> listed expression as_ es ->
    listed (fun s q => bit_text s (fst q) (snd q)) s bits ->
    forall r', parse_gate vf (k ++ sp ++ txt "(" ++ as_ ++ txt ")" ++ sp' ++ s) (reader_of p) = Ok r' <->
      exists p', effect vf p (Apply (lower k) es bits) p' /\ r' = reader_of p'.
  Proof.
    intros Hk H1 H2 Ha Hl r'. rewrite (gate_group k sp as_ sp' s bits); auto.
    2: { eapply listed_balanced; [|exact Ha]. intros t e He. now apply (expression_shape t e). }
    destruct (split_angles _ _ Ha) as (ps & E & M). rewrite E. cbn [bindR]. rewrite M. rewrite <- apply_iff.
    destruct (Circuit.mapR _ es) as [vs| |]; cbn [bindR]; [|split; discriminate..].
    rewrite (tail_ok _ _ _ bits) by exact Hl. reflexivity.
  Qed.
End Apply.

(** * Measurements *)
Lemma find_arrow a r : Forall (fun c => Ascii.eqb c "-" = false) a -> find_text (txt "->") (a ++ txt "->" ++ r) = Some (length a).
Proof.
  induction 1 as [|c a Hc Ha IH].
  { cbn [app length]. pose proof (starts_with_refl (txt "->") r) as E. cbn [txt to_text list_ascii_of_string app] in *. cbn [find_text]. now rewrite E. }
  cbn [app find_text length].
  change (starts_with (c :: a ++ txt "->" ++ r) (txt "->")) with (Ascii.eqb c "-" && starts_with (a ++ txt "->" ++ r) (txt ">"))%bool.
  rewrite Hc. cbn [andb]. match goal with |- context [find_text ?x ?y] => rewrite (IH : find_text x y = _) end. reflexivity.
Qed.
Lemma operand_facts s o : operand_text s o -> tight s /\ Forall (fun c => Ascii.eqb c "-" = false) s.
Proof.
  assert (W : forall w, Forall (fun c => is_word c = true) w -> Forall (fun c => Ascii.eqb c "-" = false) w).
  { intros w. apply Forall_impl. intros c Hc. apply word_facts in Hc. tauto. }
  assert (S : forall w, spaces w -> Forall (fun c => Ascii.eqb c "-" = false) w).
  { intros w. apply Forall_impl. intros c Hc. apply space_facts in Hc. tauto. }
  intros [s' name i H|name H]; (split; [|]).
  - eapply bit_text_tight; eauto.
  - destruct H as [name s1 s2 ds s3 [_ Hw] H1 H2 H3 Hn Hd]. pose proof (digits_word ds Hn Hd) as [_ Hdw].
    repeat (apply Forall_app; split); auto; repeat constructor.
  - now apply word_tight.
  - apply W, H.
Qed.
Lemma parse_operand ds s o : total ds < 2 ^ 64 -> operand_text s o ->
  parse_measure_register_operand s (regs_from 0 ds) =
  match operand_range ds o with Some (st, k) => Ok (Register st k) | None => Throw end.
Proof.
  intros Ht H. unfold parse_measure_register_operand. rewrite (trim_tight s) by (eapply operand_facts; eauto).
  destruct H as [s name i H|name H]; cbn [operand_range].
  - assert (E : exists n, find_char "[" s = Some n).
    { destruct H as [name s1 s2 ds' s3 [_ Hw] H1 _ _ _ _]. exists (length (name ++ s1)).
      replace (name ++ s1 ++ txt "[" ++ s2 ++ ds' ++ s3 ++ txt "]") with ((name ++ s1) ++ txt "[" ++ s2 ++ ds' ++ s3 ++ txt "]") by (now rewrite <- app_assoc).
      rewrite find_char_app.
      - change (find_char "[" (txt "[" ++ s2 ++ ds' ++ s3 ++ txt "]")) with (Some 0%nat). cbn [option_map]. now rewrite Nat.add_0_r.
      - apply Forall_app. split; [eapply Forall_impl; [|exact Hw]|eapply Forall_impl; [|exact H1]]; intros c Hc; [apply word_facts in Hc|apply space_facts in Hc]; tauto. }
    destruct E as (n & ->). rewrite (parse_bit ds s name i) by auto. destruct (bit_number ds name i); reflexivity.
  - assert (E : forall c, (c = "["%char \/ c = "]"%char) -> find_char c name = None).
    { intros c Hc. apply find_char_none. eapply Forall_impl; [|exact (proj2 H)]. intros d Hd. apply word_facts in Hd.
      destruct Hc as [->| ->]; tauto. }
    rewrite !E by auto. rewrite find_regs_from. destruct (range_of ds name) as [[st k]|]; reflexivity.
Qed.
Definition measured (p : qprogram) (gs : list cgate) : qprogram :=
  QProgram (qp_qregs p) (qp_cregs p) (qp_gates p ++ gs) (qp_warnings p) (qp_version p).
Lemma add_measurements_iff k : forall i q c p r', q + i + N.of_nat k < 2 ^ 64 -> c + i + N.of_nat k < 2 ^ 64 ->
  add_measurements k i q c (reader_of p) = Ok r' <->
  exists gs, length gs = k /\
    (forall j g, nth_error gs j = Some g -> make_measurement (q + i + N.of_nat j) (c + i + N.of_nat j) false = Ok g) /\
    r' = reader_of (measured p gs).
Proof.
  induction k as [|k IH]; intros i q c p r' B1 B2; cbn [add_measurements].
  - split.
    + intros E. injection E as <-. exists []. split; [reflexivity|]. split; [intros [|j] g Hj; discriminate|].
      unfold measured, reader_of. cbn. now rewrite app_nil_r.
    + intros (gs & El & _ & ->). destruct gs; [|discriminate]. unfold measured, reader_of. cbn. now rewrite app_nil_r.
  - rewrite (N.mod_small (q + i)) by lia. rewrite (N.mod_small (c + i)) by lia.
    assert (R : forall g, rd_with_circuit (add_gate (rd_circuit (reader_of p)) g) (reader_of p) = reader_of (measured p [g])).
    { intros g. unfold rd_with_circuit, reader_of, measured. cbn. now rewrite circuit_of_snoc. }
    split.
    + intros E. inv_bind E. rewrite R in E. apply IH in E; [|lia..]. destruct E as (gs & El & Hg & ->).
      exists (v :: gs). split; [cbn; now rewrite El|]. split.
      * intros [|j] g Hj; cbn in Hj; [injection Hj as <-; rewrite !N.add_0_r; exact E0|].
        specialize (Hg j g Hj). replace (q + i + N.of_nat (S j)) with (q + (i + 1) + N.of_nat j) by lia.
        replace (c + i + N.of_nat (S j)) with (c + (i + 1) + N.of_nat j) by lia. exact Hg.
      * unfold measured, reader_of. cbn. rewrite <- app_assoc. reflexivity.
    + intros (gs & El & Hg & ->). destruct gs as [|g gs]; [discriminate|]. cbn in El. injection El as El.
      pose proof (Hg 0%nat g eq_refl) as E0. rewrite !N.add_0_r in E0. rewrite E0. cbn [bindR]. rewrite R.
      apply IH; [lia..|]. exists gs. split; [exact El|]. split.
      * intros j g' Hj. specialize (Hg (S j) g' Hj). replace (q + (i + 1) + N.of_nat j) with (q + i + N.of_nat (S j)) by lia.
        replace (c + (i + 1) + N.of_nat j) with (c + i + N.of_nat (S j)) by lia. exact Hg.
      * unfold measured, reader_of. cbn. rewrite <- app_assoc. reflexivity.
Qed.
Lemma operand_range_bound ds o st k : operand_range ds o = Some (st, k) -> st + k <= total ds.
Proof.
  destruct o as [name i|name]; cbn [operand_range].
  - destruct (bit_number ds name i) as [b|] eqn:E; cbn [option_map]; [|discriminate]. intros H. injection H as <- <-.
    apply bit_number_bound in E. lia.
  - apply range_bound.
Qed.
Lemma parse_measure_iff vf p k sp s1 q sp1 sp2 s2 c r' :
  total (qp_qregs p) < 2 ^ 64 -> total (qp_cregs p) < 2 ^ 64 -> length k = 7%nat -> spaces sp -> spaces sp1 -> spaces sp2 ->
  operand_text s1 q -> operand_text s2 c ->
  parse_measure (k ++ sp ++ s1 ++ sp1 ++ txt "->" ++ sp2 ++ s2) (reader_of p) = Ok r' <->
  exists p', effect vf p (Measure q c) p' /\ r' = reader_of p'.
Proof.
  intros Tq Tc Lk Hsp H1 H2 O1 O2. unfold parse_measure. rewrite skipn_exact by auto.
  destruct (operand_facts _ _ O1) as [T1 N1]. destruct (operand_facts _ _ O2) as [T2 N2].
  assert (E1 : exists c1 r1, s1 = c1 :: r1 /\ is_space c1 = false).
  { destruct O1 as [s nm i [name s1' s2' ds s3 [Hn Hw] _ _ _ _ _]|name [Hn Hw]]; (destruct Hw as [|c1 name Hc _]; [congruence|]);
      exists c1; eexists; (split; [reflexivity|now apply word_not_space]). }
  assert (E2 : ends_tight s2).
  { destruct O2 as [s nm i [name s1' s2' ds s3 [Hn Hw] _ _ _ _ _]|name [Hn Hw]]; [repeat apply ends_app; reflexivity|].
    unfold ends_tight. destruct (rev name) as [|c1 r] eqn:E.
    - apply Hn. rewrite <- (rev_involutive name), E. reflexivity.
    - apply word_not_space. rewrite Forall_forall in Hw. apply Hw. apply in_rev. rewrite E. now left. }
  assert (E3 : trim (sp ++ s1 ++ sp1 ++ txt "->" ++ sp2 ++ s2) = s1 ++ sp1 ++ txt "->" ++ sp2 ++ s2).
  { apply pad_left; [exact Hsp|]. apply tight_of; [|repeat apply ends_app; exact E2].
    apply starts_app. destruct E1 as (c1 & r1 & -> & Hc). exact Hc. }
  rewrite E3. replace (s1 ++ sp1 ++ txt "->" ++ sp2 ++ s2) with ((s1 ++ sp1) ++ txt "->" ++ sp2 ++ s2) by (now rewrite <- app_assoc).
  assert (NS : Forall (fun c => Ascii.eqb c "-" = false) (s1 ++ sp1)).
  { apply Forall_app. split; [exact N1|]. eapply Forall_impl; [|exact H1]. intros d Hd. apply space_facts in Hd. tauto. }
  rewrite find_arrow by exact NS. cbv iota.
  replace (trim (substr ((s1 ++ sp1) ++ txt "->" ++ sp2 ++ s2) 0 (length (s1 ++ sp1)))) with s1.
  2: { unfold substr. cbn [skipn]. rewrite firstn_exact by reflexivity. symmetry. rewrite <- (app_nil_l (s1 ++ sp1)). apply trim_pad; auto. constructor. }
  replace (trim (skipn (length (s1 ++ sp1) + 2) ((s1 ++ sp1) ++ txt "->" ++ sp2 ++ s2))) with s2.
  2: { replace ((s1 ++ sp1) ++ txt "->" ++ sp2 ++ s2) with (((s1 ++ sp1) ++ txt "->") ++ sp2 ++ s2) by (now rewrite <- app_assoc).
       rewrite skipn_exact; [symmetry; now apply pad_left|]. rewrite !app_length. reflexivity. }
  change (rd_qregs (reader_of p)) with (regs_from 0 (qp_qregs p)). change (rd_cregs (reader_of p)) with (regs_from 0 (qp_cregs p)).
  rewrite (parse_operand _ _ q) by auto. rewrite (parse_operand _ _ c) by auto.
  destruct (operand_range (qp_qregs p) q) as [[qs kq]|] eqn:Rq; cbn [bindR].
  2: { split; [discriminate|]. intros (p' & H & _). inversion H; subst. congruence. }
  destruct (operand_range (qp_cregs p) c) as [[cs kc]|] eqn:Rc; cbn [bindR].
  2: { split; [discriminate|]. intros (p' & H & _). inversion H; subst. congruence. }
  cbn [r_size r_offset]. pose proof (operand_range_bound _ _ _ _ Rq). pose proof (operand_range_bound _ _ _ _ Rc).
  destruct (kq =? kc) eqn:Ek.
  2: { split; [discriminate|]. intros (p' & H' & _). inversion H'; subst. assert (kq = kc) by congruence. lia. }
  assert (kq = kc) by lia. subst kc. rewrite add_measurements_iff by lia. split.
  - intros (gs & El & Hg & ->). exists (measured p gs). split; [|reflexivity]. econstructor; eauto.
    intros i g Hi. specialize (Hg i g Hi). now rewrite !N.add_0_r in Hg.
  - intros (p' & H' & ->). inversion H' as [| | | | |p0 q0 c0 qs0 cs0 k0 gs A1 A2 A3 A4|]; subst.
    rewrite Rq in A1. injection A1 as <- <-. rewrite Rc in A2. injection A2 as <-. exists gs.
    split; [exact A3|]. split; [|reflexivity]. intros j g Hj. rewrite !N.add_0_r. now apply A4.
Qed.

(** * Declarations *)
Lemma decl_size s name size k sp : length k = 4%nat -> spaces sp -> bit_text s name size -> size < 2 ^ 64 ->
  parse_register_decl (k ++ sp ++ s) 4 = (if size =? 0 then Throw else Ok size).
Proof.
  intros Lk Hsp Hs Hsz. unfold parse_register_decl. rewrite skipn_exact by auto. rewrite pad_left by (eauto using bit_text_tight).
  destruct (bracketed_bit _ _ _ Hs) as (ds & E & Hn & Hd & ->). rewrite E. rewrite parse_u64_digits by auto.
  rewrite (proj2 (N.leb_gt _ _)) by exact Hsz. reflexivity.
Qed.
Lemma decl_name s name size k sp : length k = 4%nat -> spaces sp -> bit_text s name size -> parse_register_name (k ++ sp ++ s) 4 = Ok name.
Proof.
  intros Lk Hsp Hs. unfold parse_register_name. rewrite skipn_exact by auto. rewrite pad_left by (eauto using bit_text_tight).
  destruct (bracketed_bit _ _ _ Hs) as (ds & E & _). unfold bracketed in E.
  destruct (find_char "[" s) as [lb|]; [|discriminate]. destruct (find_char "]" s) as [rb|]; [|discriminate].
  destruct (Nat.eqb (rb + 1) (length s) && Nat.leb lb rb)%bool; [|discriminate]. injection E as E _. now rewrite E.
Qed.

(** * Statements *)
Definition grown (p : qprogram) (q : qstatement) : Prop :=
  total (qp_qregs p ++ qubits_declared [q]) < 2 ^ 64 /\ total (qp_cregs p ++ bits_declared [q]) < 2 ^ 64.
Lemma keyword_word k w : lower k = w -> w <> [] -> Forall (fun c => is_word c = true) w -> word k.
Proof. intros <- Hn H. split; [intros ->; now apply Hn|now apply lower_words]. Qed.
Lemma lower_spaces sp : spaces sp -> spaces (lower sp).
Proof. unfold spaces, lower. rewrite Forall_map. apply Forall_impl. intros c. now rewrite to_lower_space. Qed.
Ltac words := repeat (constructor; [reflexivity|]); constructor.
Lemma dispatch vf k R r : tight (k ++ R) -> Forall (fun c => is_word c = true) k -> not_word R -> forall loc,
  handle_statement vf (Statement (k ++ R) loc) r =
  (let low := lower k in let stmt := k ++ R in
    if text_eqb low (txt "openqasm") && text_eqb (trim (skipn 8 (lower stmt))) (txt "2.0") then Ok (rd_version r)
    else if text_eqb low (txt "include") then if text_eqb (trim (skipn 7 (lower stmt))) (txt """qelib1.inc""") then Ok r else Throw
    else if text_eqb low (txt "qreg") then
      name <- parse_register_name stmt 4;;
      match find_register name (rd_qregs r) with
      | Some _ => Throw
      | None =>
        size <- parse_register_decl stmt 4;;
        Ok (Reader (rd_circuit r) ((rd_n_qubits r + size) mod 2 ^ 64) (rd_n_clbits r) (rd_warnings r)
                   (rd_qregs r ++ [(name, Register (rd_n_qubits r) size)]) (rd_cregs r) (rd_saw_version r))
      end
    else if text_eqb low (txt "creg") then
      name <- parse_register_name stmt 4;;
      match find_register name (rd_cregs r) with
      | Some _ => Throw
      | None =>
        size <- parse_register_decl stmt 4;;
        Ok (Reader (rd_circuit r) (rd_n_qubits r) ((rd_n_clbits r + size) mod 2 ^ 64) (rd_warnings r)
                   (rd_qregs r) (rd_cregs r ++ [(name, Register (rd_n_clbits r) size)]) (rd_saw_version r))
      end
    else if text_eqb low (txt "barrier") then Ok (rd_warn (txt "barrier is ignored") r)
    else if text_eqb low (txt "measure") then parse_measure stmt r
    else if existsb (text_eqb low) [txt "reset"; txt "if"; txt "gate"; txt "opaque"] then Throw
    else parse_gate vf stmt r).
Proof.
  intros Ht Hk HR loc. unfold handle_statement. cbv zeta. cbn [st_text].
  rewrite (trim_tight (k ++ R)) by exact Ht.
  assert (S : forall w, Forall (fun c => is_word c = true) w -> starts_with_word (lower (k ++ R)) w = text_eqb (lower k) w).
  { intros w Hw. rewrite lower_app. apply starts_with_word_split; [now apply lower_words|now apply not_word_lower|exact Hw]. }
  rewrite !S by words. cbn [existsb]. rewrite !S by words. reflexivity.
Qed.
Theorem handle_iff vf p st q : tight (st_text st) -> statement_text (st_text st) q -> grown p q ->
  forall r', handle_statement vf st (reader_of p) = Ok r' <-> exists p', effect vf p q p' /\ r' = reader_of p'.
Proof.
  destruct st as [s loc]. cbn [st_text]. intros Ht Hs [Tq Tc] r'. rewrite total_app in Tq, Tc.
  destruct Hs as [k sp Hk Hsp Hne|k sp file Hk Hsp Hf|k sp s name size Hk Hsp Hne Hb|k sp s name size Hk Hsp Hne Hb|k s Hk Hr
    |k sp s1 q sp1 sp2 s2 c Hk Hsp Hne H1 H2 O1 O2|k sp s qs Hw Hn Hsp Hne Hl|k sp sp' sp'' s qs Hw Hn H1 H2 H3 Hl
    |k sp as_ es sp' s qs Hw Hn H1 H2 Ha Hl|k s Hk Hr].
  - destruct (keyword_word _ _ Hk) as [_ Hw]; [discriminate|words|]. rewrite dispatch by auto using not_word_spaces. cbv zeta. rewrite Hk.
    assert (E : trim (skipn 8 (lower (k ++ sp ++ txt "2.0"))) = txt "2.0").
    { rewrite lower_app. rewrite skipn_exact by (now rewrite Hk). rewrite lower_app. apply pad_left; [now apply lower_spaces|].
      right. split; reflexivity. }
    rewrite E. cbn. split.
    + intros E'. injection E' as <-. eexists. split; [constructor|reflexivity].
    + intros (p' & H & ->). inversion H; subst. reflexivity.
  - destruct (keyword_word _ _ Hk) as [_ Hw]; [discriminate|words|].
    assert (HR : not_word (sp ++ file)).
    { destruct Hsp as [|c sp Hc _]; [|cbn; now apply space_not_word]. cbn [app]. destruct file as [|c file]; [discriminate|].
      cbn in Hf. injection Hf as Hc _. cbn. rewrite <- to_lower_word, Hc. reflexivity. }
    rewrite dispatch by auto. cbv zeta. rewrite Hk.
    assert (E : trim (skipn 7 (lower (k ++ sp ++ file))) = txt """qelib1.inc""").
    { rewrite lower_app. rewrite skipn_exact by (now rewrite Hk). rewrite lower_app, Hf. apply pad_left; [now apply lower_spaces|].
      right. split; reflexivity. }
    rewrite E. cbn. split.
    + intros E'. injection E' as <-. eexists. split; [constructor|reflexivity].
    + intros (p' & H & ->). inversion H; subst. reflexivity.
  - destruct (keyword_word _ _ Hk) as [_ Hw]; [discriminate|words|]. rewrite dispatch by auto using not_word_spaces. cbv zeta. rewrite Hk.
    assert (Lk : length k = 4%nat) by (rewrite <- lower_length, Hk; reflexivity).
    cbn in Tq. change (text_eqb (txt "qreg") (txt "openqasm")) with false. change (text_eqb (txt "qreg") (txt "include")) with false.
    change (text_eqb (txt "qreg") (txt "qreg")) with true. cbn [andb]. cbv iota.
    rewrite (decl_name s name size) by auto. rewrite (decl_size s name size) by (auto; lia). cbn [bindR].
    change (rd_qregs (reader_of p)) with (regs_from 0 (qp_qregs p)). rewrite find_regs_from.
    destruct (range_of (qp_qregs p) name) as [[st k']|] eqn:Er; cbn [option_map].
    { split; [discriminate|]. intros (p' & H & _). inversion H; subst. congruence. }
    destruct (size =? 0) eqn:E0; cbn [bindR].
    { split; [discriminate|]. intros (p' & H & _). inversion H; subst. lia. }
    match goal with |- Ok ?x = _ <-> _ => assert (E : x = reader_of (QProgram (qp_qregs p ++ [(name, size)]) (qp_cregs p) (qp_gates p) (qp_warnings p) (qp_version p))) end.
    { unfold reader_of. cbn [rd_circuit rd_n_qubits rd_n_clbits rd_warnings rd_qregs rd_cregs rd_saw_version qp_qregs qp_cregs qp_gates qp_warnings qp_version].
      rewrite regs_from_app, total_app. cbn [regs_from total fold_right snd]. rewrite N.add_0_l, N.add_0_r. rewrite N.mod_small by lia. reflexivity. }
    rewrite E. split.
    + intros E'. injection E' as <-. eexists. split; [constructor; [lia|exact Er]|reflexivity].
    + intros (p' & H & ->). inversion H; subst. reflexivity.
  - destruct (keyword_word _ _ Hk) as [_ Hw]; [discriminate|words|]. rewrite dispatch by auto using not_word_spaces. cbv zeta. rewrite Hk.
    assert (Lk : length k = 4%nat) by (rewrite <- lower_length, Hk; reflexivity).
    cbn in Tc. change (text_eqb (txt "creg") (txt "openqasm")) with false. change (text_eqb (txt "creg") (txt "include")) with false.
    change (text_eqb (txt "creg") (txt "qreg")) with false. change (text_eqb (txt "creg") (txt "creg")) with true. cbn [andb]. cbv iota.
    rewrite (decl_name s name size) by auto. rewrite (decl_size s name size) by (auto; lia). cbn [bindR].
    change (rd_cregs (reader_of p)) with (regs_from 0 (qp_cregs p)). rewrite find_regs_from.
    destruct (range_of (qp_cregs p) name) as [[st k']|] eqn:Er; cbn [option_map].
    { split; [discriminate|]. intros (p' & H & _). inversion H; subst. congruence. }
    destruct (size =? 0) eqn:E0; cbn [bindR].
    { split; [discriminate|]. intros (p' & H & _). inversion H; subst. lia. }
    match goal with |- Ok ?x = _ <-> _ => assert (E : x = reader_of (QProgram (qp_qregs p) (qp_cregs p ++ [(name, size)]) (qp_gates p) (qp_warnings p) (qp_version p))) end.
    { unfold reader_of. cbn [rd_circuit rd_n_qubits rd_n_clbits rd_warnings rd_qregs rd_cregs rd_saw_version qp_qregs qp_cregs qp_gates qp_warnings qp_version].
      rewrite (regs_from_app 0 (qp_cregs p)), total_app. cbn [regs_from total fold_right snd]. rewrite N.add_0_l, N.add_0_r. rewrite N.mod_small by lia. reflexivity. }
    rewrite E. split.
    + intros E'. injection E' as <-. eexists. split; [constructor; [lia|exact Er]|reflexivity].
    + intros (p' & H & ->). inversion H; subst. reflexivity.
  - destruct (keyword_word _ _ Hk) as [_ Hw]; [discriminate|words|]. rewrite dispatch by auto. cbv zeta. rewrite Hk. split.
    + intros E'. cbn in E'. injection E' as <-. eexists. split; [constructor|reflexivity].
    + intros (p' & H & ->). inversion H; subst. reflexivity.
  - destruct (keyword_word _ _ Hk) as [_ Hw]; [discriminate|words|]. rewrite dispatch by auto using not_word_spaces. cbv zeta. rewrite Hk.
    change (text_eqb (txt "measure") (txt "openqasm")) with false. change (text_eqb (txt "measure") (txt "include")) with false.
    change (text_eqb (txt "measure") (txt "qreg")) with false. change (text_eqb (txt "measure") (txt "creg")) with false.
    change (text_eqb (txt "measure") (txt "barrier")) with false. change (text_eqb (txt "measure") (txt "measure")) with true. cbn [andb]. cbv iota.
    apply parse_measure_iff; auto; try lia. rewrite <- lower_length, Hk. reflexivity.
  - destruct Hw as [Hk Hw]. rewrite dispatch by auto using not_word_spaces. cbv zeta.
    assert (N : forall w, In w keywords -> text_eqb (lower k) w = false).
    { intros w Hin. destruct (text_eqb (lower k) w) eqn:E; [|reflexivity]. apply text_eqb_eq in E. now rewrite E in Hn. }
    cbn [existsb]. rewrite !N by (cbn; tauto). cbn [andb orb]. cbv iota. apply gate_plain; auto; [lia|split; auto].
  - assert (HR : not_word (sp ++ txt "(" ++ sp' ++ txt ")" ++ sp'' ++ s)).
    { destruct H1 as [|c sp Hc _]; [reflexivity|]. cbn. now apply space_not_word. }
    destruct Hw as [Hk Hw]. rewrite dispatch by auto. cbv zeta.
    assert (N : forall w, In w keywords -> text_eqb (lower k) w = false).
    { intros w Hin. destruct (text_eqb (lower k) w) eqn:E; [|reflexivity]. apply text_eqb_eq in E. now rewrite E in Hn. }
    cbn [existsb]. rewrite !N by (cbn; tauto). cbn [andb orb]. cbv iota. apply gate_empty; auto; [lia|split; auto].
  - assert (HR : not_word (sp ++ txt "(" ++ as_ ++ txt ")" ++ sp' ++ s)).
    { destruct H1 as [|c sp Hc _]; [reflexivity|]. cbn. now apply space_not_word. }
    destruct Hw as [Hk Hw]. rewrite dispatch by auto. cbv zeta.
    assert (N : forall w, In w keywords -> text_eqb (lower k) w = false).
    { intros w Hin. destruct (text_eqb (lower k) w) eqn:E; [|reflexivity]. apply text_eqb_eq in E. now rewrite E in Hn. }
    cbn [existsb]. rewrite !N by (cbn; tauto). cbn [andb orb]. cbv iota. apply gate_listed; auto; [lia|split; auto].
  - assert (Hw : Forall (fun c => is_word c = true) k).
    { apply lower_words. cbn [map In] in Hk. destruct Hk as [<-|[<-|[<-|[<-|[]]]]]; words. }
    rewrite dispatch by auto. cbv zeta. split.
    + intros E. exfalso. cbn [map In] in Hk. destruct Hk as [Hk|[Hk|[Hk|[Hk|[]]]]]; rewrite <- Hk in E; cbn in E; discriminate.
    + intros (p' & H & _). inversion H.
Qed.
Lemma effect_regs vf p q p' : effect vf p q p' ->
  qp_qregs p' = qp_qregs p ++ qubits_declared [q] /\ qp_cregs p' = qp_cregs p ++ bits_declared [q].
Proof. intros H. inversion H; subst; cbn; rewrite ?app_nil_r; auto. Qed.
Lemma handle_all_iff vf sts qs : Forall (fun st => tight (st_text st)) sts -> Forall2 statement_text (map st_text sts) qs -> forall p,
  total (qp_qregs p ++ qubits_declared qs) < 2 ^ 64 -> total (qp_cregs p ++ bits_declared qs) < 2 ^ 64 ->
  forall r', handle_statements vf sts (reader_of p) = Ok r' <-> exists p', effects vf p qs p' /\ r' = reader_of p'.
Proof.
  intros Ht. revert qs. induction Ht as [|st sts Hst Ht IH]; intros qs Hs p Tq Tc r'; inversion Hs as [|? q ? qs' H1 H2]; subst; cbn [handle_statements].
  - split.
    + intros E. injection E as <-. exists p. split; [constructor|reflexivity].
    + intros (p' & H & ->). inversion H; subst. reflexivity.
  - assert (Aq : forall p', qp_qregs p' = qp_qregs p ++ qubits_declared [q] -> total (qp_qregs p' ++ qubits_declared qs') < 2 ^ 64).
    { intros p' ->. rewrite <- app_assoc. replace (qubits_declared [q] ++ qubits_declared qs') with (qubits_declared (q :: qs')) by (now destruct q). exact Tq. }
    assert (Ac : forall p', qp_cregs p' = qp_cregs p ++ bits_declared [q] -> total (qp_cregs p' ++ bits_declared qs') < 2 ^ 64).
    { intros p' ->. rewrite <- app_assoc. replace (bits_declared [q] ++ bits_declared qs') with (bits_declared (q :: qs')) by (now destruct q). exact Tc. }
    assert (G : grown p q).
    { split.
      - pose proof (Aq (QProgram (qp_qregs p ++ qubits_declared [q]) [] [] [] false) eq_refl) as A. rewrite total_app in A. cbn [qp_qregs] in A. lia.
      - pose proof (Ac (QProgram [] (qp_cregs p ++ bits_declared [q]) [] [] false) eq_refl) as A. rewrite total_app in A. cbn [qp_cregs] in A. lia. }
    pose proof (handle_iff vf p st q Hst H1 G) as HI. split.
    + intros E. inv_bind E. apply HI in E0. destruct E0 as (p1 & He & ->). destruct (effect_regs _ _ _ _ He) as [R1 R2].
      apply (IH qs' H2 p1 (Aq _ R1) (Ac _ R2)) in E. destruct E as (p2 & Hes & ->). exists p2. split; [econstructor; eauto|reflexivity].
    + intros (p2 & Hes & ->). inversion Hes as [|? ? p1 ? ? He Hes']; subst. destruct (effect_regs _ _ _ _ He) as [R1 R2].
      rewrite (proj2 (HI (reader_of p1))) by eauto. cbn [bindR]. apply (IH qs' H2 p1 (Aq _ R1) (Ac _ R2)). eauto.
Qed.
Lemma statements_tight ts sts rest : statements ts sts rest -> Forall (fun st => tight (st_text st)) sts.
Proof.
  induction 1 as [ts Hn|ts sep more sts rest Hn Hs Hb Hm IH|ts sep st more sts rest Hn Hs Hh Hm IH]; auto.
  constructor; [|exact IH]. destruct Hh as (b & body & a & _ & _ & _ & -> & (f & r & E & Hf & _) & Hl). apply body_tight; eauto.
Qed.
Lemma loads_iff vf source ts sts rest qs : scan (Loc 1 1) source ts Complete -> statements ts sts rest -> blank rest ->
  Forall2 statement_text (map st_text sts) qs ->
  total (qubits_declared qs) < 2 ^ 64 -> total (bits_declared qs) < 2 ^ 64 ->
  forall r, loads vf source = Ok r <-> exists p, effects vf qp_start qs p /\ r = reader_of p.
Proof.
  intros Hs Hst Hb Hq Tq Tc r. unfold loads. rewrite (split_statements_ok _ _ _ _ Hs Hst Hb). cbn [bindR].
  change rd_new with (reader_of qp_start). apply handle_all_iff; auto. eapply statements_tight; eauto.
Qed.
