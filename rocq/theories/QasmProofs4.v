(** Registers and operands. *)
From Verif Require Export QasmProofs3 GatesProofs4.
From Coq Require Import Lia ZifyBool ZifyN ZifyNat.
Local Open Scope N_scope.

(** * Words *)
Lemma to_lower_word c : is_word (to_lower c) = is_word c.
Proof. every_char c. Qed.
Lemma to_lower_space c : is_space (to_lower c) = is_space c.
Proof. every_char c. Qed.
Lemma word_not_space c : is_word c = true -> is_space c = false.
Proof. every_char c. Qed.
Lemma word_facts c : is_word c = true -> Ascii.eqb c "[" = false /\ Ascii.eqb c "]" = false /\ Ascii.eqb c "(" = false /\
  Ascii.eqb c ")" = false /\ Ascii.eqb c "," = false /\ Ascii.eqb c "-" = false /\ Ascii.eqb c ">" = false /\ Ascii.eqb c ";" = false /\
  Ascii.eqb c """" = false /\ Ascii.eqb c "/" = false.
Proof. every_char c. Qed.
Lemma space_facts c : is_space c = true -> Ascii.eqb c "[" = false /\ Ascii.eqb c "]" = false /\ Ascii.eqb c "(" = false /\
  Ascii.eqb c ")" = false /\ Ascii.eqb c "," = false /\ Ascii.eqb c "-" = false /\ Ascii.eqb c ">" = false /\ Ascii.eqb c ";" = false /\
  Ascii.eqb c """" = false /\ Ascii.eqb c "/" = false.
Proof. every_char c. Qed.
Lemma space_not_word c : is_space c = true -> is_word c = false.
Proof. every_char c. Qed.
Lemma digit_word c : is_digit c = true -> is_word c = true.
Proof. every_char c. Qed.
Lemma lower_app a b : lower (a ++ b) = lower a ++ lower b.
Proof. apply map_app. Qed.
Lemma lower_length s : length (lower s) = length s.
Proof. apply map_length. Qed.
Lemma lower_words s : Forall (fun c => is_word c = true) (lower s) <-> Forall (fun c => is_word c = true) s.
Proof.
  unfold lower. rewrite Forall_map. split; apply Forall_impl; intros c; now rewrite to_lower_word.
Qed.
Lemma starts_with_refl w s : starts_with (w ++ s) w = true.
Proof. induction w as [|c w IH]; [now destruct s|]. simpl. now rewrite Ascii.eqb_refl. Qed.
Lemma starts_with_word_split k rest w : Forall (fun c => is_word c = true) k -> not_word rest ->
  Forall (fun c => is_word c = true) w -> starts_with_word (k ++ rest) w = text_eqb k w.
Proof.
  intros Hk Hr. revert w. induction Hk as [|c k Hc Hk IH]; intros [|d w] Hw.
  - destruct rest as [|c rest]; cbn; [reflexivity|]. unfold starts_with_word. cbn. cbn in Hr. now rewrite Hr.
  - destruct rest as [|c rest]; [reflexivity|]. unfold starts_with_word. cbn. cbn in Hr. inversion Hw; subst.
    destruct (Ascii.eqb c d) eqn:E; [|reflexivity]. apply Ascii.eqb_eq in E. subst. congruence.
  - unfold starts_with_word. cbn. now rewrite Hc.
  - inversion Hw as [|? ? Hd Hw']; subst. unfold starts_with_word in *. cbn [app starts_with skipn length text_eqb].
    specialize (IH w Hw'). rewrite <- IH. now rewrite Bool.andb_assoc.
Qed.
Lemma not_word_lower s : not_word s -> not_word (lower s).
Proof. destruct s as [|c s]; [auto|]. cbn. now rewrite to_lower_word. Qed.
Lemma not_word_spaces sp s : spaces sp -> sp <> [] -> not_word (sp ++ s).
Proof. intros H Hn. destruct H as [|c sp Hc _]; [congruence|]. cbn. now apply space_not_word. Qed.
Lemma word_tight s : word s -> tight s.
Proof.
  intros [Hn H]. right. split.
  - destruct H as [|c s Hc _]; [exact I|]. now apply word_not_space.
  - destruct (rev s) as [|c r] eqn:E; [exact I|]. apply word_not_space. rewrite Forall_forall in H. apply H.
    apply in_rev. rewrite E. now left.
Qed.
Lemma digits_word s : s <> [] -> Forall is_decimal s -> word s.
Proof. intros Hn H. split; [exact Hn|]. eapply Forall_impl; [|exact H]. intros c. apply digit_word. Qed.

(** * find and substr *)
Lemma find_char_app c a s : Forall (fun d => Ascii.eqb d c = false) a ->
  find_char c (a ++ s) = option_map (fun i => (length a + i)%nat) (find_char c s).
Proof.
  induction 1 as [|d a H Ha IH]; cbn [app find_char length]; [destruct (find_char c s); reflexivity|].
  rewrite H, IH. destruct (find_char c s); reflexivity.
Qed.
Lemma find_char_hit c s : find_char c (c :: s) = Some 0%nat.
Proof. cbn. now rewrite Ascii.eqb_refl. Qed.
Lemma find_char_none c s : Forall (fun d => Ascii.eqb d c = false) s -> find_char c s = None.
Proof. intros H. rewrite <- (app_nil_r s). now rewrite find_char_app. Qed.
Lemma substr_mid a m b : substr (a ++ m ++ b) (length a) (length m) = m.
Proof.
  unfold substr. rewrite skipn_app, skipn_all, Nat.sub_diag. cbn [app skipn].
  rewrite firstn_app, firstn_all, Nat.sub_diag. cbn [firstn]. apply app_nil_r.
Qed.
Lemma skipn_exact {A} (a b : list A) n : n = length a -> skipn n (a ++ b) = b.
Proof. intros ->. rewrite skipn_app, skipn_all, Nat.sub_diag. reflexivity. Qed.
Lemma firstn_exact {A} (a b : list A) n : n = length a -> firstn n (a ++ b) = a.
Proof. intros ->. rewrite firstn_app, firstn_all, Nat.sub_diag. cbn [firstn]. apply app_nil_r. Qed.

Lemma bracketed_bit s name i : bit_text s name i ->
  exists ds, bracketed s = Some (name, ds) /\ ds <> [] /\ Forall is_decimal ds /\ i = written 10 ds.
Proof.
  intros [name' s1 s2 ds s3 Hw H1 H2 H3 Hn Hd]. exists ds. split; [|auto].
  pose proof (digits_word ds Hn Hd) as Hdw.
  assert (NL : forall c, (c = "["%char \/ c = "]"%char) -> Forall (fun d => Ascii.eqb d c = false) (name' ++ s1)).
  { intros c Hc. apply Forall_app. split.
    - eapply Forall_impl; [|exact (proj2 Hw)]. intros d Hd'. apply word_facts in Hd'. destruct Hc as [->| ->]; tauto.
    - eapply Forall_impl; [|exact H1]. intros d Hd'. apply space_facts in Hd'. destruct Hc as [->| ->]; tauto. }
  assert (NR : Forall (fun d => Ascii.eqb d "]" = false) (txt "[" ++ s2 ++ ds ++ s3)).
  { constructor; [reflexivity|]. apply Forall_app. split; [|apply Forall_app; split].
    - eapply Forall_impl; [|exact H2]. intros d Hd'. apply space_facts in Hd'. tauto.
    - eapply Forall_impl; [|exact (proj2 Hdw)]. intros d Hd'. apply word_facts in Hd'. tauto.
    - eapply Forall_impl; [|exact H3]. intros d Hd'. apply space_facts in Hd'. tauto. }
  set (a := name' ++ s1) in *. set (b := s2 ++ ds ++ s3) in *.
  replace (name' ++ s1 ++ txt "[" ++ s2 ++ ds ++ s3 ++ txt "]") with (a ++ txt "[" ++ b ++ txt "]")
    by (unfold a, b; rewrite <- !app_assoc; reflexivity).
  unfold bracketed.
  rewrite find_char_app by (apply NL; auto). change (find_char "[" (txt "[" ++ b ++ txt "]")) with (Some 0%nat).
  assert (Er : find_char "]" (a ++ txt "[" ++ b ++ txt "]") = Some (length a + (1 + length b))%nat).
  { rewrite find_char_app by (apply NL; auto). replace (txt "[" ++ b ++ txt "]") with ((txt "[" ++ b) ++ txt "]") by (now rewrite <- app_assoc).
    rewrite find_char_app by exact NR. change (find_char "]" (txt "]")) with (Some 0%nat). cbn [option_map].
    rewrite app_length. cbn [length txt to_text list_ascii_of_string]. f_equal. lia. }
  rewrite Er. cbn [option_map]. rewrite Nat.add_0_r.
  assert (El : length (a ++ txt "[" ++ b ++ txt "]") = (length a + (1 + length b) + 1)%nat).
  { rewrite !app_length. cbn [length txt to_text list_ascii_of_string]. lia. }
  rewrite El, Nat.eqb_refl. rewrite (proj2 (Nat.leb_le _ _)) by lia. cbn [andb]. f_equal. f_equal.
  - unfold substr. cbn [skipn]. rewrite firstn_exact by reflexivity. unfold a.
    rewrite <- (app_nil_l (name' ++ s1)). apply trim_pad; [constructor|now apply word_tight|exact H1].
  - replace (a ++ txt "[" ++ b ++ txt "]") with ((a ++ txt "[") ++ b ++ txt "]") by (now rewrite <- app_assoc).
    replace (length a + (1 + length b) - length a - 1)%nat with (length b) by lia.
    replace (length a + 1)%nat with (length (a ++ txt "[")) by (rewrite app_length; reflexivity).
    rewrite substr_mid. unfold b. apply trim_pad; auto. now apply word_tight.
Qed.
Lemma bit_text_tight s name i : bit_text s name i -> tight s.
Proof.
  intros [name' s1 s2 ds s3 Hw _ _ _ _ _]. right. split.
  - destruct Hw as [Hn Hw]. destruct Hw as [|c name' Hc _]; [congruence|]. cbn. now apply word_not_space.
  - rewrite !app_assoc, rev_app_distr. reflexivity.
Qed.
Lemma parse_u64_digits ds : ds <> [] -> Forall is_decimal ds ->
  parse_u64 ds = Some (if 2 ^ 64 <=? written 10 ds then 2 ^ 64 - 1 else written 10 ds).
Proof.
  intros Hn Hd. unfold parse_u64, strtoull. destruct ds as [|d ds]; [congruence|].
  inversion Hd as [|? ? H1 H2]; subst. pose proof (digit_not_sign d H1) as [F1 F2].
  rewrite (drop_while_stop is_space d ds) by (now apply digit_not_space). rewrite F1, F2.
  assert (E1 : take_while is_digit (d :: ds) = d :: ds).
  { rewrite <- (app_nil_r (d :: ds)) at 1. apply take_while_app; [exact Hd|exact I]. }
  assert (E2 : drop_while is_digit (d :: ds) = []) by (now apply drop_while_all).
  rewrite E1, E2. rewrite written_num by exact Hd. reflexivity.
Qed.

(** * Registers *)
Fixpoint regs_from (off : N) (ds : declared) : registers :=
  match ds with [] => [] | (n, size) :: ds => (n, Register off size) :: regs_from (off + size) ds end.
Lemma total_app a b : total (a ++ b) = total a + total b.
Proof. induction a as [|d a IH]; [reflexivity|]. change (snd d + total (a ++ b) = snd d + total a + total b). lia. Qed.
Lemma regs_from_app off a b : regs_from off (a ++ b) = regs_from off a ++ regs_from (off + total a) b.
Proof.
  revert off. induction a as [|[n s] a IH]; intros off; [cbn; now rewrite N.add_0_r|]. cbn [app regs_from].
  change (total ((n, s) :: a)) with (s + total a). rewrite IH. now rewrite N.add_assoc.
Qed.
Lemma find_regs_from ds name : forall off, find_register name (regs_from off ds) =
  option_map (fun r => Register (off + fst r) (snd r)) (range_of ds name).
Proof.
  induction ds as [|[n s] ds IH]; intros off; [reflexivity|]. cbn [regs_from find_register range_of].
  destruct (text_eqb n name); cbn [option_map fst snd]; [now rewrite N.add_0_r|].
  rewrite IH. destruct (range_of ds name) as [[st sz]|]; cbn [option_map fst snd]; [|reflexivity]. now rewrite N.add_assoc.
Qed.
Lemma range_bound ds name st size : range_of ds name = Some (st, size) -> st + size <= total ds.
Proof.
  revert st. induction ds as [|[n s] ds IH]; intros st; [discriminate|]. cbn [range_of]. change (total ((n, s) :: ds)) with (s + total ds).
  destruct (text_eqb n name); [intros E; injection E as <- <-; lia|].
  destruct (range_of ds name) as [[st' sz']|]; cbn [option_map fst snd]; [|discriminate]. intros E. injection E as <- <-.
  specialize (IH st' eq_refl). lia.
Qed.
Lemma range_distinct ds a b sta sza stb szb : range_of ds a = Some (sta, sza) -> range_of ds b = Some (stb, szb) ->
  a = b \/ sta + sza <= stb \/ stb + szb <= sta.
Proof.
  revert sta stb. induction ds as [|[n s] ds IH]; intros sta stb; [discriminate|]. cbn [range_of].
  destruct (text_eqb n a) eqn:Ea, (text_eqb n b) eqn:Eb.
  - apply text_eqb_eq in Ea, Eb. intros _ _. left. congruence.
  - intros E. injection E as <- <-. destruct (range_of ds b) as [[st' sz']|]; cbn [option_map fst snd]; [|discriminate].
    intros E. injection E as <- <-. right. left. lia.
  - destruct (range_of ds a) as [[st' sz']|]; cbn [option_map fst snd]; [|discriminate].
    intros E. injection E as <- <-. intros E. injection E as <- <-. right. right. lia.
  - destruct (range_of ds a) as [[sta' sza']|] eqn:Ra; cbn [option_map fst snd]; [|discriminate].
    destruct (range_of ds b) as [[stb' szb']|] eqn:Rb; cbn [option_map fst snd]; [|discriminate].
    intros E1 E2. injection E1 as <- <-. injection E2 as <- <-. destruct (IH sta' stb' eq_refl eq_refl) as [?|[?|?]]; [auto|right; left; lia|right; right; lia].
Qed.
Lemma bit_number_bound ds name i k : bit_number ds name i = Some k -> k < total ds.
Proof.
  unfold bit_number. destruct (range_of ds name) as [[st size]|] eqn:E; [|discriminate].
  destruct (i <? size) eqn:Ei; [|discriminate]. intros H. injection H as <-. apply range_bound in E. lia.
Qed.
Lemma bit_number_inj ds a i b j k : bit_number ds a i = Some k -> bit_number ds b j = Some k -> a = b /\ i = j.
Proof.
  unfold bit_number. destruct (range_of ds a) as [[sta sza]|] eqn:Ea; [|discriminate].
  destruct (range_of ds b) as [[stb szb]|] eqn:Eb; [|discriminate].
  destruct (i <? sza) eqn:Ei; [|discriminate]. destruct (j <? szb) eqn:Ej; [|discriminate].
  intros E1 E2. injection E1 as E1. injection E2 as E2.
  destruct (range_distinct ds a b sta sza stb szb Ea Eb) as [->|[H|H]]; try lia.
  rewrite Ea in Eb. injection Eb as <- <-. split; [reflexivity|lia].
Qed.
Lemma total_wrap ds : total ds < 2 ^ 64 -> forall name st size, range_of ds name = Some (st, size) -> size < 2 ^ 64.
Proof. intros H name st size E. apply range_bound in E. lia. Qed.
Theorem parse_bit ds s name i : total ds < 2 ^ 64 -> bit_text s name i ->
  parse_indexed_register s (regs_from 0 ds) = match bit_number ds name i with Some k => Ok k | None => Throw end.
Proof.
  intros Ht Hs. unfold parse_indexed_register. rewrite (trim_tight s) by (eapply bit_text_tight; eauto).
  destruct (bracketed_bit s name i Hs) as (dg & E & Hn & Hd & ->). rewrite E. rewrite find_regs_from. unfold bit_number.
  destruct (range_of ds name) as [[st size]|] eqn:Er; cbn [option_map fst snd]; [|reflexivity].
  rewrite parse_u64_digits by auto. cbn [r_size r_offset]. pose proof (range_bound _ _ _ _ Er) as Hb.
  destruct (2 ^ 64 <=? written 10 dg) eqn:E64.
  - rewrite (proj2 (N.leb_le size (2 ^ 64 - 1))) by lia. rewrite (proj2 (N.ltb_ge (written 10 dg) size)) by lia. reflexivity.
  - destruct (size <=? written 10 dg) eqn:Es.
    + rewrite (proj2 (N.ltb_ge (written 10 dg) size)) by lia. reflexivity.
    + rewrite (proj2 (N.ltb_lt (written 10 dg) size)) by lia. rewrite N.mod_small by lia. reflexivity.
Qed.

(** * Every program keeps its registers apart *)
Definition sizes_total (rs : registers) : N := fold_right (fun r n => r_size (snd r) + n) 0 rs.
Definition contiguous (n : N) (rs : registers) : Prop := exists ds, rs = regs_from 0 ds /\ n = total ds.
Lemma sizes_total_from off ds : sizes_total (regs_from off ds) = total ds.
Proof. revert off. induction ds as [|[n s] ds IH]; intros off; [reflexivity|]. cbn. fold (total ds). specialize (IH (off + s)). unfold sizes_total in IH. now rewrite IH. Qed.
Definition rd_ok (r : reader) : Prop :=
  (sizes_total (rd_qregs r) < 2 ^ 64 -> contiguous (rd_n_qubits r) (rd_qregs r)) /\
  (sizes_total (rd_cregs r) < 2 ^ 64 -> contiguous (rd_n_clbits r) (rd_cregs r)).
Lemma sizes_total_app a b : sizes_total (a ++ b) = sizes_total a + sizes_total b.
Proof. induction a as [|d a IH]; [reflexivity|]. change (r_size (snd d) + sizes_total (a ++ b) = r_size (snd d) + sizes_total a + sizes_total b). lia. Qed.
Lemma contiguous_extend n rs name size : (sizes_total rs < 2 ^ 64 -> contiguous n rs) ->
  sizes_total (rs ++ [(name, Register n size)]) < 2 ^ 64 ->
  contiguous ((n + size) mod 2 ^ 64) (rs ++ [(name, Register n size)]).
Proof.
  intros H Ht. rewrite sizes_total_app in Ht. cbn in Ht. destruct H as (ds & -> & ->); [lia|].
  rewrite sizes_total_from in Ht. exists (ds ++ [(name, size)]). split.
  - rewrite regs_from_app. cbn. reflexivity.
  - rewrite total_app. cbn. rewrite N.mod_small by lia. lia.
Qed.
Definition same_regs (r r' : reader) : Prop :=
  rd_qregs r' = rd_qregs r /\ rd_cregs r' = rd_cregs r /\ rd_n_qubits r' = rd_n_qubits r /\ rd_n_clbits r' = rd_n_clbits r.
Lemma same_regs_ok r r' : same_regs r r' -> rd_ok r -> rd_ok r'.
Proof. intros (E1 & E2 & E3 & E4). unfold rd_ok. now rewrite E1, E2, E3, E4. Qed.
Lemma add_measurements_regs k : forall i q c r r', add_measurements k i q c r = Ok r' -> same_regs r r'.
Proof.
  induction k as [|k IH]; intros i q c r r' E; cbn [add_measurements] in E; [injection E as <-; repeat split|].
  inv_bind E. apply IH in E. exact E.
Qed.
Lemma parse_gate_regs vf s r r' : parse_gate vf s r = Ok r' -> same_regs r r'.
Proof.
  unfold parse_gate. destruct (take_while is_word s) as [|c name]; [discriminate|]. intros E.
  inv_bind E. destruct v as [params rest]. inv_bind E. inv_bind E. destruct (has_repeats v0); [discriminate|].
  unfold reader_add_gate in E. inv_bind E. destruct v1 as [k|].
  - inv_bind E. injection E as <-. destruct (rd_saw_version r); repeat split.
  - injection E as <-. destruct (rd_saw_version r); repeat split.
Qed.
Lemma handle_ok vf st r r' : handle_statement vf st r = Ok r' -> rd_ok r -> rd_ok r'.
Proof.
  intros E H. unfold handle_statement in E. cbv zeta in E.
  destruct (starts_with_word (lower (trim (st_text st))) (txt "openqasm") &&
            text_eqb (trim (skipn 8 (lower (trim (st_text st))))) (txt "2.0"))%bool; [injection E as <-; exact H|].
  destruct (starts_with_word (lower (trim (st_text st))) (txt "include")).
  { destruct (text_eqb _ _); [injection E as <-; exact H|discriminate]. }
  destruct (starts_with_word (lower (trim (st_text st))) (txt "qreg")).
  { inv_bind E. destruct (find_register v (rd_qregs r)); [discriminate|]. inv_bind E. injection E as <-.
    destruct H as [H1 H2]. split; [intros Ht; now apply contiguous_extend|exact H2]. }
  destruct (starts_with_word (lower (trim (st_text st))) (txt "creg")).
  { inv_bind E. destruct (find_register v (rd_cregs r)); [discriminate|]. inv_bind E. injection E as <-.
    destruct H as [H1 H2]. split; [exact H1|intros Ht; now apply contiguous_extend]. }
  destruct (starts_with_word (lower (trim (st_text st))) (txt "barrier")); [injection E as <-; exact H|].
  destruct (starts_with_word (lower (trim (st_text st))) (txt "measure")).
  { unfold parse_measure in E. destruct (find_text _ _); [|discriminate]. inv_bind E. inv_bind E.
    destruct (r_size v =? r_size v0); [|discriminate]. apply add_measurements_regs in E. eapply same_regs_ok; eauto. }
  destruct (existsb _ _); [discriminate|]. apply parse_gate_regs in E. eapply same_regs_ok; eauto.
Qed.
Lemma handle_all_ok vf sts : forall r r', handle_statements vf sts r = Ok r' -> rd_ok r -> rd_ok r'.
Proof.
  induction sts as [|st sts IH]; intros r r' E H; cbn [handle_statements] in E; [injection E as <-; exact H|].
  inv_bind E. eapply IH; [exact E|]. eapply handle_ok; eauto.
Qed.
Lemma rd_new_ok : rd_ok rd_new.
Proof. split; intros _; exists []; split; reflexivity. Qed.
Lemma bits_apart n rs s1 a i k1 s2 b j k2 : sizes_total rs < 2 ^ 64 -> contiguous n rs ->
  bit_text s1 a i -> bit_text s2 b j -> parse_indexed_register s1 rs = Ok k1 -> parse_indexed_register s2 rs = Ok k2 ->
  k1 < n /\ (k1 = k2 -> a = b /\ i = j).
Proof.
  intros Ht (ds & -> & ->) H1 H2 E1 E2. rewrite sizes_total_from in Ht.
  rewrite (parse_bit ds s1 a i Ht H1) in E1. rewrite (parse_bit ds s2 b j Ht H2) in E2.
  destruct (bit_number ds a i) as [k1'|] eqn:B1; [|discriminate]. destruct (bit_number ds b j) as [k2'|] eqn:B2; [|discriminate].
  injection E1 as <-. injection E2 as <-. split; [eapply bit_number_bound; eauto|]. intros ->. eapply bit_number_inj; eauto.
Qed.
