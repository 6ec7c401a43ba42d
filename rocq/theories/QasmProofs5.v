(** Comma-separated lists. *)
From Verif Require Export QasmProofs4.
From Coq Require Import Lia ZifyBool ZifyN ZifyNat.
Local Open Scope N_scope.

Definition number_char (c : ascii) : bool :=
  is_word c || Ascii.eqb c "." || Ascii.eqb c "+" || Ascii.eqb c "-".
Lemma number_char_facts c : number_char c = true -> is_space c = false /\ Ascii.eqb c "(" = false /\
  Ascii.eqb c ")" = false /\ Ascii.eqb c "," = false /\ Ascii.eqb c ";" = false /\ Ascii.eqb c """" = false /\ Ascii.eqb c "/" = false.
Proof. every_char c. Qed.
Lemma digit_number c : is_decimal c -> number_char c = true.
Proof. unfold is_decimal. every_char c. Qed.
Lemma hex_number c : is_hexadecimal c -> number_char c = true.
Proof.
  intros H. apply is_hex_iff in H. revert H. every_char c.
Qed.
Lemma exponent_number marks ex e : (forall m, In m marks -> number_char m = true) -> exponent_text marks ex e ->
  Forall (fun c => number_char c = true) ex.
Proof.
  intros Hm [|m ds H _ Hd|m ds H _ Hd|m ds H _ Hd]; [constructor| | |].
  all: assert (Forall (fun c => number_char c = true) ds) by (eapply Forall_impl; [exact digit_number|exact Hd]); repeat (constructor; auto).
Qed.
Lemma mantissa_number (dig : ascii -> Prop) ip fp m : (forall c, dig c -> number_char c = true) -> mantissa_text dig ip fp m ->
  Forall (fun c => number_char c = true) m.
Proof.
  intros Hd [ip' _ H|ip' fp' _ H1 H2].
  - eapply Forall_impl; [exact Hd|exact H].
  - apply Forall_app. split; [eapply Forall_impl; [exact Hd|exact H1]|]. constructor; [reflexivity|]. eapply Forall_impl; [exact Hd|exact H2].
Qed.
Lemma decimal_chars s v : decimal s v -> Forall (fun c => number_char c = true) s.
Proof.
  intros [ip fp m ex e Hm He]. apply Forall_app. split.
  - eapply mantissa_number; [exact digit_number|exact Hm].
  - eapply exponent_number; [|exact He]. intros c [<-|[<-|[]]]; reflexivity.
Qed.
Lemma hexadecimal_chars s v : hexadecimal s v -> Forall (fun c => number_char c = true) s.
Proof.
  intros [x ip fp m ex e Hx Hm He]. constructor; [reflexivity|]. constructor; [destruct Hx as [->| ->]; reflexivity|].
  apply Forall_app. split.
  - eapply mantissa_number; [exact hex_number|exact Hm].
  - eapply exponent_number; [|exact He]. intros c [<-|[<-|[]]]; reflexivity.
Qed.

(** * Parentheses *)
Fixpoint paren (d : nat) (s : text) : option nat :=
  match s with
  | [] => Some d
  | c :: r =>
    if Ascii.eqb c "(" then paren (S d) r
    else if Ascii.eqb c ")" then match d with O => None | S d => paren d r end
    else paren d r
  end.
Definition balanced (s : text) : Prop := forall d, paren d s = Some d.
Lemma paren_app a : forall b d, paren d (a ++ b) = match paren d a with Some d' => paren d' b | None => None end.
Proof.
  induction a as [|c a IH]; intros b d; cbn [app paren]; [reflexivity|].
  destruct (Ascii.eqb c "("); [apply IH|]. destruct (Ascii.eqb c ")"); [destruct d; [reflexivity|apply IH]|apply IH].
Qed.
Lemma balanced_app a b : balanced a -> balanced b -> balanced (a ++ b).
Proof. intros Ha Hb d. now rewrite paren_app, Ha, Hb. Qed.
Lemma balanced_plain s : Forall (fun c => Ascii.eqb c "(" = false /\ Ascii.eqb c ")" = false) s -> balanced s.
Proof. intros H d. induction H as [|c s [H1 H2] Hs IH]; [reflexivity|]. cbn. now rewrite H1, H2. Qed.
Lemma balanced_spaces s : spaces s -> balanced s.
Proof. intros H. apply balanced_plain. eapply Forall_impl; [|exact H]. intros c Hc. apply space_facts in Hc. tauto. Qed.
Lemma balanced_number s : Forall (fun c => number_char c = true) s -> balanced s.
Proof. intros H. apply balanced_plain. eapply Forall_impl; [|exact H]. intros c Hc. apply number_char_facts in Hc. tauto. Qed.
Lemma balanced_group s : balanced s -> balanced (txt "(" ++ s ++ txt ")").
Proof. intros H d. cbn. rewrite paren_app, H. reflexivity. Qed.

Definition safe_char (c : ascii) : bool :=
  negb (Ascii.eqb c "," || Ascii.eqb c ";" || Ascii.eqb c """").
Definition safe (s : text) : Prop := Forall (fun c => safe_char c = true) s.
Lemma safe_app a b : safe a -> safe b -> safe (a ++ b).
Proof. intros. apply Forall_app. now split. Qed.
Lemma safe_number s : Forall (fun c => number_char c = true) s -> safe s.
Proof. apply Forall_impl. intros c. every_char c. Qed.
Lemma safe_spaces s : spaces s -> safe s.
Proof. apply Forall_impl. intros c. every_char c. Qed.
Lemma safe_word s : Forall (fun c => is_word c = true) s -> safe s.
Proof. apply Forall_impl. intros c. every_char c. Qed.
Lemma safe_no_comma s : safe s -> Forall (fun c => Ascii.eqb c "," = false) s.
Proof. apply Forall_impl. intros c. every_char c. Qed.
Ltac literal := repeat (constructor; [reflexivity|]); constructor.

Definition ends_tight (s : text) : Prop := match rev s with [] => False | c :: _ => is_space c = false end.
Definition starts_tight (s : text) : Prop := match s with [] => False | c :: _ => is_space c = false end.
Lemma tight_of s : starts_tight s -> ends_tight s -> tight s.
Proof. unfold starts_tight, ends_tight. intros H1 H2. right. destruct s; [easy|]. destruct (rev (a :: s)); easy. Qed.
Lemma ends_app a b : ends_tight b -> ends_tight (a ++ b).
Proof. unfold ends_tight. rewrite rev_app_distr. now destruct (rev b). Qed.
Lemma starts_app a b : starts_tight a -> starts_tight (a ++ b).
Proof. unfold starts_tight. now destruct a. Qed.
Lemma ends_number s : s <> [] -> Forall (fun c => number_char c = true) s -> ends_tight s.
Proof.
  intros Hn H. unfold ends_tight. destruct (rev s) as [|c r] eqn:E.
  - apply Hn. rewrite <- (rev_involutive s), E. reflexivity.
  - apply number_char_facts. rewrite Forall_forall in H. apply H. apply in_rev. rewrite E. now left.
Qed.
Lemma starts_number s : s <> [] -> Forall (fun c => number_char c = true) s -> starts_tight s.
Proof. intros Hn H. destruct H as [|c s Hc _]; [congruence|]. cbn. now apply number_char_facts in Hc. Qed.

Definition shape (s : text) : Prop := balanced s /\ safe s /\ ends_tight s.
Lemma shape_binary s1 sp op s2 : shape s1 -> spaces sp -> balanced op -> safe op -> shape s2 -> shape (s1 ++ sp ++ op ++ s2).
Proof.
  intros (A1 & A2 & A3) H H1 H2 (B1 & B2 & B3). split; [|split].
  - repeat apply balanced_app; auto using balanced_spaces.
  - repeat apply safe_app; auto using safe_spaces.
  - repeat apply ends_app. exact B3.
Qed.
Lemma grammar_shape :
  (forall s e, sum s e -> shape s) /\ (forall s e, product s e -> shape s) /\ (forall s e, signed s e -> shape s).
Proof.
  apply grammar_ind; intros; auto.
  1-4: apply shape_binary; auto; [apply balanced_plain; repeat constructor|literal].
  1-2: destruct H as (A1 & A2 & A3); split; [|split];
    [repeat apply balanced_app; auto using balanced_spaces; apply balanced_plain; repeat constructor
    |repeat apply safe_app; auto using safe_spaces; literal|repeat apply ends_app; exact A3].
  - split; [|split]; [apply balanced_app; auto using balanced_spaces; apply balanced_plain; repeat constructor
      |apply safe_app; auto using safe_spaces; literal|apply ends_app; reflexivity].
  - pose proof (decimal_chars _ _ d). split; [|split].
    + apply balanced_app; auto using balanced_spaces, balanced_number.
    + apply safe_app; auto using safe_spaces, safe_number.
    + apply ends_app, ends_number; auto. eapply decimal_nonempty; eauto.
  - pose proof (hexadecimal_chars _ _ h). split; [|split].
    + apply balanced_app; auto using balanced_spaces, balanced_number.
    + apply safe_app; auto using safe_spaces, safe_number.
    + apply ends_app, ends_number; auto. eapply hexadecimal_nonempty; eauto.
  - destruct H as (A1 & A2 & A3). split; [|split].
    + apply balanced_app; [auto using balanced_spaces|].
      replace (txt "(" ++ s ++ sp' ++ txt ")") with (txt "(" ++ (s ++ sp') ++ txt ")") by (now rewrite <- app_assoc).
      apply balanced_group, balanced_app; auto using balanced_spaces.
    + repeat apply safe_app; auto using safe_spaces; literal.
    + repeat apply ends_app. reflexivity.
Qed.
Lemma strip_leading :
  (forall s e, sum s e -> exists sp s', s = sp ++ s' /\ spaces sp /\ starts_tight s' /\ sum s' e) /\
  (forall s e, product s e -> exists sp s', s = sp ++ s' /\ spaces sp /\ starts_tight s' /\ product s' e) /\
  (forall s e, signed s e -> exists sp s', s = sp ++ s' /\ spaces sp /\ starts_tight s' /\ signed s' e).
Proof.
  apply grammar_ind; intros.
  - destruct H as (lead & s' & -> & Hp & Ht & H). exists lead, s'. repeat split; auto. now constructor.
  - destruct H as (lead & s' & -> & Hp & Ht & H). exists lead, (s' ++ sp ++ txt "+" ++ s2). rewrite <- app_assoc.
    repeat split; auto; [now apply starts_app|now constructor].
  - destruct H as (lead & s' & -> & Hp & Ht & H). exists lead, (s' ++ sp ++ txt "-" ++ s2). rewrite <- app_assoc.
    repeat split; auto; [now apply starts_app|now constructor].
  - destruct H as (lead & s' & -> & Hp & Ht & H). exists lead, s'. repeat split; auto. now constructor.
  - destruct H as (lead & s' & -> & Hp & Ht & H). exists lead, (s' ++ sp ++ txt "*" ++ s2). rewrite <- app_assoc.
    repeat split; auto; [now apply starts_app|now constructor].
  - destruct H as (lead & s' & -> & Hp & Ht & H). exists lead, (s' ++ sp ++ txt "/" ++ s2). rewrite <- app_assoc.
    repeat split; auto; [now apply starts_app|now constructor].
  - exists sp, (txt "+" ++ s). repeat split; auto. change (signed ([] ++ txt "+" ++ s) (Plus e)). constructor; auto. constructor.
  - exists sp, (txt "-" ++ s). repeat split; auto. change (signed ([] ++ txt "-" ++ s) (Minus e)). constructor; auto. constructor.
  - exists sp, (txt "pi"). repeat split; auto. change (signed ([] ++ txt "pi") Pi). constructor; auto. constructor.
  - exists sp, s. repeat split; auto.
    + apply starts_number; [eapply decimal_nonempty; eauto|eapply decimal_chars; eauto].
    + change (signed ([] ++ s) (Num v)). apply signed_decimal; auto. constructor.
  - exists sp, s. repeat split; auto.
    + apply starts_number; [eapply hexadecimal_nonempty; eauto|eapply hexadecimal_chars; eauto].
    + change (signed ([] ++ s) (Num v)). apply signed_hexadecimal; auto. constructor.
  - exists sp, (txt "(" ++ s ++ sp' ++ txt ")"). repeat split; auto.
    change (signed ([] ++ txt "(" ++ s ++ sp' ++ txt ")") e). constructor; auto. constructor.
Qed.
Lemma expression_shape s e : expression s e -> balanced s /\ safe s /\ expression (trim s) e /\ trim s <> [].
Proof.
  intros (s' & sp & -> & Hs & Hp). destruct (proj1 grammar_shape _ _ Hs) as (B & S & _).
  split; [apply balanced_app; auto using balanced_spaces|]. split; [apply safe_app; auto using safe_spaces|].
  destruct (proj1 strip_leading _ _ Hs) as (p & s1 & -> & Hp1 & Ht & Hs1).
  rewrite <- app_assoc. rewrite trim_pad; auto.
  - split; [exists s1, []; rewrite app_nil_r; repeat split; auto; constructor|]. intros ->. exact Ht.
  - apply tight_of; [exact Ht|]. apply (proj1 grammar_shape _ _ Hs1).
Qed.

(** * split_comma_list *)
Lemma comma_loop_skip t : forall d d' rest begin parts, paren d t = Some d' -> Forall (fun c => Ascii.eqb c "," = false) t ->
  comma_loop (t ++ rest) begin (Z.of_nat d) parts = comma_loop rest (begin ++ t) (Z.of_nat d') parts.
Proof.
  induction t as [|c t IH]; intros d d' rest begin parts Hp Hc; cbn [app paren] in *.
  - injection Hp as ->. now rewrite app_nil_r.
  - inversion Hc as [|? ? Hc1 Hc2]; subst. cbn [comma_loop]. rewrite Hc1. cbn [andb].
    replace (begin ++ c :: t) with ((begin ++ [c]) ++ t) by (now rewrite <- app_assoc).
    destruct (Ascii.eqb c "(") eqn:E1.
    + assert (E2 : Ascii.eqb c ")" = false) by (apply Ascii.eqb_eq in E1; now subst). rewrite E2.
      rewrite (proj2 (Z.ltb_ge _ _)) by lia. replace (Z.of_nat d + 1)%Z with (Z.of_nat (S d)) by lia. now apply IH.
    + destruct (Ascii.eqb c ")") eqn:E2.
      * destruct d as [|d]; [discriminate|]. rewrite (proj2 (Z.ltb_ge _ _)) by lia.
        replace (Z.of_nat (S d) - 1)%Z with (Z.of_nat d) by lia. now apply IH.
      * rewrite (proj2 (Z.ltb_ge _ _)) by lia. now apply IH.
Qed.
Lemma comma_loop_skip0 t rest begin parts : balanced t -> safe t ->
  comma_loop (t ++ rest) begin 0 parts = comma_loop rest (begin ++ t) 0 parts.
Proof. intros Hb Hs. apply (comma_loop_skip t 0 0 rest begin parts (Hb 0%nat)). now apply safe_no_comma. Qed.
Lemma comma_listed {A} (P : text -> A -> Prop) : (forall s x, P s x -> balanced s /\ safe s) ->
  forall s xs, listed P s xs -> forall sp begin parts, begin = sp -> spaces sp ->
  exists ps last, comma_loop s begin 0 parts = Ok (parts ++ ps, last) /\
    Forall2 (fun p x => exists t, P t x /\ p = trim t) (ps ++ [trim last]) xs /\ last = last.
Proof.
  intros HP s xs H. induction H as [s x Hx|s x s1 s2 r xs Hx H1 H2 Hr IH]; intros sp begin parts Hb Hsp; subst begin.
  - destruct (HP _ _ Hx) as [B S]. exists [], (sp ++ s). rewrite app_nil_r. rewrite <- (app_nil_r s) at 1.
    rewrite comma_loop_skip0 by auto. split; [reflexivity|]. split; [|reflexivity]. constructor; [|constructor].
    exists s. split; [exact Hx|]. rewrite <- (app_nil_r s) at 1.
    destruct (trim_split s) as (a & b & E & Ha & Hb). rewrite E at 1. rewrite app_nil_r.
    replace (sp ++ a ++ trim s ++ b) with ((sp ++ a) ++ trim s ++ b) by (now rewrite <- app_assoc).
    apply trim_pad; auto using spaces_app, trim_is_tight.
  - destruct (HP _ _ Hx) as [B S]. rewrite comma_loop_skip0 by auto. rewrite comma_loop_skip0 by auto using balanced_spaces, safe_spaces.
    change (comma_loop (txt "," ++ s2 ++ r) ((sp ++ s) ++ s1) 0 parts)
      with (comma_loop (s2 ++ r) [] 0 (parts ++ [trim ((sp ++ s) ++ s1)])).
    rewrite comma_loop_skip0 by auto using balanced_spaces, safe_spaces.
    destruct (IH s2 ([] ++ s2) (parts ++ [trim ((sp ++ s) ++ s1)]) eq_refl H2) as (ps & last & E & F & _).
    exists (trim ((sp ++ s) ++ s1) :: ps), last. split; [rewrite E, <- app_assoc; reflexivity|]. split; [|reflexivity].
    cbn [app]. constructor; [|exact F]. exists s. split; [exact Hx|].
    destruct (trim_split s) as (a & b & Es & Ha & Hb). rewrite Es at 1.
    replace ((sp ++ a ++ trim s ++ b) ++ s1) with ((sp ++ a) ++ trim s ++ b ++ s1) by (now rewrite <- !app_assoc).
    apply trim_pad; auto using spaces_app, trim_is_tight.
Qed.
Lemma Forall2_app_last {A B} (R : A -> B -> Prop) ps p xs : Forall2 R (ps ++ [p]) xs -> exists ys y, xs = ys ++ [y] /\ R p y.
Proof.
  intros H. apply Forall2_app_inv_l in H. destruct H as (ys & z & _ & H & ->). inversion H as [|? y ? ? Hy Hn]; subst. inversion Hn; subst.
  now exists ys, y.
Qed.
Theorem split_listed {A} (P : text -> A -> Prop) : (forall s x, P s x -> balanced s /\ safe s /\ trim s <> []) ->
  forall s xs, listed P s xs -> exists ps, split_comma_list s = Ok ps /\
    Forall2 (fun p x => exists t, P t x /\ p = trim t) ps xs.
Proof.
  intros HP s xs H. destruct (comma_listed P) with (s := s) (xs := xs) (sp := @nil ascii) (begin := @nil ascii) (parts := @nil text)
    as (ps & last & E & F & _); auto; [intros t x Hx; destruct (HP t x Hx) as (? & ? & _); auto|constructor|].
  unfold split_comma_list. match goal with |- context [comma_loop ?a ?b ?c ?d] => rewrite (E : comma_loop a b c d = _) end.
  cbn [bindR app]. destruct (Forall2_app_last _ _ _ _ F) as (ys & y & -> & t & Ht & El).
  destruct (HP _ _ Ht) as (_ & _ & Hne). destruct last as [|c last].
  { exfalso. apply Hne. rewrite <- El. reflexivity. }
  exists (ps ++ [trim (c :: last)]). split; [|exact F].
  destruct ps as [|p ps]; cbn [app]; [rewrite El; destruct (trim t); [congruence|reflexivity]|].
  destruct p; [|reflexivity]. destruct ps; reflexivity.
Qed.
Lemma split_spaces s : spaces s -> split_comma_list s = Ok [].
Proof.
  intros H. unfold split_comma_list. rewrite <- (app_nil_r s). rewrite comma_loop_skip0 by auto using balanced_spaces, safe_spaces.
  cbn [comma_loop bindR app]. change ((0 =? 0)%Z) with true. cbn [bindR]. destruct s as [|c s]; [reflexivity|].
  rewrite trim_blank by exact H. reflexivity.
Qed.
(** * The closing parenthesis *)
Lemma close_paren_skip t : forall d d' rest i, paren d t = Some d' ->
  close_paren (t ++ rest) (Z.of_nat (S d)) i = close_paren rest (Z.of_nat (S d')) (i + length t).
Proof.
  induction t as [|c t IH]; intros d d' rest i Hp; cbn [app paren length] in *.
  - injection Hp as ->. now rewrite Nat.add_0_r.
  - cbn [close_paren]. rewrite Nat.add_succ_r, <- Nat.add_succ_l. destruct (Ascii.eqb c "(") eqn:E1.
    + assert (E2 : Ascii.eqb c ")" = false) by (apply Ascii.eqb_eq in E1; now subst). rewrite E2.
      rewrite (proj2 (Z.eqb_neq _ _)) by lia. replace (Z.of_nat (S d) + 1)%Z with (Z.of_nat (S (S d))) by lia. now apply IH.
    + destruct (Ascii.eqb c ")") eqn:E2.
      * destruct d as [|d]; [discriminate|]. rewrite (proj2 (Z.eqb_neq _ _)) by lia.
        replace (Z.of_nat (S (S d)) - 1)%Z with (Z.of_nat (S d)) by lia. now apply IH.
      * rewrite (proj2 (Z.eqb_neq _ _)) by lia. now apply IH.
Qed.
Lemma close_paren_group t rest : balanced t -> close_paren (txt "(" ++ t ++ txt ")" ++ rest) 0 0 = Some (1 + length t)%nat.
Proof.
  intros H. change (close_paren (txt "(" ++ t ++ txt ")" ++ rest) 0 0) with (close_paren (t ++ txt ")" ++ rest) (Z.of_nat 1) 1).
  rewrite (close_paren_skip t 0 0) by apply H. reflexivity.
Qed.
Lemma listed_balanced {A} (P : text -> A -> Prop) : (forall s x, P s x -> balanced s) -> forall s xs, listed P s xs -> balanced s.
Proof.
  intros HP s xs H. induction H as [s x Hx|s x s1 s2 r xs Hx H1 H2 Hr IH]; [eapply HP; eauto|].
  repeat apply balanced_app; auto using balanced_spaces; [eapply HP; eauto|]. apply balanced_plain. repeat constructor.
Qed.
Lemma bit_shape s name i : bit_text s name i -> balanced s /\ safe s /\ trim s <> [].
Proof.
  intros H. pose proof (bit_text_tight _ _ _ H) as Ht. rewrite trim_tight by exact Ht.
  destruct H as [name' s1 s2 ds s3 Hw H1 H2 H3 Hn Hd]. pose proof (digits_word ds Hn Hd) as Hdw.
  assert (W : forall w, word w -> balanced w).
  { intros w [_ Hw']. apply balanced_plain. eapply Forall_impl; [|exact Hw']. intros c Hc. apply word_facts in Hc. tauto. }
  split; [|split].
  - repeat apply balanced_app; auto using balanced_spaces; apply balanced_plain; repeat constructor.
  - repeat apply safe_app; auto using safe_spaces; try (literal; fail); apply safe_word; [apply Hw|apply Hdw].
  - destruct Hw as [Hw _]. destruct name'; [congruence|discriminate].
Qed.
(** angles and operands *)
Theorem split_angles s es : listed expression s es ->
  exists ps, split_comma_list s = Ok ps /\ Circuit.mapR parse_expr ps = match Circuit.mapR (fun e => match value e with Some v => Ok v | None => Throw end) es with Ok vs => Ok vs | _ => Throw end.
Proof.
  intros H. destruct (split_listed expression) with (s := s) (xs := es) as (ps & E & F); [|exact H|].
  { intros t e He. destruct (expression_shape _ _ He) as (? & ? & _ & ?). auto. }
  exists ps. split; [exact E|]. clear E H. induction F as [|p e ps es (t & Ht & ->) F IH]; [reflexivity|].
  cbn [Circuit.mapR]. destruct (expression_shape _ _ Ht) as (_ & _ & He & _). rewrite (parse_expr_value _ _ He).
  destruct (value e) as [v|]; cbn [bindR]; [|reflexivity]. rewrite IH.
  destruct (Circuit.mapR _ es); reflexivity.
Qed.
Theorem split_operands ds s bits : total ds < 2 ^ 64 -> listed (fun s q => bit_text s (fst q) (snd q)) s bits ->
  exists ps, split_comma_list s = Ok ps /\
    Circuit.mapR (fun o => parse_indexed_register o (regs_from 0 ds)) ps =
    Circuit.mapR (fun b => match bit_number ds (fst b) (snd b) with Some k => Ok k | None => Throw end) bits.
Proof.
  intros Ht H. destruct (split_listed (fun s (q : text * N) => bit_text s (fst q) (snd q))) with (s := s) (xs := bits) as (ps & E & F); [|exact H|].
  { intros t b Hb. eapply bit_shape; eauto. }
  exists ps. split; [exact E|]. clear E H. induction F as [|p e ps es (t & Ht' & ->) F IH]; [reflexivity|].
  cbn [Circuit.mapR]. rewrite (trim_tight t) by (eapply bit_text_tight; eauto). rewrite (parse_bit ds t (fst e) (snd e)) by auto.
  destruct (bit_number ds (fst e) (snd e)) as [v|]; cbn [bindR]; [|reflexivity]. now rewrite IH.
Qed.
