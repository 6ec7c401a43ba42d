(** Numbers in angle expressions. *)
From Verif Require Export QasmProofs.
From Coq Require Import Lia ZifyBool ZifyN ZifyNat.
Local Open Scope N_scope.

(** decide a boolean fact about every character *)
Ltac every_char c := destruct c as [[|] [|] [|] [|] [|] [|] [|] [|]]; vm_compute; try reflexivity; try discriminate; intuition discriminate.
Definition boundary_char (c : ascii) : bool :=
  is_space c || existsb (Ascii.eqb c) ["+"%char; "-"%char; "*"%char; "/"%char; ")"%char].
Definition boundary (s : text) : Prop := match s with [] => True | c :: _ => boundary_char c = true end.
Lemma boundary_facts c : boundary_char c = true ->
  is_digit c = false /\ is_hex c = false /\ is_word c = false /\ is_e c = false /\ is_p c = false /\ is_x c = false /\
  Ascii.eqb c "." = false.
Proof. every_char c. Qed.
Lemma is_hex_iff c : is_hex c = true <-> is_hexadecimal c.
Proof.
  unfold is_hex, hex_val, is_hexadecimal. cbv zeta. destruct (is_digit c) eqn:E; [split; auto|].
  destruct ((97 <=? code (to_lower c)) && (code (to_lower c) <=? 102))%bool eqn:E2; split; auto; try discriminate.
  - intros _. right. lia.
  - intros [H|H]; [discriminate|]. lia.
Qed.
Lemma written_num ds : Forall is_decimal ds -> dec_val ds = written 10 ds.
Proof.
  intros H. assert (G : forall a, fold_left (fun a c => 10 * a + digit_val c) ds a = a * 10 ^ N.of_nat (length ds) + written 10 ds).
  { induction H as [|c ds Hc Hds IH]; intros a; [simpl; lia|]. cbn [fold_left length written]. rewrite IH.
    unfold digit_value. rewrite Hc. unfold digit_val, code.
    replace (N.of_nat (S (length ds))) with (1 + N.of_nat (length ds)) by lia. rewrite N.pow_add_r. lia. }
  unfold dec_val. rewrite G. lia.
Qed.
Lemma hex_digit_value c : is_hexadecimal c -> hex_val c = Some (digit_value c).
Proof.
  unfold is_hexadecimal, hex_val, digit_value. cbv zeta. intros H. destruct (is_digit c) eqn:E; [reflexivity|].
  destruct H as [H|H]; [discriminate|]. destruct ((97 <=? code (to_lower c)) && (code (to_lower c) <=? 102))%bool eqn:E2; [reflexivity|lia].
Qed.
Lemma written_hex ds : Forall is_hexadecimal ds -> hex_num ds = written 16 ds.
Proof.
  intros H. assert (G : forall a, fold_left (fun a c => a * 16 + match hex_val c with Some v => v | None => 0 end) ds a =
                                  a * 16 ^ N.of_nat (length ds) + written 16 ds).
  { induction H as [|c ds Hc Hds IH]; intros a; [simpl; lia|]. cbn [fold_left length written]. rewrite IH.
    rewrite (hex_digit_value c Hc).
    replace (N.of_nat (S (length ds))) with (1 + N.of_nat (length ds)) by lia. rewrite N.pow_add_r. lia. }
  unfold hex_num. rewrite G. lia.
Qed.
(** digits followed by something else *)
Definition ends_digits (dig : ascii -> bool) (s : text) : Prop :=
  match s with [] => True | c :: _ => dig c = false end.
Lemma mantissa_complete (dig : ascii -> bool) (P : ascii -> Prop) ip fp m rest :
  (forall c, P c -> dig c = true) -> dig "."%char = false -> mantissa_text P ip fp m ->
  ends_digits dig rest -> (match rest with [] => True | c :: _ => Ascii.eqb c "." = false end) ->
  mantissa dig (m ++ rest) = (ip, fp, rest).
Proof.
  intros HP Hp Hm Hr Hr'. unfold mantissa. destruct Hm as [ip Hn Hd|ip fp Hn Hi Hf].
  - assert (Hd' : Forall (fun c => dig c = true) ip) by (eapply Forall_impl; eauto).
    rewrite take_while_app, drop_while_app_stop by (auto; destruct rest; auto).
    destruct rest as [|c rest]; [reflexivity|]. now rewrite Hr'.
  - assert (Hi' : Forall (fun c => dig c = true) ip) by (eapply Forall_impl; eauto).
    assert (Hf' : Forall (fun c => dig c = true) fp) by (eapply Forall_impl; eauto).
    rewrite <- !app_assoc. rewrite take_while_app, drop_while_app_stop by (auto; exact Hp).
    cbn [app txt to_text list_ascii_of_string]. change ("." =? ".")%char with true. cbv iota.
    rewrite take_while_app, drop_while_app_stop by (auto; destruct rest; auto). reflexivity.
Qed.
Lemma exponent_complete (mark : ascii -> bool) marks ex e rest :
  (forall c, In c marks -> mark c = true) -> exponent_text marks ex e -> boundary rest ->
  (match rest with [] => True | c :: _ => mark c = false end) -> exponent mark (ex ++ rest) = (e, rest).
Proof.
  intros HM He Hb Hm.
  assert (Hr : match rest with [] => True | c :: _ => is_digit c = false end).
  { destruct rest as [|c rest]; [exact I|]. now apply boundary_facts. }
  assert (D : forall ds, ds <> [] -> Forall is_decimal ds -> take_while is_digit (ds ++ rest) = ds /\ drop_while is_digit (ds ++ rest) = rest).
  { intros ds _ Hd. split; [apply take_while_app; auto|apply drop_while_app_stop; auto]. }
  destruct He as [|m ds Hin Hn Hd|m ds Hin Hn Hd|m ds Hin Hn Hd].
  - cbn [app]. unfold exponent. destruct rest as [|c rest]; [reflexivity|]. now rewrite Hm.
  - destruct (D ds Hn Hd) as [E1 E2]. cbn [app]. unfold exponent. rewrite (HM m Hin).
    destruct ds as [|d ds]; [congruence|]. cbn [app]. inversion Hd as [|? ? Hd1 Hd2]; subst.
    destruct (digit_not_sign d Hd1) as [F1 F2]. rewrite F1, F2. cbn [app] in E1, E2. rewrite E1, E2.
    rewrite (written_num (d :: ds)) by exact Hd. reflexivity.
  - destruct (D ds Hn Hd) as [E1 E2]. cbn [app]. unfold exponent. rewrite (HM m Hin).
    change ("+" =? "-")%char with false. change ("+" =? "+")%char with true. cbv iota beta. rewrite E1, E2.
    destruct ds as [|d ds]; [congruence|]. rewrite (written_num (d :: ds)) by exact Hd. reflexivity.
  - destruct (D ds Hn Hd) as [E1 E2]. cbn [app]. unfold exponent. rewrite (HM m Hin).
    change ("-" =? "-")%char with true. cbv iota beta. rewrite E1, E2.
    destruct ds as [|d ds]; [congruence|]. rewrite (written_num (d :: ds)) by exact Hd. reflexivity.
Qed.
Lemma exponent_head marks ex e rest : exponent_text marks ex e ->
  match ex ++ rest with [] => True | c :: _ => In c marks \/ exists r, ex = [] /\ rest = c :: r end.
Proof. intros [|m ds H|m ds H|m ds H]; cbn [app]; auto. destruct rest; eauto. Qed.
Lemma mantissa_nonempty P ip fp m : mantissa_text P ip fp m -> ip ++ fp <> [].
Proof. intros [ip' H _|ip' fp' H _ _]; [now rewrite app_nil_r|exact H]. Qed.
Lemma mantissa_digits P ip fp m : mantissa_text P ip fp m -> Forall P (ip ++ fp).
Proof. intros [ip' _ H|ip' fp' _ H1 H2]; [now rewrite app_nil_r|apply Forall_app; auto]. Qed.
Lemma decimal_complete_dec s v rest : decimal s v -> boundary rest -> strtod_decimal (s ++ rest) = Some (v, rest).
Proof.
  intros [ip fp m ex e Hm He] Hb. unfold strtod_decimal. rewrite <- app_assoc.
  pose proof (exponent_head _ _ _ rest He) as Hh.
  assert (Hf : match ex ++ rest with [] => True | c :: _ => is_digit c = false /\ Ascii.eqb c "." = false end).
  { destruct (ex ++ rest) as [|c r]; [exact I|]. destruct Hh as [[<-|[<-|[]]]|(r' & _ & ->)]; [split; reflexivity|split; reflexivity|].
    split; apply boundary_facts; exact Hb. }
  rewrite (mantissa_complete is_digit is_decimal ip fp m) by
    (auto; destruct (ex ++ rest); simpl; auto; tauto).
  destruct (ip ++ fp) as [|d ds] eqn:E; [now apply mantissa_nonempty in Hm|].
  rewrite (exponent_complete is_e ["e"%char; "E"%char] ex e rest); auto.
  - unfold decimal_value. rewrite written_num by (eapply mantissa_digits; eauto). now rewrite E.
  - intros c [<-|[<-|[]]]; reflexivity.
  - destruct rest as [|c rest]; [exact I|]. now apply boundary_facts.
Qed.
(** a decimal literal never looks like a hexadecimal one *)
Lemma decimal_head s v rest : decimal s v -> boundary rest ->
  match s ++ rest with z :: x :: _ => Ascii.eqb z "0" && is_x x = false | _ => True end%bool.
Proof.
  intros [ip fp m ex e Hm He] Hb. rewrite <- app_assoc. pose proof (exponent_head _ _ _ rest He) as Hh.
  assert (Hx : forall c r, ex ++ rest = c :: r -> is_x c = false).
  { intros c r E. rewrite E in Hh. destruct Hh as [[<-|[<-|[]]]|(r' & _ & ->)]; [reflexivity|reflexivity|]. now apply boundary_facts. }
  assert (Hdig : forall c, is_digit c = true -> is_x c = false) by (intros c; every_char c).
  destruct Hm as [ip Hn Hd|ip fp Hn Hi Hf].
  - destruct ip as [|z ip]; [congruence|]. destruct ip as [|x ip].
    + cbn [app]. destruct (ex ++ rest) as [|x r] eqn:E; [exact I|]. rewrite (Hx x r eq_refl). apply Bool.andb_false_r.
    + cbn [app]. inversion Hd as [|? ? _ Hd1]. inversion Hd1 as [|? ? Hd2]; subst. rewrite (Hdig x Hd2). apply Bool.andb_false_r.
  - destruct ip as [|z ip].
    + cbn [app txt to_text list_ascii_of_string]. destruct (fp ++ ex ++ rest); auto.
    + destruct ip as [|x ip].
      * cbn [app txt to_text list_ascii_of_string]. change (is_x ".") with false. apply Bool.andb_false_r.
      * cbn [app]. inversion Hi as [|? ? _ Hd1]. inversion Hd1 as [|? ? Hd2]; subst. rewrite (Hdig x Hd2). apply Bool.andb_false_r.
Qed.
Theorem strtod_decimal_complete s v rest : decimal s v -> boundary rest -> strtod (s ++ rest) = Some (v, rest).
Proof.
  intros Hd Hb. pose proof (decimal_head s v rest Hd Hb) as Hh. pose proof (decimal_complete_dec s v rest Hd Hb) as E.
  unfold strtod. destruct (s ++ rest) as [|z [|x r]]; [exact E|exact E|]. rewrite Hh. exact E.
Qed.
Theorem strtod_hexadecimal_complete s v rest : hexadecimal s v -> boundary rest -> strtod (s ++ rest) = Some (v, rest).
Proof.
  intros [x ip fp m ex e Hx Hm He] Hb. cbn [app]. unfold strtod.
  assert (Ex : is_x x = true) by (destruct Hx as [->| ->]; reflexivity). rewrite Ex.
  change (("0" =? "0")%char && true)%bool with true. cbv iota. rewrite <- app_assoc.
  pose proof (exponent_head _ _ _ rest He) as Hh.
  assert (Hf : match ex ++ rest with [] => True | c :: _ => is_hex c = false /\ Ascii.eqb c "." = false end).
  { destruct (ex ++ rest) as [|c r]; [exact I|]. destruct Hh as [[<-|[<-|[]]]|(r' & _ & ->)]; [split; reflexivity|split; reflexivity|].
    split; apply boundary_facts; exact Hb. }
  rewrite (mantissa_complete is_hex is_hexadecimal ip fp m); auto.
  2:{ intros c Hc. now apply is_hex_iff. }
  2:{ destruct (ex ++ rest); simpl; auto; tauto. }
  2:{ destruct (ex ++ rest); simpl; auto; tauto. }
  destruct (ip ++ fp) as [|d ds] eqn:E; [now apply mantissa_nonempty in Hm|].
  rewrite (exponent_complete is_p ["p"%char; "P"%char] ex e rest); auto.
  - unfold hex_value. rewrite written_hex by (eapply mantissa_digits; eauto). now rewrite E.
  - intros c [<-|[<-|[]]]; reflexivity.
  - destruct rest as [|c rest]; [exact I|]. now apply boundary_facts.
Qed.
(** * What strtod accepts *)
Lemma mantissa_sound (dig : ascii -> bool) (P : ascii -> Prop) s ip fp r :
  (forall c, dig c = true -> P c) -> mantissa dig s = (ip, fp, r) -> ip ++ fp <> [] ->
  exists m, s = m ++ r /\ mantissa_text P ip fp m.
Proof.
  intros HP E Hn. unfold mantissa in E. pose proof (take_drop_while dig s) as Hs.
  pose proof (take_while_Forall dig s) as Hi. set (i := take_while dig s) in *. set (d := drop_while dig s) in *.
  clearbody i d.
  assert (Hi' : Forall P i) by (eapply Forall_impl; [|exact Hi]; exact HP).
  destruct d as [|c d'].
  - injection E as <- <- <-. exists i. split; [symmetry; exact Hs|]. constructor; [|exact Hi']. now rewrite app_nil_r in Hn.
  - destruct (Ascii.eqb c ".") eqn:Ec.
    + apply Ascii.eqb_eq in Ec. subst c. injection E as <- <- <-.
      exists (i ++ txt "." ++ take_while dig d'). split.
      * rewrite <- Hs. rewrite <- !app_assoc. f_equal. cbn [app txt to_text list_ascii_of_string]. now rewrite take_drop_while.
      * constructor; auto. eapply Forall_impl; [|apply take_while_Forall]. auto.
    + injection E as <- <- <-. exists i. split; [symmetry; exact Hs|]. constructor; [|exact Hi']. now rewrite app_nil_r in Hn.
Qed.
Lemma exponent_sound (mark : ascii -> bool) marks s e r :
  (forall c, mark c = true -> In c marks) -> exponent mark s = (e, r) ->
  exists ex, s = ex ++ r /\ exponent_text marks ex e.
Proof.
  intros HM E. unfold exponent in E. destruct s as [|c s]; [inversion E; exists []; split; [reflexivity|constructor]|].
  destruct (mark c) eqn:Em; [|inversion E; exists []; split; [reflexivity|constructor]].
  specialize (HM c Em).
  set (q := match s with d :: r' => if Ascii.eqb d "-" then (true, r') else if Ascii.eqb d "+" then (false, r') else (false, s) | [] => (false, s) end) in *.
  assert (Hq : exists sg, s = sg ++ snd q /\ (fst q = true /\ sg = txt "-" \/ fst q = false /\ (sg = [] \/ sg = txt "+"))).
  { unfold q. destruct s as [|d r']; [exists []; auto|]. destruct (Ascii.eqb d "-") eqn:E1.
    - apply Ascii.eqb_eq in E1. subst d. exists (txt "-"). auto.
    - destruct (Ascii.eqb d "+") eqn:E2; [apply Ascii.eqb_eq in E2; subst d; exists (txt "+"); auto|exists []; auto]. }
  destruct q as [neg r']. cbn [fst snd] in Hq. destruct Hq as (sg & Es & Hsg).
  pose proof (take_drop_while is_digit r') as Hs. pose proof (take_while_Forall is_digit r') as Hi.
  set (ds := take_while is_digit r') in *. destruct ds as [|d ds0] eqn:Ed.
  { inversion E; subst. exists []; split; [reflexivity|constructor]. }
  inversion E; subst e r. clear E.
  destruct Hsg as [[-> ->]|[-> [->| ->]]].
  - exists (c :: "-"%char :: d :: ds0). split; [rewrite Es, <- Hs at 1; reflexivity|].
    rewrite written_num by exact Hi. now constructor.
  - exists (c :: d :: ds0). split; [cbn [app] in Es; rewrite Es, <- Hs at 1; reflexivity|].
    rewrite written_num by exact Hi. now constructor.
  - exists (c :: "+"%char :: d :: ds0). split; [rewrite Es, <- Hs at 1; reflexivity|].
    rewrite written_num by exact Hi. now constructor.
Qed.
Lemma strtod_decimal_sound s v r : strtod_decimal s = Some (v, r) -> exists l, s = l ++ r /\ decimal l v.
Proof.
  unfold strtod_decimal. destruct (mantissa is_digit s) as [[ip fp] r1] eqn:Em.
  destruct (ip ++ fp) as [|d ds] eqn:En; [discriminate|]. destruct (exponent is_e r1) as [e r2] eqn:Ee.
  intros E. inversion E; subst. clear E.
  destruct (mantissa_sound is_digit is_decimal s ip fp r1) as (m & E1 & Hm); auto; [congruence|].
  destruct (exponent_sound is_e ["e"%char; "E"%char] r1 e r) as (ex & E2 & He); auto.
  { intros c. unfold is_e. rewrite Bool.orb_true_iff, !Ascii.eqb_eq. intros [->| ->]; simpl; auto. }
  exists (m ++ ex). split; [rewrite E1, E2; apply app_assoc|].
  unfold decimal_value. rewrite written_num by (eapply mantissa_digits; eauto). now constructor.
Qed.
Theorem strtod_sound s v r : strtod s = Some (v, r) -> exists l, s = l ++ r /\ (decimal l v \/ hexadecimal l v).
Proof.
  unfold strtod. destruct s as [|z [|x s]].
  1, 2: intros E; apply strtod_decimal_sound in E; destruct E as (l & E1 & H); exists l; auto.
  destruct (Ascii.eqb z "0" && is_x x)%bool eqn:Ez.
  2: intros E; apply strtod_decimal_sound in E; destruct E as (l & E1 & H); exists l; auto.
  apply andb_prop in Ez. destruct Ez as [Ez Ex]. apply Ascii.eqb_eq in Ez. subst z.
  destruct (mantissa is_hex s) as [[ip fp] r1] eqn:Em. destruct (ip ++ fp) as [|d ds] eqn:En.
  { intros E; apply strtod_decimal_sound in E; destruct E as (l & E1 & H); exists l; auto. }
  destruct (exponent is_p r1) as [e r2] eqn:Ee. intros E. inversion E; subst. clear E.
  destruct (mantissa_sound is_hex is_hexadecimal s ip fp r1) as (m & E1 & Hm); auto.
  { intros c Hc. now apply is_hex_iff. } { congruence. }
  destruct (exponent_sound is_p ["p"%char; "P"%char] r1 e r) as (ex & E2 & He); auto.
  { intros c. unfold is_p. rewrite Bool.orb_true_iff, !Ascii.eqb_eq. intros [->| ->]; simpl; auto. }
  exists ("0"%char :: x :: m ++ ex). split; [rewrite E1, E2; cbn [app]; now rewrite app_assoc|]. right.
  unfold hex_value. rewrite written_hex by (eapply mantissa_digits; eauto). constructor; auto.
  unfold is_x in Ex. rewrite Bool.orb_true_iff, !Ascii.eqb_eq in Ex. exact Ex.
Qed.
Lemma decimal_nonempty l v : decimal l v -> l <> [].
Proof.
  intros [ip fp m ex e Hm He] E. apply app_eq_nil in E. destruct E as [-> ->].
  inversion Hm as [? H|ip' fp' H]; subst; [congruence|]. destruct ip; discriminate.
Qed.
Lemma hexadecimal_nonempty l v : hexadecimal l v -> l <> [].
Proof. intros [x ip fp m ex e Hx Hm He]. discriminate. Qed.
