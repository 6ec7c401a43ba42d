(** Splitting a source into statements. *)
From Verif Require Export QasmSpec TextProofs.
From Coq Require Import Lia ZifyBool ZifyN ZifyNat.
Local Open Scope N_scope.

(** * trim *)
Lemma drop_while_app p a s : Forall (fun c => p c = true) a -> drop_while p (a ++ s) = drop_while p s.
Proof. induction 1 as [|c a H Ha IH]; simpl; [reflexivity|]. now rewrite H. Qed.
Lemma drop_while_stop p c s : p c = false -> drop_while p (c :: s) = c :: s.
Proof. intros H. simpl. now rewrite H. Qed.
Lemma drop_while_all p a : Forall (fun c => p c = true) a -> drop_while p a = [].
Proof. intros H. rewrite <- (app_nil_r a). now rewrite drop_while_app. Qed.
Lemma drop_while_spec p s : exists a, s = a ++ drop_while p s /\ Forall (fun c => p c = true) a /\
  match drop_while p s with [] => True | c :: _ => p c = false end.
Proof.
  induction s as [|c s (a & E & Ha & Hs)]; [now exists []|]. simpl. destruct (p c) eqn:Ec.
  - exists (c :: a). split; [simpl; congruence|]. auto.
  - exists []. auto.
Qed.
Lemma take_drop_while p s : take_while p s ++ drop_while p s = s.
Proof. induction s as [|c s IH]; [reflexivity|]. simpl. destruct (p c); simpl; [now rewrite IH|reflexivity]. Qed.
Lemma take_while_app p a s : Forall (fun c => p c = true) a ->
  match s with [] => True | c :: _ => p c = false end -> take_while p (a ++ s) = a.
Proof.
  induction 1 as [|c a H Ha IH]; intros Hs; simpl.
  - destruct s as [|c s]; simpl; [reflexivity|]. now rewrite Hs.
  - now rewrite H, IH.
Qed.
Lemma take_while_Forall p s : Forall (fun c => p c = true) (take_while p s).
Proof. induction s as [|c s IH]; simpl; [constructor|]. destruct (p c) eqn:E; constructor; auto. Qed.
Lemma drop_while_app_stop p a s : Forall (fun c => p c = true) a ->
  match s with [] => True | c :: _ => p c = false end -> drop_while p (a ++ s) = s.
Proof.
  intros Ha Hs. rewrite drop_while_app by exact Ha. destruct s as [|c s]; [reflexivity|]. now apply drop_while_stop.
Qed.
(** texts without spaces at either end *)
Definition tight (s : text) : Prop :=
  s = [] \/ (match s with [] => True | c :: _ => is_space c = false end) /\
            (match rev s with [] => True | c :: _ => is_space c = false end).
Lemma spaces_rev s : spaces s -> spaces (rev s).
Proof. unfold spaces. rewrite !Forall_forall. intros H c Hc. apply H. now apply in_rev. Qed.
Lemma trim_pad a s b : spaces a -> tight s -> spaces b -> trim (a ++ s ++ b) = s.
Proof.
  intros Ha Hs Hb. unfold trim. rewrite drop_while_app by exact Ha. destruct Hs as [->|[H1 H2]].
  - simpl. rewrite (drop_while_all _ b) by exact Hb. reflexivity.
  - destruct s as [|c s].
    + simpl. rewrite (drop_while_all _ b) by exact Hb. reflexivity.
    + change ((c :: s) ++ b) with (c :: (s ++ b)). rewrite drop_while_stop by exact H1.
      change (c :: s ++ b) with ((c :: s) ++ b). rewrite rev_app_distr. rewrite drop_while_app by (now apply spaces_rev).
      destruct (rev (c :: s)) as [|d r] eqn:E.
      * apply (f_equal (@rev _)) in E. rewrite rev_involutive in E. discriminate.
      * rewrite drop_while_stop by exact H2. rewrite <- E. apply rev_involutive.
Qed.
Lemma trim_tight s : tight s -> trim s = s.
Proof. intros H. rewrite <- (app_nil_l s) at 1. rewrite <- (app_nil_r s) at 1. rewrite trim_pad; auto; constructor. Qed.
Lemma trim_blank a : spaces a -> trim a = [].
Proof. intros H. unfold trim. rewrite (drop_while_all _ a H). reflexivity. Qed.
Lemma trim_nil_spaces s : trim s = [] -> spaces s.
Proof.
  unfold trim. intros H. destruct (drop_while_spec is_space s) as (a & E & Ha & Hs).
  destruct (drop_while is_space s) as [|c r] eqn:Ed.
  - rewrite app_nil_r in E. now subst.
  - exfalso. destruct (drop_while_spec is_space (rev (c :: r))) as (b & E' & Hb & _).
    apply (f_equal (@rev _)) in H. rewrite rev_involutive in H. simpl in H. simpl in E'. rewrite H, app_nil_r in E'.
    assert (In c b) by (rewrite <- E'; apply in_or_app; right; now left).
    rewrite Forall_forall in Hb. specialize (Hb c H0). congruence.
Qed.
Lemma trim_is_tight s : tight (trim s).
Proof.
  unfold trim. destruct (drop_while_spec is_space s) as (a & E & Ha & Hs).
  set (d := drop_while is_space s) in *. destruct (drop_while_spec is_space (rev d)) as (b & E' & Hb & Hs').
  set (r := drop_while is_space (rev d)) in *.
  destruct r as [|c r0] eqn:Er; [now left|]. right. split.
  - assert (Ed : d = rev (c :: r0) ++ rev b) by (rewrite <- (rev_involutive d), E', rev_app_distr; reflexivity).
    destruct (rev (c :: r0)) as [|x y] eqn:Ex; [exact I|]. rewrite Ed in Hs. exact Hs.
  - rewrite rev_involutive. exact Hs'.
Qed.
Lemma trim_split s : exists a b, s = a ++ trim s ++ b /\ spaces a /\ spaces b.
Proof.
  unfold trim. destruct (drop_while_spec is_space s) as (a & E & Ha & Hs).
  set (d := drop_while is_space s) in *. destruct (drop_while_spec is_space (rev d)) as (b & E' & Hb & Hs').
  exists a, (rev b). split; [|split; [exact Ha|now apply spaces_rev]].
  rewrite E at 1. f_equal. rewrite <- (rev_involutive d), E' at 1. now rewrite rev_app_distr.
Qed.

(** * The characters outside comments *)
(** the part of the lexer that characters outside comments change *)
Definition pending : Type := list statement * text * location * bool.
Definition view (x : lexer) : pending := (x_statements x, x_current x, x_current_loc x, x_has_content x).
Definition push (p : pending) (t : token) : pending :=
  let '(sts, cur, cl, hc) := p in
  let start := negb hc && negb (is_space (tk_char t)) in
  let cl := if start then tk_loc t else cl in
  let hc := hc || start in
  if negb (tk_quoted t) && Ascii.eqb (tk_char t) ";" then
    (match trim cur with [] => sts | s => sts ++ [Statement s cl] end, [], cl, false)
  else (sts, cur ++ [tk_char t], cl, hc).
Definition plain (x : lexer) (l : location) : Prop :=
  x_loc x = l /\ x_in_line_comment x = false /\ x_in_block_comment x = false /\ x_in_string x = false.
Definition ends (e : ending) (x : lexer) : Prop :=
  x_in_block_comment x = match e with OpenComment => true | _ => false end /\
  x_in_string x = match e with OpenString => true | _ => false end.

Lemma advance_next c l : advance c l = next_location l c.
Proof. reflexivity. Qed.
Lemma begins2 a b s : begins [a; b] s <-> exists r, s = a :: b :: r.
Proof. split; intros [r ->]; exists r; reflexivity. Qed.
(** inside a line comment *)
Lemma line_comment_loop a : ~ In newline a -> forall s x, x_in_line_comment x = true ->
  split_loop (a ++ s) x =
  split_loop s (Lexer (x_statements x) (x_current x) (x_current_loc x) (after (x_loc x) a) (x_has_content x) true
                      (x_in_block_comment x) (x_in_string x)).
Proof.
  induction a as [|c a IH]; intros Ha s x Hx.
  - destruct x; cbn in *. now subst.
  - cbn [app split_loop]. rewrite Hx. rewrite (proj2 (Ascii.eqb_neq c newline)) by (intros ->; apply Ha; now left).
    rewrite IH; [|intros H; apply Ha; now right|exact Hx]. reflexivity.
Qed.
Lemma block_comment_loop a : ~ contains (txt "*/") (a ++ txt "*") -> forall s x,
  x_in_line_comment x = false -> x_in_block_comment x = true ->
  split_loop (a ++ txt "*/" ++ s) x =
  split_loop s (Lexer (x_statements x) (x_current x) (x_current_loc x) (after (x_loc x) (a ++ txt "*/")) (x_has_content x) false
                      false (x_in_string x)).
Proof.
  induction a as [|c a IH]; intros Ha s x Hl Hx.
  - cbn -[advance next_location x_advance x_set_block]. rewrite Hl, Hx. unfold x_set_block, x_advance. cbn. now rewrite Hl.
  - assert (Hn : ~ contains (txt "*/") (a ++ txt "*")).
    { intros (u & v & E). apply Ha. exists (c :: u), v. cbn [app]. now rewrite E. }
    cbn [app split_loop]. rewrite Hl, Hx.
    destruct (a ++ txt "*/" ++ s) as [|d r] eqn:Er; [destruct a; discriminate|].
    destruct (Ascii.eqb c "*" && Ascii.eqb d "/")%bool eqn:Ec.
    + exfalso. apply andb_prop in Ec. destruct Ec as [E1 E2]. apply Ascii.eqb_eq in E1, E2. subst c d. apply Ha.
      destruct a as [|d' a]; [discriminate|]. simpl in Er. injection Er as -> Er. exists [], (a ++ txt "*"). reflexivity.
    + rewrite <- Er. rewrite IH by (auto; destruct x; cbn in *; auto). reflexivity.
Qed.
Lemma open_block_loop a : ~ contains (txt "*/") a -> forall x, x_in_line_comment x = false -> x_in_block_comment x = true ->
  x_in_block_comment (split_loop a x) = true.
Proof.
  induction a as [|c a IH]; intros Ha x Hl Hx; [exact Hx|]. cbn [split_loop]. rewrite Hl, Hx.
  destruct a as [|d r]; [exact Hx|]. destruct (Ascii.eqb c "*" && Ascii.eqb d "/")%bool eqn:Ec.
  - exfalso. apply andb_prop in Ec. destruct Ec as [E1 E2]. apply Ascii.eqb_eq in E1, E2. subst c d. apply Ha.
    exists [], r. reflexivity.
  - apply IH; auto. intros (u & v & E). apply Ha. exists (c :: u), v. cbn [app]. now rewrite E.
Qed.
(** inside a string *)
Lemma x_content_view c x : x_in_string x = true -> c <> """"%char ->
  view (x_content c x) = push (view x) (Token c (x_loc x) true) /\ x_loc (x_content c x) = x_loc x /\
  x_in_line_comment (x_content c x) = x_in_line_comment x /\ x_in_block_comment (x_content c x) = x_in_block_comment x /\
  x_in_string (x_content c x) = true.
Proof.
  intros Hs Hc. unfold x_content, view, push. rewrite (proj2 (Ascii.eqb_neq c """")) by exact Hc. rewrite Hs. cbn.
  auto.
Qed.
Lemma advance_view c x : view (x_advance c x) = view x /\ x_loc (x_advance c x) = next_location (x_loc x) c /\
  x_in_line_comment (x_advance c x) = x_in_line_comment x /\ x_in_block_comment (x_advance c x) = x_in_block_comment x /\
  x_in_string (x_advance c x) = x_in_string x.
Proof. auto. Qed.
Lemma string_loop a : ~ In """"%char a -> forall s x, x_in_line_comment x = false -> x_in_block_comment x = false ->
  x_in_string x = true ->
  exists x', split_loop (a ++ s) x = split_loop s x' /\ view x' = fold_left push (mark true (x_loc x) a) (view x) /\
    x_loc x' = after (x_loc x) a /\ x_in_line_comment x' = false /\ x_in_block_comment x' = false /\ x_in_string x' = true.
Proof.
  induction a as [|c a IH]; intros Ha s x Hl Hb Hs; [exists x; auto 10|].
  destruct (x_content_view c x Hs) as (E1 & E2 & E3 & E4 & E5); [intros ->; apply Ha; now left|].
  set (x1 := x_content c x) in *. destruct (advance_view c x1) as (F1 & F2 & F3 & F4 & F5). set (x2 := x_advance c x1) in *.
  destruct (IH (fun H => Ha (or_intror H)) s x2) as (x' & G1 & G2 & G3 & G4 & G5 & G6); try congruence.
  exists x'. split; [|split; [|split; [|auto]]].
  - cbn [app split_loop]. rewrite Hl, Hb, Hs. cbn [negb andb]. destruct (a ++ s) eqn:E; [|exact G1].
    cbn [split_loop] in G1. exact G1.
  - rewrite G2, F1, F2, E1, E2. reflexivity.
  - rewrite G3, F2, E2. reflexivity.
Qed.
Lemma quote_view x : x_in_string x = false ->
  view (x_content """" x) = push (view x) (Token """" (x_loc x) true) /\ x_loc (x_content """" x) = x_loc x /\
  x_in_line_comment (x_content """" x) = x_in_line_comment x /\ x_in_block_comment (x_content """" x) = x_in_block_comment x /\
  x_in_string (x_content """" x) = true.
Proof. intros Hs. unfold x_content, view, push. rewrite Hs. cbn. auto. Qed.
Lemma unquote_view x : x_in_string x = true ->
  view (x_content """" x) = push (view x) (Token """" (x_loc x) true) /\ x_loc (x_content """" x) = x_loc x /\
  x_in_line_comment (x_content """" x) = x_in_line_comment x /\ x_in_block_comment (x_content """" x) = x_in_block_comment x /\
  x_in_string (x_content """" x) = false.
Proof. intros Hs. unfold x_content, view, push. rewrite Hs. cbn. auto. Qed.
Lemma char_view c x : x_in_string x = false -> c <> """"%char ->
  view (x_content c x) = push (view x) (Token c (x_loc x) false) /\ x_loc (x_content c x) = x_loc x /\
  x_in_line_comment (x_content c x) = x_in_line_comment x /\ x_in_block_comment (x_content c x) = x_in_block_comment x /\
  x_in_string (x_content c x) = false.
Proof.
  intros Hs Hc. unfold x_content, view, push. rewrite (proj2 (Ascii.eqb_neq c """")) by exact Hc. rewrite Hs.
  cbn [negb andb tk_char tk_loc tk_quoted]. destruct (Ascii.eqb c ";"); cbn; destruct (trim (x_current x)); auto.
Qed.
Lemma after_app l a b : after l (a ++ b) = after (after l a) b.
Proof. apply fold_left_app. Qed.
Lemma mark_app q a : forall l b, mark q l (a ++ b) = mark q l a ++ mark q (after l a) b.
Proof. induction a as [|c a IH]; intros l b; [reflexivity|]. cbn [app mark]. now rewrite IH. Qed.
(** one step outside comments and strings that is not the start of a comment *)
Lemma plain_step c s x l : plain x l -> ~ begins (txt "//") (c :: s) -> ~ begins (txt "/*") (c :: s) ->
  split_loop (c :: s) x = split_loop s (x_advance c (x_content c x)).
Proof.
  intros (Hl & H1 & H2 & H3) N1 N2. cbn [split_loop]. rewrite H1, H2, H3. destruct s as [|d r]; [reflexivity|].
  cbn [negb andb]. destruct (Ascii.eqb c "/") eqn:E1; [|reflexivity]. apply Ascii.eqb_eq in E1. subst c. cbn [andb].
  destruct (Ascii.eqb d "/") eqn:E2.
  { apply Ascii.eqb_eq in E2. subst d. exfalso. apply N1. now exists r. }
  destruct (Ascii.eqb d "*") eqn:E3; [|reflexivity]. apply Ascii.eqb_eq in E3. subst d. exfalso. apply N2. now exists r.
Qed.
Lemma scan_loop l s ts e : scan l s ts e -> forall x, plain x l ->
  ends e (split_loop s x) /\ (e = Complete -> view (split_loop s x) = fold_left push ts (view x)).
Proof.
  induction 1 as [l|l c s ts e Hc N1 N2 Hs IH|l a s ts e Ha Hs IH|l a Ha|l a s ts e Ha Hs IH|l a Ha|l a s ts e Ha Hs IH|l a Ha];
    intros x Hx.
  - destruct Hx as (_ & _ & H2 & H3). simpl. split; [split; auto|auto].
  - rewrite (plain_step c s x l Hx N1 N2). destruct Hx as (E0 & H1 & H2 & H3).
    destruct (char_view c x H3 Hc) as (E1 & E2 & E3 & E4 & E5). set (x1 := x_content c x) in *.
    destruct (advance_view c x1) as (F1 & F2 & F3 & F4 & F5). set (x2 := x_advance c x1) in *.
    destruct (IH x2) as [I1 I2]; [unfold plain; rewrite F2, F3, F4, F5, E2, E3, E4, E5, E0; auto|].
    split; [exact I1|]. intros He. rewrite (I2 He). cbn [fold_left]. rewrite F1, E1, E0. reflexivity.
  - destruct Hx as (E0 & H1 & H2 & H3).
    assert (E : split_loop (txt "//" ++ a ++ [newline] ++ s) x =
                split_loop (a ++ [newline] ++ s) (x_advance "/" (x_advance "/" (x_set_line true x))))
      by (cbn -[x_advance x_set_line]; rewrite H1, H2, H3; reflexivity).
    rewrite E, line_comment_loop by (try exact Ha; reflexivity). cbn [app split_loop].
    cbn [x_in_line_comment]. rewrite Ascii.eqb_refl.
    match goal with |- ends e (split_loop s ?y) /\ _ => destruct (IH y) as [I1 I2] end.
    + unfold plain. cbn [x_advance x_set_line x_loc x_in_line_comment x_in_block_comment x_in_string].
      rewrite E0. repeat split; auto. rewrite !after_app. reflexivity.
    + split; [exact I1|]. intros He. rewrite (I2 He). reflexivity.
  - destruct Hx as (E0 & H1 & H2 & H3).
    assert (E : split_loop (txt "//" ++ a) x = split_loop (a ++ []) (x_advance "/" (x_advance "/" (x_set_line true x))))
      by (rewrite app_nil_r; cbn -[x_advance x_set_line]; rewrite H1, H2, H3; reflexivity).
    rewrite E, line_comment_loop by (try exact Ha; reflexivity). unfold ends. cbn. auto.
  - destruct Hx as (E0 & H1 & H2 & H3).
    assert (E : split_loop (txt "/*" ++ a ++ txt "*/" ++ s) x =
                split_loop (a ++ txt "*/" ++ s) (x_advance "*" (x_advance "/" (x_set_block true x))))
      by (cbn -[x_advance x_set_block]; rewrite H1, H2, H3; reflexivity).
    rewrite E, block_comment_loop by (try exact Ha; try reflexivity; exact H1).
    match goal with |- ends e (split_loop s ?y) /\ _ => destruct (IH y) as [I1 I2] end.
    + unfold plain. cbn [x_advance x_set_block x_loc x_in_line_comment x_in_block_comment x_in_string].
      rewrite E0. repeat split; auto.
    + split; [exact I1|]. intros He. rewrite (I2 He). reflexivity.
  - destruct Hx as (E0 & H1 & H2 & H3).
    assert (E : split_loop (txt "/*" ++ a) x = split_loop a (x_advance "*" (x_advance "/" (x_set_block true x))))
      by (cbn -[x_advance x_set_block]; rewrite H1, H2, H3; reflexivity).
    rewrite E. split; [|discriminate]. split; [apply open_block_loop; auto|].
    clear E. assert (G : forall s x, x_in_line_comment x = false -> x_in_block_comment x = true -> ~ contains (txt "*/") s ->
      x_in_string (split_loop s x) = x_in_string x).
    { induction s as [|c s IH]; intros y G1 G2 G3; [reflexivity|]. cbn [split_loop]. rewrite G1, G2.
      destruct s as [|d r]; [reflexivity|]. destruct (Ascii.eqb c "*" && Ascii.eqb d "/")%bool eqn:Ec.
      - exfalso. apply andb_prop in Ec. destruct Ec as [F1 F2]. apply Ascii.eqb_eq in F1, F2. subst c d. apply G3.
        exists [], r. reflexivity.
      - rewrite IH; auto. intros (u & v & E). apply G3. exists (c :: u), v. cbn [app]. now rewrite E. }
    rewrite G; auto.
  - pose proof Hx as (E0 & H1 & H2 & H3).
    change (txt """" ++ a ++ txt """" ++ s) with (""""%char :: (a ++ txt """" ++ s)).
    rewrite (plain_step _ _ x l Hx) by (intros [r E]; discriminate).
    destruct (quote_view x H3) as (E1 & E2 & E3 & E4 & E5). set (x1 := x_content """" x) in *.
    destruct (advance_view """" x1) as (F1 & F2 & F3 & F4 & F5). set (x2 := x_advance """" x1) in *.
    destruct (string_loop a Ha (txt """" ++ s) x2) as (x' & G1 & G2 & G3 & G4 & G5 & G6); try congruence.
    rewrite G1. cbn [app txt to_text list_ascii_of_string].
    assert (E : split_loop (""""%char :: s) x' = split_loop s (x_advance """" (x_content """" x'))).
    { cbn [split_loop]. rewrite G4, G5, G6. cbn [negb andb]. destruct s; reflexivity. }
    rewrite E. destruct (unquote_view x' G6) as (K1 & K2 & K3 & K4 & K5). set (x3 := x_content """" x') in *.
    destruct (advance_view """" x3) as (L1 & L2 & L3 & L4 & L5). set (x4 := x_advance """" x3) in *.
    destruct (IH x4) as [I1 I2].
    + unfold plain. rewrite L2, L3, L4, L5, K2, K3, K4, K5, G3, F2, E2, E0. repeat split; auto.
      rewrite !after_app. reflexivity.
    + split; [exact I1|]. intros He. rewrite (I2 He).
      rewrite L1, K1, G2, F1, E1, G3, F2, E2, E0. change (txt """" ++ a ++ txt """") with (""""%char :: (a ++ txt """")).
      cbn [mark app fold_left]. rewrite mark_app, !fold_left_app. reflexivity.
  - pose proof Hx as (E0 & H1 & H2 & H3). split; [|discriminate].
    change (txt """" ++ a) with (""""%char :: a).
    rewrite (plain_step _ _ x l Hx) by (intros [r E]; discriminate).
    destruct (quote_view x H3) as (E1 & E2 & E3 & E4 & E5). set (x1 := x_content """" x) in *.
    destruct (advance_view """" x1) as (F1 & F2 & F3 & F4 & F5). set (x2 := x_advance """" x1) in *.
    destruct (string_loop a Ha [] x2) as (x' & G1 & G2 & G3 & G4 & G5 & G6); try congruence.
    rewrite app_nil_r in G1. rewrite G1. cbn. split; auto.
Qed.

(** * The statements *)
Lemma push_other p t : ~ separator t ->
  push p t = (fst (fst (fst p)), snd (fst (fst p)) ++ [tk_char t],
              if negb (snd p) && negb (is_space (tk_char t)) then tk_loc t else snd (fst p),
              snd p || (negb (snd p) && negb (is_space (tk_char t))))%bool.
Proof.
  intros H. destruct p as [[[sts cur] cl] hc]. unfold push. cbn [fst snd].
  destruct (negb (tk_quoted t) && Ascii.eqb (tk_char t) ";")%bool eqn:E; [|reflexivity].
  exfalso. apply H. apply andb_prop in E. destruct E as [E1 E2]. apply Ascii.eqb_eq in E2.
  split; [exact E2|]. now destruct (tk_quoted t).
Qed.
Lemma push_blank ts : (forall t, In t ts -> ~ separator t) -> blank ts -> forall sts cur cl hc,
  fold_left push ts (sts, cur, cl, hc) = (sts, cur ++ map tk_char ts, cl, hc).
Proof.
  induction ts as [|t ts IH]; intros Hn Hb sts cur cl hc; [simpl; now rewrite app_nil_r|].
  cbn [fold_left]. rewrite push_other by (apply Hn; now left). cbn [fst snd]. inversion Hb as [|? ? H1 H2]; subst.
  rewrite H1. cbn [negb andb]. rewrite !Bool.andb_false_r, Bool.orb_false_r. rewrite IH; [|intros u Hu; apply Hn; now right|exact H2].
  cbn [map]. now rewrite <- app_assoc.
Qed.
Lemma push_more ts : (forall t, In t ts -> ~ separator t) -> forall sts cur cl,
  fold_left push ts (sts, cur, cl, true) = (sts, cur ++ map tk_char ts, cl, true).
Proof.
  induction ts as [|t ts IH]; intros Hn sts cur cl; [simpl; now rewrite app_nil_r|].
  cbn [fold_left]. rewrite push_other by (apply Hn; now left). cbn [fst snd negb andb orb].
  rewrite IH by (intros u Hu; apply Hn; now right). cbn [map]. now rewrite <- app_assoc.
Qed.
Lemma push_separator sep sts cur cl hc : separator sep ->
  exists cl', push (sts, cur, cl, hc) sep =
    (match trim cur with [] => sts | s => sts ++ [Statement s (if hc then cl else tk_loc sep)] end, [], cl', false).
Proof.
  intros [H1 H2]. unfold push. rewrite H1, H2. cbn [negb andb]. change (";" =? ";")%char with true. cbv iota. eexists.
  destruct hc; reflexivity.
Qed.
Lemma spaces_blank ts : blank ts <-> spaces (map tk_char ts).
Proof. unfold blank, spaces. rewrite Forall_map. reflexivity. Qed.
Lemma body_tight body : (exists first r, body = first :: r /\ is_space (tk_char first) = false) ->
  (exists r last, body = r ++ [last] /\ is_space (tk_char last) = false) -> tight (map tk_char body).
Proof.
  intros (f & r & E1 & H1) (r' & z & E2 & H2). right. split.
  - subst body. exact H1.
  - rewrite E2, map_app, rev_app_distr. exact H2.
Qed.
Lemma statements_fold ts sts rest : statements ts sts rest -> forall sts0 cl, exists cl' hc,
  fold_left push ts (sts0, [], cl, false) = (sts0 ++ sts, map tk_char rest, cl', hc).
Proof.
  induction 1 as [ts Hn|ts sep more sts rest Hn Hs Hb Hm IH|ts sep st more sts rest Hn Hs Hh Hm IH]; intros sts0 cl.
  - rewrite app_nil_r. assert (G : forall ts, (forall t, In t ts -> ~ separator t) -> forall p, exists cl' hc,
      fold_left push ts p = (fst (fst (fst p)), snd (fst (fst p)) ++ map tk_char ts, cl', hc)).
    { clear. induction ts as [|t ts IH]; intros Hn p.
      - exists (snd (fst p)), (snd p). destruct p as [[[? ?] ?] ?]. simpl. now rewrite app_nil_r.
      - cbn [fold_left]. rewrite push_other by (apply Hn; now left).
        destruct (IH (fun u Hu => Hn u (or_intror Hu)) (fst (fst (fst p)), snd (fst (fst p)) ++ [tk_char t],
              if negb (snd p) && negb (is_space (tk_char t)) then tk_loc t else snd (fst p),
              snd p || (negb (snd p) && negb (is_space (tk_char t))))%bool) as (cl' & hc & E).
        exists cl', hc. rewrite E. cbn [fst snd map]. now rewrite <- app_assoc. }
    destruct (G ts Hn (sts0, [], cl, false)) as (cl' & hc & E). exists cl', hc. exact E.
  - rewrite fold_left_app. rewrite push_blank by auto. rewrite fold_left_app. cbn [fold_left].
    destruct (push_separator sep sts0 ([] ++ map tk_char ts) cl false Hs) as (cl' & E).
    match goal with |- context [fold_left push more ?q] => rewrite (E : q = _) end.
    cbn [app]. rewrite trim_blank by (now apply spaces_blank). apply IH.
  - destruct Hh as (a & body & b & E1 & Ha & Hb & E2 & (f & r & E3 & Hf & E4) & Hl).
    rewrite fold_left_app. subst ts. rewrite !fold_left_app.
    assert (Na : forall t, In t a -> ~ separator t) by (intros t Ht; apply Hn; apply in_or_app; now left).
    assert (Nbody : forall t, In t body -> ~ separator t)
      by (intros t Ht; apply Hn; apply in_or_app; right; apply in_or_app; now left).
    assert (Nb : forall t, In t b -> ~ separator t)
      by (intros t Ht; apply Hn; apply in_or_app; right; apply in_or_app; now right).
    rewrite push_blank by auto. subst body. cbn [fold_left].
    rewrite (push_other _ f) by (apply Nbody; now left). cbn [fst snd]. rewrite Hf. cbn [negb andb orb].
    rewrite push_more by (intros t Ht; apply Nbody; now right). rewrite push_more by exact Nb.
    destruct (push_separator sep sts0 ((((([] ++ map tk_char a) ++ [tk_char f]) ++ map tk_char r)) ++ map tk_char b) (tk_loc f) true Hs)
      as (cl' & E).
    match goal with |- context [fold_left push more ?q] => rewrite (E : q = _) end. cbn [app].
    replace (((map tk_char a ++ [tk_char f]) ++ map tk_char r) ++ map tk_char b)
      with (map tk_char a ++ map tk_char (f :: r) ++ map tk_char b)
      by (cbn [map]; rewrite <- !app_assoc; reflexivity).
    rewrite trim_pad; [|now apply spaces_blank| |now apply spaces_blank].
    2:{ apply body_tight; [now exists f, r|exact Hl]. }
    cbn [map]. destruct (IH (sts0 ++ [Statement (tk_char f :: map tk_char r) (tk_loc f)]) cl') as (cl2 & hc & E5).
    exists cl2, hc. rewrite E5. rewrite <- app_assoc. f_equal. f_equal. f_equal. cbn [app].
    destruct st as [tx lo]. cbn [st_text st_loc] in *. subst. reflexivity.
Qed.

Theorem split_statements_ok source ts sts rest : scan (Loc 1 1) source ts Complete -> statements ts sts rest -> blank rest ->
  split_statements source = Ok sts.
Proof.
  intros Hs Ht Hb. unfold split_statements. set (x0 := Lexer [] [] (Loc 1 1) (Loc 1 1) false false false false).
  destruct (scan_loop _ _ _ _ Hs x0) as [[E1 E2] E3]; [repeat split|]. rewrite E1, E2.
  specialize (E3 eq_refl). destruct (statements_fold _ _ _ Ht [] (Loc 1 1)) as (cl & hc & E4).
  change (view x0) with ((@nil statement, @nil ascii, Loc 1 1, false) : pending) in E3. rewrite E4 in E3.
  unfold view in E3. inversion E3 as [[F1 F2 F3 F4]]. rewrite F2. rewrite trim_blank by (now apply spaces_blank).
  rewrite F1. reflexivity.
Qed.
Theorem split_statements_missing source ts sts rest : scan (Loc 1 1) source ts Complete -> statements ts sts rest -> ~ blank rest ->
  split_statements source = Throw.
Proof.
  intros Hs Ht Hb. unfold split_statements. set (x0 := Lexer [] [] (Loc 1 1) (Loc 1 1) false false false false).
  destruct (scan_loop _ _ _ _ Hs x0) as [[E1 E2] E3]; [repeat split|]. rewrite E1, E2.
  specialize (E3 eq_refl). destruct (statements_fold _ _ _ Ht [] (Loc 1 1)) as (cl & hc & E4).
  change (view x0) with ((@nil statement, @nil ascii, Loc 1 1, false) : pending) in E3. rewrite E4 in E3.
  unfold view in E3. inversion E3 as [[F1 F2 F3 F4]]. rewrite F2.
  destruct (trim (map tk_char rest)) eqn:E; [|reflexivity]. exfalso. apply Hb. apply spaces_blank. now apply trim_nil_spaces.
Qed.
Theorem split_statements_open source ts e : scan (Loc 1 1) source ts e -> e <> Complete -> split_statements source = Throw.
Proof.
  intros Hs He. unfold split_statements. set (x0 := Lexer [] [] (Loc 1 1) (Loc 1 1) false false false false).
  destruct (scan_loop _ _ _ _ Hs x0) as [[E1 E2] _]; [repeat split|]. rewrite E1, E2.
  destruct e; [congruence|reflexivity|reflexivity].
Qed.

(** * Every source can be read this way *)
Lemma find_newline s : (exists a b, s = a ++ [newline] ++ b /\ ~ In newline a) \/ ~ In newline s.
Proof.
  induction s as [|c s IH]; [right; auto|]. destruct (Ascii.eqb c newline) eqn:E.
  - apply Ascii.eqb_eq in E. subst. left. exists [], s. auto.
  - apply Ascii.eqb_neq in E. destruct IH as [(a & b & -> & H)|H].
    + left. exists (c :: a), b. split; [reflexivity|]. intros [H'|H']; congruence.
    + right. intros [H'|H']; congruence.
Qed.
Lemma find_quote s : (exists a b, s = a ++ txt """" ++ b /\ ~ In """"%char a) \/ ~ In """"%char s.
Proof.
  induction s as [|c s IH]; [right; auto|]. destruct (Ascii.eqb c """") eqn:E.
  - apply Ascii.eqb_eq in E. subst. left. exists [], s. auto.
  - apply Ascii.eqb_neq in E. destruct IH as [(a & b & -> & H)|H].
    + left. exists (c :: a), b. split; [reflexivity|]. intros [H'|H']; congruence.
    + right. intros [H'|H']; congruence.
Qed.
Lemma contains_cons t c s : contains t (c :: s) <-> begins t (c :: s) \/ contains t s.
Proof.
  split.
  - intros ([|d a] & b & E).
    + left. now exists b.
    + right. injection E as -> E. now exists a, b.
  - intros [[b E]|(a & b & E)]; [now exists [], b|]. exists (c :: a), b. now rewrite E.
Qed.
Lemma find_close s : (exists a b, s = a ++ txt "*/" ++ b /\ ~ contains (txt "*/") (a ++ txt "*")) \/ ~ contains (txt "*/") s.
Proof.
  induction s as [|c s IH]; [right; intros (a & b & E); destruct a; discriminate|].
  destruct s as [|d r].
  { right. intros ([|x [|y a]] & b & E); discriminate. }
  destruct (Ascii.eqb c "*" && Ascii.eqb d "/")%bool eqn:E.
  - apply andb_prop in E. destruct E as [E1 E2]. apply Ascii.eqb_eq in E1, E2. subst. left. exists [], r. split; [reflexivity|].
    intros ([|x [|y a]] & b & E); discriminate.
  - assert (Hb : ~ begins (txt "*/") (c :: d :: r)).
    { intros [b F]. injection F as -> -> F. discriminate. }
    destruct IH as [(a & b & E' & H)|H].
    + left. exists (c :: a), b. split; [now rewrite E'|]. cbn [app]. rewrite contains_cons. intros [[b' F]|F]; [|tauto].
      apply Hb. destruct a as [|x a]; [discriminate|]. injection F as -> -> F. injection E' as -> E'. now exists r.
    + right. rewrite contains_cons. tauto.
Qed.
Theorem scan_total s : forall l, exists ts e, scan l s ts e.
Proof.
  remember (List.length s) as n eqn:En. assert (Hn : (List.length s <= n)%nat) by lia. clear En. revert s Hn.
  induction n as [|n IH]; intros s Hn l.
  { destruct s; [|simpl in Hn; lia]. exists [], Complete. constructor. }
  destruct s as [|c s]; [exists [], Complete; constructor|]. simpl in Hn.
  destruct (Ascii.eqb c """") eqn:Eq.
  { apply Ascii.eqb_eq in Eq. subst c. destruct (find_quote s) as [(a & b & -> & Ha)|Ha].
    - rewrite !app_length in Hn. destruct (IH b ltac:(lia) (after l (txt """" ++ a ++ txt """"))) as (ts & e & H).
      eexists _, e. apply (scan_string l a b ts e); assumption.
    - eexists _, OpenString. apply (scan_open_string l s Ha). }
  apply Ascii.eqb_neq in Eq.
  destruct (Ascii.eqb c "/") eqn:Ec; [apply Ascii.eqb_eq in Ec; subst c|].
  1: destruct s as [|d r]; [|destruct (Ascii.eqb d "/") eqn:Ed; [|destruct (Ascii.eqb d "*") eqn:Ed']].
  - destruct (IH [] ltac:(simpl; lia) (next_location l "/")) as (ts & e & H). exists (Token "/" l false :: ts), e.
    apply scan_char; auto; intros [b E]; discriminate.
  - apply Ascii.eqb_eq in Ed. subst d. destruct (find_newline r) as [(a & b & -> & Ha)|Ha].
    + cbn [List.length] in Hn. rewrite !app_length in Hn.
      destruct (IH b ltac:(lia) (after l (txt "//" ++ a ++ [newline]))) as (ts & e & H).
      exists ts, e. apply (scan_line_comment l a b ts e); assumption.
    + exists [], Complete. apply (scan_last_line_comment l r Ha).
  - apply Ascii.eqb_eq in Ed'. subst d. destruct (find_close r) as [(a & b & -> & Ha)|Ha].
    + cbn [List.length] in Hn. rewrite !app_length in Hn.
      destruct (IH b ltac:(lia) (after l (txt "/*" ++ a ++ txt "*/"))) as (ts & e & H).
      exists ts, e. apply (scan_block_comment l a b ts e); assumption.
    + exists [], OpenComment. apply (scan_open_comment l r Ha).
  - apply Ascii.eqb_neq in Ed, Ed'. destruct (IH (d :: r) ltac:(lia) (next_location l "/")) as (ts & e & H).
    exists (Token "/" l false :: ts), e. apply scan_char; auto; intros [b E]; injection E as E; congruence.
  - apply Ascii.eqb_neq in Ec. destruct (IH s ltac:(lia) (next_location l c)) as (ts & e & H).
    exists (Token c l false :: ts), e. apply scan_char; auto; intros [b E]; injection E as E; congruence.
Qed.
Lemma separator_dec t : {separator t} + {~ separator t}.
Proof.
  unfold separator. destruct (Ascii.ascii_dec (tk_char t) ";"), (Bool.bool_dec (tk_quoted t) false); intuition.
Qed.
Lemma blank_dec ts : {blank ts} + {~ blank ts}.
Proof. apply Forall_dec. intros t. apply Bool.bool_dec. Qed.
Lemma holds_total ts : ~ blank ts -> exists st, holds_statement ts st.
Proof.
  intros Hb.
  assert (F : exists a f r, ts = a ++ f :: r /\ blank a /\ is_space (tk_char f) = false).
  { induction ts as [|t ts IH]; [exfalso; apply Hb; constructor|]. destruct (is_space (tk_char t)) eqn:E.
    - destruct IH as (a & f & r & -> & Ha & Hf); [intros H; apply Hb; constructor; auto|].
      exists (t :: a), f, r. split; [reflexivity|]. split; [constructor; auto|auto].
    - exists [], t, ts. split; [reflexivity|]. split; [constructor|auto]. }
  destruct F as (a & f & r & -> & Ha & Hf).
  assert (L : forall r, exists r' b, f :: r = r' ++ b /\ blank b /\ exists q z, r' = q ++ [z] /\ is_space (tk_char z) = false).
  { clear Hb r. intros r. induction r as [|t r IH] using rev_ind.
    - exists [f], []. split; [reflexivity|]. split; [constructor|]. now exists [], f.
    - destruct (is_space (tk_char t)) eqn:E.
      + destruct IH as (r' & b & E1 & Hbb & Hq). exists r', (b ++ [t]).
        split; [change (f :: r ++ [t]) with ((f :: r) ++ [t]); rewrite E1; now rewrite <- app_assoc|].
        split; [|exact Hq]. apply Forall_app. split; [exact Hbb|]. constructor; auto.
      + exists (f :: r ++ [t]), []. split; [now rewrite app_nil_r|]. split; [constructor|]. exists (f :: r), t. auto. }
  destruct (L r) as (body & b & E & Hbb & q & z & Eq & Hz).
  exists (Statement (map tk_char body) (tk_loc f)), a, body, b. rewrite E. split; [reflexivity|]. split; [exact Ha|].
  split; [exact Hbb|]. split; [reflexivity|]. split; [|exists q, z; auto].
  destruct body as [|f' r']; [destruct q; discriminate|]. injection E as <- E. exists f, r'. auto.
Qed.
Theorem statements_total ts : exists sts rest, statements ts sts rest.
Proof.
  assert (S : forall ts, (exists a sep b, ts = a ++ [sep] ++ b /\ separator sep /\ forall t, In t a -> ~ separator t) \/
                          forall t, In t ts -> ~ separator t).
  { clear. induction ts as [|t ts IH]; [right; intros t []|]. destruct (separator_dec t) as [H|H].
    - left. exists [], t, ts. split; [reflexivity|]. split; [exact H|intros u []].
    - destruct IH as [(a & sep & b & -> & Hs & Ha)|Ha].
      + left. exists (t :: a), sep, b. split; [reflexivity|]. split; [exact Hs|]. intros u [<-|Hu]; auto.
      + right. intros u [<-|Hu]; auto. }
  remember (List.length ts) as n eqn:En. assert (Hn : (List.length ts <= n)%nat) by lia. clear En. revert ts Hn.
  induction n as [|n IH]; intros ts Hn.
  { destruct ts; [|simpl in Hn; lia]. exists [], []. constructor. intros t []. }
  destruct (S ts) as [(a & sep & b & -> & Hs & Ha)|Ha]; [|exists [], ts; now constructor].
  rewrite !app_length in Hn. simpl in Hn. destruct (IH b ltac:(lia)) as (sts & rest & H).
  destruct (blank_dec a) as [Hb|Hb].
  - exists sts, rest. now constructor.
  - destruct (holds_total a Hb) as (st & Hst). exists (st :: sts), rest. now apply statements_next.
Qed.
