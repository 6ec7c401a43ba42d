(** Angle expressions. *)
From Verif Require Export QasmProofs2.
From Coq Require Import Lia ZifyBool ZifyN ZifyNat.
Local Open Scope N_scope.

Lemma is_space_eq c d : is_space c = true -> is_space d = false -> Ascii.eqb c d = false.
Proof. intros H1 H2. apply Ascii.eqb_neq. intros ->. congruence. Qed.
Lemma skip_spaces_app sp s : spaces sp -> skip_spaces (sp ++ s) = skip_spaces s.
Proof. apply drop_while_app. Qed.
Lemma skip_spaces_spec s : exists sp, s = sp ++ skip_spaces s /\ spaces sp /\
  match skip_spaces s with [] => True | c :: _ => is_space c = false end.
Proof. apply drop_while_spec. Qed.
Lemma skip_spaces_twice s : skip_spaces (skip_spaces s) = skip_spaces s.
Proof.
  destruct (skip_spaces_spec s) as (sp & _ & _ & H). destruct (skip_spaces s) as [|c r]; [reflexivity|].
  apply drop_while_stop. exact H.
Qed.
Lemma consume_skip c s : consume c (skip_spaces s) = consume c s.
Proof. unfold consume. now rewrite skip_spaces_twice. Qed.
Lemma consume_some c s r : consume c s = Some r -> exists sp, s = sp ++ c :: r /\ spaces sp.
Proof.
  unfold consume. destruct (skip_spaces_spec s) as (sp & E & Hs & _). destruct (skip_spaces s) as [|d r'] eqn:Ed; [discriminate|].
  destruct (Ascii.eqb d c) eqn:Ec; [|discriminate]. intros H. injection H as ->. apply Ascii.eqb_eq in Ec. subst d. now exists sp.
Qed.
Lemma consume_hit c sp r : spaces sp -> is_space c = false -> consume c (sp ++ c :: r) = Some r.
Proof.
  intros Hs Hc. unfold consume. rewrite skip_spaces_app by exact Hs. unfold skip_spaces. rewrite drop_while_stop by exact Hc.
  now rewrite Ascii.eqb_refl.
Qed.
Lemma consume_miss c d sp r : spaces sp -> is_space d = false -> Ascii.eqb d c = false -> consume c (sp ++ d :: r) = None.
Proof.
  intros Hs Hd E. unfold consume. rewrite skip_spaces_app by exact Hs. unfold skip_spaces. rewrite drop_while_stop by exact Hd.
  now rewrite E.
Qed.

(** * More fuel changes nothing *)
Definition more {A} (F : nat -> res A) : Prop := forall f o, F f = o -> o <> UB -> F (S f) = o.
Lemma fuel_S f :
  (forall s o, parse_add_sub f s = o -> o <> UB -> parse_add_sub (S f) s = o) /\
  (forall v s o, add_sub_loop f v s = o -> o <> UB -> add_sub_loop (S f) v s = o) /\
  (forall s o, parse_mul_div f s = o -> o <> UB -> parse_mul_div (S f) s = o) /\
  (forall v s o, mul_div_loop f v s = o -> o <> UB -> mul_div_loop (S f) v s = o) /\
  (forall s o, parse_unary f s = o -> o <> UB -> parse_unary (S f) s = o) /\
  (forall s o, parse_primary f s = o -> o <> UB -> parse_primary (S f) s = o).
Proof.
  induction f as [|f (IA & ILA & IM & ILM & IU & IP)].
  { repeat split; cbn; intros; subst; congruence. }
  split; [|split; [|split; [|split; [|split]]]].
  - intros s o E H. cbn [parse_add_sub] in E. change (parse_add_sub (S (S f)) s)
      with (x <- parse_mul_div (S f) s;; add_sub_loop (S f) (fst x) (snd x)).
    destruct (parse_mul_div f s) as [x| |] eqn:E1; cbn [bindR] in E; [|subst o|congruence].
    + rewrite (IM s (Ok x) E1) by discriminate. cbn [bindR]. now apply ILA.
    + rewrite (IM s Throw E1) by discriminate. reflexivity.
  - intros v s o E H. cbn [add_sub_loop] in E. change (add_sub_loop (S (S f)) v s) with
      (match consume "+" s with
       | Some s => x <- parse_mul_div (S f) s;; add_sub_loop (S f) (v + fst x)%R (snd x)
       | None => match consume "-" s with
         | Some s => x <- parse_mul_div (S f) s;; add_sub_loop (S f) (v + - fst x)%R (snd x)
         | None => Ok (v, skip_spaces s) end end).
    destruct (consume "+" s) as [s1|]; [|destruct (consume "-" s) as [s1|]; [|exact E]].
    1, 2: destruct (parse_mul_div f s1) as [x| |] eqn:E1; cbn [bindR] in E; [|subst o|congruence];
      [rewrite (IM s1 (Ok x) E1) by discriminate; cbn [bindR]; now apply ILA|rewrite (IM s1 Throw E1) by discriminate; reflexivity].
  - intros s o E H. cbn [parse_mul_div] in E. change (parse_mul_div (S (S f)) s)
      with (x <- parse_unary (S f) s;; mul_div_loop (S f) (fst x) (snd x)).
    destruct (parse_unary f s) as [x| |] eqn:E1; cbn [bindR] in E; [|subst o|congruence].
    + rewrite (IU s (Ok x) E1) by discriminate. cbn [bindR]. now apply ILM.
    + rewrite (IU s Throw E1) by discriminate. reflexivity.
  - intros v s o E H. cbn [mul_div_loop] in E. change (mul_div_loop (S (S f)) v s) with
      (match consume "*" s with
       | Some s => x <- parse_unary (S f) s;; mul_div_loop (S f) (v * fst x)%R (snd x)
       | None => match consume "/" s with
         | Some s => x <- parse_unary (S f) s;; if Req_EM_T (fst x) 0 then Throw else mul_div_loop (S f) (v / fst x)%R (snd x)
         | None => Ok (v, skip_spaces s) end end).
    destruct (consume "*" s) as [s1|]; [|destruct (consume "/" s) as [s1|]; [|exact E]].
    1, 2: destruct (parse_unary f s1) as [x| |] eqn:E1; cbn [bindR] in E; [|subst o|congruence];
      [rewrite (IU s1 (Ok x) E1) by discriminate; cbn [bindR]|rewrite (IU s1 Throw E1) by discriminate; reflexivity].
    + now apply ILM.
    + destruct (Req_EM_T (fst x) 0); [exact E|]. now apply ILM.
  - intros s o E H. cbn [parse_unary] in E. change (parse_unary (S (S f)) s) with
      (match consume "+" s with
       | Some s => parse_unary (S f) s
       | None => match consume "-" s with
         | Some s => x <- parse_unary (S f) s;; Ok ((- fst x)%R, snd x)
         | None => parse_primary (S f) s end end).
    destruct (consume "+" s) as [s1|]; [|destruct (consume "-" s) as [s1|]].
    + now apply IU.
    + destruct (parse_unary f s1) as [x| |] eqn:E1; cbn [bindR] in E; [|subst o|congruence].
      * rewrite (IU s1 (Ok x) E1) by discriminate. exact E.
      * rewrite (IU s1 Throw E1) by discriminate. reflexivity.
    + now apply IP.
  - intros s o E H. cbn [parse_primary] in E. change (parse_primary (S (S f)) s) with
      (match consume "(" s with
       | Some s => x <- parse_add_sub (S f) s;; match consume ")" (snd x) with Some s => Ok (fst x, s) | None => Throw end
       | None =>
         match skip_spaces s with
         | [] => Throw
         | c :: r =>
           if (is_alpha c || Ascii.eqb c "_")%bool then
             if text_eqb (c :: take_while is_word r) (txt "pi") then Ok (PI, drop_while is_word r) else Throw
           else match strtod (c :: r) with Some x => Ok x | None => Throw end
         end
       end).
    destruct (consume "(" s) as [s1|]; [|exact E].
    destruct (parse_add_sub f s1) as [x| |] eqn:E1; cbn [bindR] in E; [|subst o|congruence].
    + rewrite (IA s1 (Ok x) E1) by discriminate. exact E.
    + rewrite (IA s1 Throw E1) by discriminate. reflexivity.
Qed.
Lemma parse_more f g s o : (f <= g)%nat -> parse_add_sub f s = o -> o <> UB -> parse_add_sub g s = o.
Proof. induction 1 as [|g H IH]; intros E Ho; [exact E|]. apply fuel_S; auto. Qed.

(** * What is accepted is an expression *)
Lemma text_eqb_eq s t : text_eqb s t = true <-> s = t.
Proof.
  revert t. induction s as [|c s IH]; intros [|d t]; simpl; split; try discriminate; try reflexivity.
  - rewrite Bool.andb_true_iff, Ascii.eqb_eq, IH. intros [-> ->]. reflexivity.
  - intros E. injection E as -> ->. rewrite Ascii.eqb_refl. simpl. now apply IH.
Qed.
Lemma spaces_app a b : spaces a -> spaces b -> spaces (a ++ b).
Proof. intros H1 H2. apply Forall_app. auto. Qed.
Lemma parse_sound f :
  (forall s v r, parse_add_sub f s = Ok (v, r) -> exists t sp e, s = t ++ sp ++ r /\ spaces sp /\ sum t e /\ value e = Some v) /\
  (forall lhs s v r, add_sub_loop f lhs s = Ok (v, r) -> forall t0 e0 sp0, sum t0 e0 -> value e0 = Some lhs -> spaces sp0 ->
     exists t sp e, sp0 ++ s = t ++ sp ++ r /\ spaces sp /\ sum (t0 ++ t) e /\ value e = Some v) /\
  (forall s v r, parse_mul_div f s = Ok (v, r) -> exists t sp e, s = t ++ sp ++ r /\ spaces sp /\ product t e /\ value e = Some v) /\
  (forall lhs s v r, mul_div_loop f lhs s = Ok (v, r) -> forall t0 e0 sp0, product t0 e0 -> value e0 = Some lhs -> spaces sp0 ->
     exists t sp e, sp0 ++ s = t ++ sp ++ r /\ spaces sp /\ product (t0 ++ t) e /\ value e = Some v) /\
  (forall s v r, parse_unary f s = Ok (v, r) -> exists t e, s = t ++ r /\ signed t e /\ value e = Some v) /\
  (forall s v r, parse_primary f s = Ok (v, r) -> exists t e, s = t ++ r /\ signed t e /\ value e = Some v).
Proof.
  induction f as [|f (IA & ILA & IM & ILM & IU & IP)].
  { repeat split; cbn; intros; discriminate. }
  split; [|split; [|split; [|split; [|split]]]].
  - intros s v r E. cbn [parse_add_sub] in E. destruct (parse_mul_div f s) as [[w s1]| |] eqn:E1; cbn [bindR fst snd] in E; try discriminate.
    destruct (IM _ _ _ E1) as (t & sp & e & Es & Hsp & Ht & Hv).
    destruct (ILA _ _ _ _ E t e sp (sum_one _ _ Ht) Hv Hsp) as (t' & sp' & e' & Es' & Hsp' & Ht' & Hv').
    exists (t ++ t'), sp', e'. split; [rewrite Es, Es'; now rewrite <- app_assoc|]. auto.
  - intros lhs s v r E t0 e0 sp0 H0 Hv0 Hsp0. cbn [add_sub_loop] in E.
    destruct (consume "+" s) as [s1|] eqn:Ec; [|destruct (consume "-" s) as [s1|] eqn:Ec'].
    + apply consume_some in Ec. destruct Ec as (sp1 & Es & Hsp1).
      destruct (parse_mul_div f s1) as [[w s2]| |] eqn:E1; cbn [bindR fst snd] in E; try discriminate.
      destruct (IM _ _ _ E1) as (t & sp & e & Es1 & Hsp & Ht & Hv).
      destruct (ILA _ _ _ _ E (t0 ++ (sp0 ++ sp1) ++ txt "+" ++ t) (Add e0 e) sp) as (t' & sp' & e' & Es' & Hsp' & Ht' & Hv').
      { apply sum_add; auto. now apply spaces_app. } { cbn [value]. rewrite Hv0, Hv. reflexivity. } { exact Hsp. }
      exists ((sp0 ++ sp1) ++ txt "+" ++ t ++ t'), sp', e'. split; [|split; [exact Hsp'|split; [|exact Hv']]].
      * rewrite Es, Es1. cbn [txt to_text list_ascii_of_string app]. rewrite <- !app_assoc. f_equal. f_equal. cbn [app].
        f_equal. rewrite <- app_assoc. f_equal. exact Es'.
      * rewrite <- !app_assoc in Ht'. rewrite <- !app_assoc. exact Ht'.
    + apply consume_some in Ec'. destruct Ec' as (sp1 & Es & Hsp1).
      destruct (parse_mul_div f s1) as [[w s2]| |] eqn:E1; cbn [bindR fst snd] in E; try discriminate.
      destruct (IM _ _ _ E1) as (t & sp & e & Es1 & Hsp & Ht & Hv).
      destruct (ILA _ _ _ _ E (t0 ++ (sp0 ++ sp1) ++ txt "-" ++ t) (Sub e0 e) sp) as (t' & sp' & e' & Es' & Hsp' & Ht' & Hv').
      { apply sum_sub; auto. now apply spaces_app. } { cbn [value]. rewrite Hv0, Hv. reflexivity. } { exact Hsp. }
      exists ((sp0 ++ sp1) ++ txt "-" ++ t ++ t'), sp', e'. split; [|split; [exact Hsp'|split; [|exact Hv']]].
      * rewrite Es, Es1. cbn [txt to_text list_ascii_of_string app]. rewrite <- !app_assoc. f_equal. f_equal. cbn [app].
        f_equal. rewrite <- app_assoc. f_equal. exact Es'.
      * rewrite <- !app_assoc in Ht'. rewrite <- !app_assoc. exact Ht'.
    + injection E as <- <-. destruct (skip_spaces_spec s) as (sp & Es & Hsp & _).
      exists [], (sp0 ++ sp), e0. split; [rewrite Es at 1; now rewrite <- app_assoc|]. split; [now apply spaces_app|].
      rewrite app_nil_r. auto.
  - intros s v r E. cbn [parse_mul_div] in E. destruct (parse_unary f s) as [[w s1]| |] eqn:E1; cbn [bindR fst snd] in E; try discriminate.
    destruct (IU _ _ _ E1) as (t & e & Es & Ht & Hv).
    destruct (ILM _ _ _ _ E t e [] (product_one _ _ Ht) Hv ltac:(constructor)) as (t' & sp' & e' & Es' & Hsp' & Ht' & Hv').
    exists (t ++ t'), sp', e'. cbn [app] in Es'. split; [rewrite Es, Es'; now rewrite <- app_assoc|]. auto.
  - intros lhs s v r E t0 e0 sp0 H0 Hv0 Hsp0. cbn [mul_div_loop] in E.
    destruct (consume "*" s) as [s1|] eqn:Ec; [|destruct (consume "/" s) as [s1|] eqn:Ec'].
    + apply consume_some in Ec. destruct Ec as (sp1 & Es & Hsp1).
      destruct (parse_unary f s1) as [[w s2]| |] eqn:E1; cbn [bindR fst snd] in E; try discriminate.
      destruct (IU _ _ _ E1) as (t & e & Es1 & Ht & Hv).
      destruct (ILM _ _ _ _ E (t0 ++ (sp0 ++ sp1) ++ txt "*" ++ t) (Mul e0 e) []) as (t' & sp' & e' & Es' & Hsp' & Ht' & Hv').
      { apply product_mul; auto. now apply spaces_app. } { cbn [value]. rewrite Hv0, Hv. reflexivity. } { constructor. }
      exists ((sp0 ++ sp1) ++ txt "*" ++ t ++ t'), sp', e'. split; [|split; [exact Hsp'|split; [|exact Hv']]].
      * cbn [app] in Es'. rewrite Es, Es1, Es'. cbn [txt to_text list_ascii_of_string app]. rewrite <- !app_assoc. f_equal. f_equal.
        cbn [app]. now rewrite <- app_assoc.
      * rewrite <- !app_assoc in Ht'. rewrite <- !app_assoc. exact Ht'.
    + apply consume_some in Ec'. destruct Ec' as (sp1 & Es & Hsp1).
      destruct (parse_unary f s1) as [[w s2]| |] eqn:E1; cbn [bindR fst snd] in E; try discriminate.
      destruct (Req_EM_T w 0) as [Hw|Hw]; [discriminate|].
      destruct (IU _ _ _ E1) as (t & e & Es1 & Ht & Hv).
      destruct (ILM _ _ _ _ E (t0 ++ (sp0 ++ sp1) ++ txt "/" ++ t) (Div e0 e) []) as (t' & sp' & e' & Es' & Hsp' & Ht' & Hv').
      { apply product_div; auto. now apply spaces_app. }
      { cbn [value]. rewrite Hv0, Hv. cbn [binary]. destruct (Req_EM_T w 0); [contradiction|reflexivity]. } { constructor. }
      exists ((sp0 ++ sp1) ++ txt "/" ++ t ++ t'), sp', e'. split; [|split; [exact Hsp'|split; [|exact Hv']]].
      * cbn [app] in Es'. rewrite Es, Es1, Es'. cbn [txt to_text list_ascii_of_string app]. rewrite <- !app_assoc. f_equal. f_equal.
        cbn [app]. now rewrite <- app_assoc.
      * rewrite <- !app_assoc in Ht'. rewrite <- !app_assoc. exact Ht'.
    + injection E as <- <-. destruct (skip_spaces_spec s) as (sp & Es & Hsp & _).
      exists [], (sp0 ++ sp), e0. split; [rewrite Es at 1; now rewrite <- app_assoc|]. split; [now apply spaces_app|].
      rewrite app_nil_r. auto.
  - intros s v r E. cbn [parse_unary] in E.
    destruct (consume "+" s) as [s1|] eqn:Ec; [|destruct (consume "-" s) as [s1|] eqn:Ec'].
    + apply consume_some in Ec. destruct Ec as (sp1 & Es & Hsp1). destruct (IU _ _ _ E) as (t & e & Es1 & Ht & Hv).
      exists (sp1 ++ txt "+" ++ t), (Plus e). split; [rewrite Es, Es1; rewrite <- !app_assoc; reflexivity|].
      split; [now constructor|exact Hv].
    + apply consume_some in Ec'. destruct Ec' as (sp1 & Es & Hsp1).
      destruct (parse_unary f s1) as [[w s2]| |] eqn:E1; cbn [bindR fst snd] in E; try discriminate. injection E as <- <-.
      destruct (IU _ _ _ E1) as (t & e & Es1 & Ht & Hv).
      exists (sp1 ++ txt "-" ++ t), (Minus e). split; [rewrite Es, Es1; rewrite <- !app_assoc; reflexivity|].
      split; [now constructor|]. cbn [value]. now rewrite Hv.
    + now apply IP.
  - intros s v r E. cbn [parse_primary] in E. destruct (consume "(" s) as [s1|] eqn:Ec.
    + apply consume_some in Ec. destruct Ec as (sp1 & Es & Hsp1).
      destruct (parse_add_sub f s1) as [[w s2]| |] eqn:E1; cbn [bindR fst snd] in E; try discriminate.
      destruct (consume ")" s2) as [s3|] eqn:Ec2; [|discriminate]. injection E as <- <-.
      destruct (IA _ _ _ E1) as (t & sp & e & Es1 & Hsp & Ht & Hv).
      apply consume_some in Ec2. destruct Ec2 as (sp2 & Es2 & Hsp2).
      exists (sp1 ++ txt "(" ++ t ++ (sp ++ sp2) ++ txt ")"), e. split.
      * rewrite Es, Es1, Es2. rewrite <- !app_assoc. reflexivity.
      * split; [|exact Hv]. constructor; auto. now apply spaces_app.
    + destruct (skip_spaces_spec s) as (sp & Es & Hsp & Hc). destruct (skip_spaces s) as [|c r1] eqn:Ek; [discriminate|].
      destruct (is_alpha c || Ascii.eqb c "_")%bool eqn:Ea.
      * destruct (text_eqb (c :: take_while is_word r1) (txt "pi")) eqn:Et; [|discriminate]. injection E as <- <-.
        apply text_eqb_eq in Et. exists (sp ++ txt "pi"), Pi. split.
        -- rewrite Es, <- Et. rewrite <- app_assoc. f_equal. cbn [app]. f_equal. symmetry. apply take_drop_while.
        -- split; [now constructor|reflexivity].
      * destruct (strtod (c :: r1)) as [[w r2]|] eqn:Et; [|discriminate]. injection E as <- <-.
        destruct (strtod_sound _ _ _ Et) as (l & El & Hl). exists (sp ++ l), (Num w). split; [rewrite Es, El; apply app_assoc|].
        split; [|reflexivity]. destruct Hl as [Hl|Hl]; [now apply signed_decimal|now apply signed_hexadecimal].
Qed.

(** * The fuel suffices *)
Lemma signed_nonempty t e : signed t e -> t <> [].
Proof.
  intros [sp s e' _ _|sp s e' _ _|sp _|sp s v _ H|sp s v _ H|sp s e' sp' _ _ _]; intros E; apply app_eq_nil in E; destruct E as [_ E]; try discriminate.
  - now apply decimal_nonempty in H.
  - now apply hexadecimal_nonempty in H.
Qed.
Scheme sum_mut := Induction for sum Sort Prop with product_mut := Induction for product Sort Prop with signed_mut := Induction for signed Sort Prop.
Combined Scheme grammar_ind from sum_mut, product_mut, signed_mut.
Lemma product_nonempty t e : product t e -> t <> [].
Proof.
  induction 1 as [s e H|s1 e1 sp s2 e2 H IH _ _|s1 e1 sp s2 e2 H IH _ _]; [now apply signed_nonempty in H| |];
    intros E; apply app_eq_nil in E; tauto.
Qed.
Lemma sum_nonempty t e : sum t e -> t <> [].
Proof.
  induction 1 as [s e H|s1 e1 sp s2 e2 H IH _ _|s1 e1 sp s2 e2 H IH _ _]; [now apply product_nonempty in H| |];
    intros E; apply app_eq_nil in E; tauto.
Qed.
Lemma nonempty_length {A} (l : list A) : l <> [] -> (0 < length l)%nat.
Proof. destruct l; [congruence|simpl; lia]. Qed.
Lemma unary_length f s v r : parse_unary f s = Ok (v, r) -> (length r < length s)%nat.
Proof.
  intros E. destruct (parse_sound f) as (_ & _ & _ & _ & H & _). destruct (H _ _ _ E) as (t & e & -> & Ht & _).
  rewrite app_length. apply signed_nonempty, nonempty_length in Ht. lia.
Qed.
Lemma mul_div_length f s v r : parse_mul_div f s = Ok (v, r) -> (length r < length s)%nat.
Proof.
  intros E. destruct (parse_sound f) as (_ & _ & H & _). destruct (H _ _ _ E) as (t & sp & e & -> & _ & Ht & _).
  rewrite !app_length. apply product_nonempty, nonempty_length in Ht. lia.
Qed.
Lemma consume_length c s r : consume c s = Some r -> (length r < length s)%nat.
Proof. intros H. apply consume_some in H. destruct H as (sp & -> & _). rewrite app_length. simpl. lia. Qed.
Lemma fuel_enough n :
  (forall f s, (length s <= n -> 4 * n + 1 <= f -> parse_primary f s <> UB)%nat) /\
  (forall f s, (length s <= n -> 4 * n + 2 <= f -> parse_unary f s <> UB)%nat) /\
  (forall f v s, (length s <= n -> 4 * n + 2 <= f -> mul_div_loop f v s <> UB)%nat) /\
  (forall f s, (length s <= n -> 4 * n + 3 <= f -> parse_mul_div f s <> UB)%nat) /\
  (forall f v s, (length s <= n -> 4 * n + 3 <= f -> add_sub_loop f v s <> UB)%nat) /\
  (forall f s, (length s <= n -> 4 * n + 4 <= f -> parse_add_sub f s <> UB)%nat).
Proof.
  assert (Base : forall f s, consume "(" s = None -> parse_primary (S f) s <> UB).
  { intros f s E. cbn [parse_primary]. rewrite E. destruct (skip_spaces s) as [|a l]; [discriminate|].
    destruct (is_alpha a || Ascii.eqb a "_")%bool; [destruct (text_eqb _ _); discriminate|].
    destruct (strtod (a :: l)); discriminate. }
  assert (Step : forall n,
    (forall f s, (length s <= n -> 4 * n + 1 <= f -> parse_primary f s <> UB)%nat) ->
    (forall f s, (length s < n -> 4 * (n - 1) + 2 <= f -> parse_unary f s <> UB)%nat) ->
    (forall f v s, (length s < n -> 4 * (n - 1) + 2 <= f -> mul_div_loop f v s <> UB)%nat) ->
    (forall f s, (length s < n -> 4 * (n - 1) + 3 <= f -> parse_mul_div f s <> UB)%nat) ->
    (forall f v s, (length s < n -> 4 * (n - 1) + 3 <= f -> add_sub_loop f v s <> UB)%nat) ->
    (forall f s, (length s <= n -> 4 * n + 2 <= f -> parse_unary f s <> UB)%nat) /\
    (forall f v s, (length s <= n -> 4 * n + 2 <= f -> mul_div_loop f v s <> UB)%nat) /\
    (forall f s, (length s <= n -> 4 * n + 3 <= f -> parse_mul_div f s <> UB)%nat) /\
    (forall f v s, (length s <= n -> 4 * n + 3 <= f -> add_sub_loop f v s <> UB)%nat) /\
    (forall f s, (length s <= n -> 4 * n + 4 <= f -> parse_add_sub f s <> UB)%nat)).
  { clear n. intros n HP HU HLM HM HLA.
    assert (GU : forall f s, (length s <= n -> 4 * n + 2 <= f -> parse_unary f s <> UB)%nat).
    { intros [|f] s Hs Hf; [lia|]. cbn [parse_unary].
      destruct (consume "+" s) as [s1|] eqn:Ec; [|destruct (consume "-" s) as [s1|] eqn:Ec'].
      - apply consume_length in Ec. apply HU; lia.
      - apply consume_length in Ec'. destruct (parse_unary f s1) as [x| |] eqn:E; try discriminate.
        exfalso. revert E. apply HU; lia.
      - apply HP; lia. }
    assert (GLM : forall f v s, (length s <= n -> 4 * n + 2 <= f -> mul_div_loop f v s <> UB)%nat).
    { intros [|f] v s Hs Hf; [lia|]. cbn [mul_div_loop].
      destruct (consume "*" s) as [s1|] eqn:Ec; [|destruct (consume "/" s) as [s1|] eqn:Ec'; [|discriminate]].
      - apply consume_length in Ec. destruct (parse_unary f s1) as [[w r]| |] eqn:E; cbn [bindR fst snd]; try discriminate.
        + apply unary_length in E. apply HLM; lia.
        + exfalso. revert E. apply HU; lia.
      - apply consume_length in Ec'. destruct (parse_unary f s1) as [[w r]| |] eqn:E; cbn [bindR fst snd]; try discriminate.
        + apply unary_length in E. destruct (Req_EM_T w 0); [discriminate|]. apply HLM; lia.
        + exfalso. revert E. apply HU; lia. }
    assert (GM : forall f s, (length s <= n -> 4 * n + 3 <= f -> parse_mul_div f s <> UB)%nat).
    { intros [|f] s Hs Hf; [lia|]. cbn [parse_mul_div]. destruct (parse_unary f s) as [[w r]| |] eqn:E; cbn [bindR fst snd]; try discriminate.
      - apply unary_length in E. apply GLM; lia.
      - exfalso. revert E. apply GU; lia. }
    assert (GLA : forall f v s, (length s <= n -> 4 * n + 3 <= f -> add_sub_loop f v s <> UB)%nat).
    { intros [|f] v s Hs Hf; [lia|]. cbn [add_sub_loop].
      destruct (consume "+" s) as [s1|] eqn:Ec; [|destruct (consume "-" s) as [s1|] eqn:Ec'; [|discriminate]].
      - apply consume_length in Ec. destruct (parse_mul_div f s1) as [[w r]| |] eqn:E; cbn [bindR fst snd]; try discriminate.
        + apply mul_div_length in E. apply HLA; lia.
        + exfalso. revert E. apply HM; lia.
      - apply consume_length in Ec'. destruct (parse_mul_div f s1) as [[w r]| |] eqn:E; cbn [bindR fst snd]; try discriminate.
        + apply mul_div_length in E. apply HLA; lia.
        + exfalso. revert E. apply HM; lia. }
    repeat (split; [assumption|]). intros [|f] s Hs Hf; [lia|]. cbn [parse_add_sub].
    destruct (parse_mul_div f s) as [[w r]| |] eqn:E; cbn [bindR fst snd]; try discriminate.
    - apply mul_div_length in E. apply GLA; lia.
    - exfalso. revert E. apply GM; lia. }
  induction n as [|n (IP & IU & ILM & IM & ILA & IA)].
  - assert (HP : forall f s, (length s <= 0 -> 4 * 0 + 1 <= f -> parse_primary f s <> UB)%nat).
    { intros [|f] s Hs Hf; [lia|]. apply Base. destruct s; [reflexivity|simpl in Hs; lia]. }
    split; [exact HP|]. apply Step; auto; intros; lia.
  - assert (HP : forall f s, (length s <= S n -> 4 * S n + 1 <= f -> parse_primary f s <> UB)%nat).
    { intros [|f] s Hs Hf; [lia|]. destruct (consume "(" s) as [s1|] eqn:Ec; [|now apply Base].
      cbn [parse_primary]. rewrite Ec. apply consume_length in Ec.
      destruct (parse_add_sub f s1) as [[w r]| |] eqn:E; cbn [bindR fst snd]; try discriminate.
      - destruct (consume ")" r); discriminate.
      - exfalso. revert E. apply IA; lia. }
    split; [exact HP|]. apply Step; auto; replace (S n - 1)%nat with n by lia; intros.
    + apply IU; lia. + apply ILM; lia. + apply IM; lia. + apply ILA; lia.
Qed.

(** * Expressions are accepted, with their value *)
Definition ev {A} (F : nat -> res A) (o : res A) : Prop := exists f0, forall f, (f0 <= f)%nat -> F f = o.
Lemma ev_S {A} (F : nat -> res A) o : ev (fun f => F (S f)) o -> ev F o.
Proof. intros [f0 H]. exists (S f0). intros [|f] Hf; [lia|]. apply H. lia. Qed.
Lemma ev_const {A} (o : res A) : ev (fun _ => o) o.
Proof. now exists 0%nat. Qed.
Lemma ev_bind {A B} (F : nat -> res A) (K : nat -> A -> res B) x o : ev F (Ok x) -> ev (fun f => K f x) o ->
  ev (fun f => y <- F f;; K f y) o.
Proof.
  intros [f0 H0] [f1 H1]. exists (Nat.max f0 f1). intros f Hf. rewrite H0 by lia. cbn [bindR]. apply H1. lia.
Qed.
Lemma ev_bind_throw {A B} (F : nat -> res A) (K : nat -> A -> res B) : ev F Throw -> ev (fun f => y <- F f;; K f y) Throw.
Proof. intros [f0 H0]. exists f0. intros f Hf. now rewrite H0. Qed.
Lemma ev_ext {A} (F G : nat -> res A) o : (forall f, F f = G f) -> ev G o -> ev F o.
Proof. intros E [f0 H]. exists f0. intros f Hf. rewrite E. auto. Qed.
Definition res_of (v : option R) (rest : text) : res (R * text) := match v with Some v => Ok (v, rest) | None => Throw end.
Definition sum_stop (rest : text) : Prop := boundary rest /\ consume "*" rest = None /\ consume "/" rest = None.
Lemma boundary_spaces sp s : spaces sp -> boundary s -> boundary (sp ++ s).
Proof. intros H1 H2. destruct H1 as [|c sp H1 _]; [exact H2|]. cbn. unfold boundary_char. now rewrite H1. Qed.
Lemma decimal_first s v : decimal s v -> exists c r, s = c :: r /\ (is_digit c = true \/ c = "."%char).
Proof.
  intros [ip fp m ex e Hm _]. destruct Hm as [ip Hn Hd|ip fp Hn Hi Hf].
  - destruct ip as [|c ip]; [congruence|]. inversion Hd; subst. eexists _, _. split; [reflexivity|]. now left.
  - destruct ip as [|c ip]; [eexists _, _; split; [reflexivity|now right]|]. inversion Hi; subst.
    eexists _, _. split; [reflexivity|]. now left.
Qed.
Lemma number_first c : is_digit c = true \/ c = "."%char ->
  is_space c = false /\ Ascii.eqb c "+" = false /\ Ascii.eqb c "-" = false /\ Ascii.eqb c "(" = false /\
  (is_alpha c || Ascii.eqb c "_")%bool = false.
Proof. intros [H| ->]; [|repeat split; reflexivity]. revert H. every_char c. Qed.
Lemma number_ev sp s v rest : spaces sp -> (exists c r, s = c :: r /\ (is_digit c = true \/ c = "."%char)) ->
  strtod (s ++ rest) = Some (v, rest) -> ev (fun f => parse_unary f ((sp ++ s) ++ rest)) (Ok (v, rest)).
Proof.
  intros Hsp (c & r & -> & Hc) E. apply number_first in Hc. destruct Hc as (H1 & H2 & H3 & H4 & H5).
  rewrite <- app_assoc. cbn [app] in *. apply ev_S, ev_S. exists 0%nat. intros f _. cbn [parse_unary].
  rewrite !consume_miss by auto. cbn [parse_primary]. rewrite consume_miss by auto.
  rewrite skip_spaces_app by exact Hsp. unfold skip_spaces. rewrite drop_while_stop by exact H1. rewrite H5, E. reflexivity.
Qed.
Lemma parse_complete :
  (forall s e, sum s e -> forall rest o, sum_stop rest ->
     match value e with Some v => ev (fun f => add_sub_loop f v rest) o | None => o = Throw end ->
     ev (fun f => parse_add_sub f (s ++ rest)) o) /\
  (forall s e, product s e -> forall rest o, boundary rest ->
     match value e with Some v => ev (fun f => mul_div_loop f v rest) o | None => o = Throw end ->
     ev (fun f => parse_mul_div f (s ++ rest)) o) /\
  (forall s e, signed s e -> forall rest, boundary rest -> ev (fun f => parse_unary f (s ++ rest)) (res_of (value e) rest)).
Proof.
  apply grammar_ind.
  - (* sum_one *)
    intros s e Hp IH rest o (Hb & Hm & Hd) Ho. apply ev_S. cbn [parse_add_sub].
    assert (L : forall v, ev (fun f => mul_div_loop f v rest) (Ok (v, skip_spaces rest))).
    { intros v. apply ev_S. exists 0%nat. intros f _. cbn [mul_div_loop]. now rewrite Hm, Hd. }
    specialize (IH rest (res_of (value e) (skip_spaces rest)) Hb). destruct (value e) as [v|]; cbn [res_of] in IH.
    + specialize (IH (L v)). eapply (ev_bind _ (fun f x => add_sub_loop f (fst x) (snd x))); [exact IH|]. cbn [fst snd].
      destruct Ho as [f0 Ho]. exists (S f0). intros [|f] Hf; [lia|]. rewrite <- (Ho (S f)) by lia. cbn [add_sub_loop].
      rewrite !consume_skip, skip_spaces_twice. reflexivity.
    + subst o. apply (ev_bind_throw _ (fun f x => add_sub_loop f (fst x) (snd x))). now apply IH.
  - (* sum_add *)
    intros s1 e1 sp s2 e2 H1 IH1 Hsp H2 IH2 rest o (Hb & Hm & Hd) Ho.
    assert (Hx : forall rest', consume "+" (sp ++ txt "+" ++ rest') = Some rest') by (intros; now apply consume_hit).
    replace ((s1 ++ sp ++ txt "+" ++ s2) ++ rest) with (s1 ++ sp ++ txt "+" ++ s2 ++ rest) by (rewrite <- !app_assoc; reflexivity).
    apply IH1.
    { split; [apply boundary_spaces; [exact Hsp|reflexivity]|]. split; apply consume_miss; auto. }
    cbn [value] in Ho. destruct (value e1) as [v1|]; [|exact Ho]. apply ev_S. cbn [add_sub_loop].
    eapply ev_ext; [intros f; rewrite Hx; reflexivity|].
    assert (L : forall v, ev (fun f => mul_div_loop f v rest) (Ok (v, skip_spaces rest))).
    { intros v. apply ev_S. exists 0%nat. intros f _. cbn [mul_div_loop]. now rewrite Hm, Hd. }
    specialize (IH2 rest (res_of (value e2) (skip_spaces rest)) Hb). destruct (value e2) as [v2|]; cbn [res_of binary] in *.
    + specialize (IH2 (L v2)). eapply (ev_bind _ (fun f x => add_sub_loop f (v1 + fst x)%R (snd x))); [exact IH2|]. cbn [fst snd].
      destruct Ho as [f0 Ho]. exists (S f0). intros [|f] Hf; [lia|]. rewrite <- (Ho (S f)) by lia. cbn [add_sub_loop].
      rewrite !consume_skip, skip_spaces_twice. reflexivity.
    + subst o. apply (ev_bind_throw _ (fun f x => add_sub_loop f (v1 + fst x)%R (snd x))). now apply IH2.
  - (* sum_sub *)
    intros s1 e1 sp s2 e2 H1 IH1 Hsp H2 IH2 rest o (Hb & Hm & Hd) Ho.
    assert (Hx : forall rest', consume "-" (sp ++ txt "-" ++ rest') = Some rest') by (intros; now apply consume_hit).
    assert (Hy : forall rest', consume "+" (sp ++ txt "-" ++ rest') = None) by (intros; now apply consume_miss).
    replace ((s1 ++ sp ++ txt "-" ++ s2) ++ rest) with (s1 ++ sp ++ txt "-" ++ s2 ++ rest) by (rewrite <- !app_assoc; reflexivity).
    apply IH1.
    { split; [apply boundary_spaces; [exact Hsp|reflexivity]|]. split; apply consume_miss; auto. }
    cbn [value] in Ho. destruct (value e1) as [v1|]; [|exact Ho]. apply ev_S. cbn [add_sub_loop].
    eapply ev_ext; [intros f; rewrite Hy, Hx; reflexivity|].
    assert (L : forall v, ev (fun f => mul_div_loop f v rest) (Ok (v, skip_spaces rest))).
    { intros v. apply ev_S. exists 0%nat. intros f _. cbn [mul_div_loop]. now rewrite Hm, Hd. }
    specialize (IH2 rest (res_of (value e2) (skip_spaces rest)) Hb). destruct (value e2) as [v2|]; cbn [res_of binary] in *.
    + specialize (IH2 (L v2)). eapply (ev_bind _ (fun f x => add_sub_loop f (v1 + - fst x)%R (snd x))); [exact IH2|]. cbn [fst snd].
      destruct Ho as [f0 Ho]. exists (S f0). intros [|f] Hf; [lia|]. rewrite <- (Ho (S f)) by lia. cbn [add_sub_loop].
      rewrite !consume_skip, skip_spaces_twice. reflexivity.
    + subst o. apply (ev_bind_throw _ (fun f x => add_sub_loop f (v1 + - fst x)%R (snd x))). now apply IH2.
  - (* product_one *)
    intros s e Hu IH rest o Hb Ho. apply ev_S. cbn [parse_mul_div]. specialize (IH rest Hb).
    destruct (value e) as [v|]; cbn [res_of] in IH.
    + eapply (ev_bind _ (fun f x => mul_div_loop f (fst x) (snd x))); [exact IH|exact Ho].
    + subst o. apply (ev_bind_throw _ (fun f x => mul_div_loop f (fst x) (snd x))). exact IH.
  - (* product_mul *)
    intros s1 e1 sp s2 e2 H1 IH1 Hsp H2 IH2 rest o Hb Ho.
    assert (Hx : forall rest', consume "*" (sp ++ txt "*" ++ rest') = Some rest') by (intros; now apply consume_hit).
    replace ((s1 ++ sp ++ txt "*" ++ s2) ++ rest) with (s1 ++ sp ++ txt "*" ++ s2 ++ rest) by (rewrite <- !app_assoc; reflexivity).
    apply IH1. { apply boundary_spaces; [exact Hsp|reflexivity]. }
    cbn [value] in Ho. destruct (value e1) as [v1|]; [|exact Ho]. apply ev_S. cbn [mul_div_loop].
    eapply ev_ext; [intros f; rewrite Hx; reflexivity|]. specialize (IH2 rest Hb).
    destruct (value e2) as [v2|]; cbn [res_of binary] in *.
    + eapply (ev_bind _ (fun f x => mul_div_loop f (v1 * fst x)%R (snd x))); [exact IH2|exact Ho].
    + subst o. apply (ev_bind_throw _ (fun f x => mul_div_loop f (v1 * fst x)%R (snd x))). exact IH2.
  - (* product_div *)
    intros s1 e1 sp s2 e2 H1 IH1 Hsp H2 IH2 rest o Hb Ho.
    assert (Hx : forall rest', consume "/" (sp ++ txt "/" ++ rest') = Some rest') by (intros; now apply consume_hit).
    assert (Hy : forall rest', consume "*" (sp ++ txt "/" ++ rest') = None) by (intros; now apply consume_miss).
    replace ((s1 ++ sp ++ txt "/" ++ s2) ++ rest) with (s1 ++ sp ++ txt "/" ++ s2 ++ rest) by (rewrite <- !app_assoc; reflexivity).
    apply IH1. { apply boundary_spaces; [exact Hsp|reflexivity]. }
    cbn [value] in Ho. destruct (value e1) as [v1|]; [|exact Ho]. apply ev_S. cbn [mul_div_loop].
    eapply ev_ext; [intros f; rewrite Hy, Hx; reflexivity|]. specialize (IH2 rest Hb).
    destruct (value e2) as [v2|]; cbn [res_of binary] in *.
    + eapply (ev_bind _ (fun f x => if Req_EM_T (fst x) 0 then Throw else mul_div_loop f (v1 / fst x)%R (snd x))); [exact IH2|].
      cbn [fst snd]. destruct (Req_EM_T v2 0); [subst o; apply ev_const|exact Ho].
    + subst o. apply (ev_bind_throw _ (fun f x => if Req_EM_T (fst x) 0 then Throw else mul_div_loop f (v1 / fst x)%R (snd x))). exact IH2.
  - (* signed_plus *)
    intros sp s e Hsp Hs IH rest Hb. rewrite <- !app_assoc. apply ev_S. cbn [parse_unary].
    assert (Hx : consume "+" (sp ++ txt "+" ++ s ++ rest) = Some (s ++ rest)) by now apply consume_hit.
    eapply ev_ext; [intros f; rewrite Hx; reflexivity|]. now apply IH.
  - (* signed_minus *)
    intros sp s e Hsp Hs IH rest Hb. rewrite <- !app_assoc. apply ev_S. cbn [parse_unary].
    assert (Hx : consume "-" (sp ++ txt "-" ++ s ++ rest) = Some (s ++ rest)) by now apply consume_hit.
    assert (Hy : consume "+" (sp ++ txt "-" ++ s ++ rest) = None) by now apply consume_miss.
    eapply ev_ext; [intros f; rewrite Hy, Hx; reflexivity|]. specialize (IH rest Hb). cbn [value].
    destruct (value e) as [v|]; cbn [res_of option_map] in *.
    + eapply (ev_bind _ (fun f x => Ok ((- fst x)%R, snd x))); [exact IH|apply ev_const].
    + apply (ev_bind_throw _ (fun f x => Ok ((- fst x)%R, snd x))). exact IH.
  - (* signed_pi *)
    intros sp Hsp rest Hb. rewrite <- !app_assoc. apply ev_S, ev_S. exists 0%nat. intros f _. cbn [parse_unary].
    assert (Hx : forall c, Ascii.eqb "p" c = false -> consume c (sp ++ txt "pi" ++ rest) = None) by (intros; now apply consume_miss).
    rewrite !Hx by reflexivity. cbn [parse_primary]. rewrite Hx by reflexivity. rewrite skip_spaces_app by exact Hsp.
    change (skip_spaces (txt "pi" ++ rest)) with ("p"%char :: "i"%char :: rest).
    cbv iota beta. change (is_alpha "p" || ("p" =? "_")%char)%bool with true. cbv iota.
    assert (Hr : match rest with [] => True | c :: _ => is_word c = false end).
    { destruct rest as [|c rest]; [exact I|]. now apply boundary_facts. }
    assert (E1 : take_while is_word ("i"%char :: rest) = ["i"%char])
      by (apply (take_while_app is_word ["i"%char] rest); [repeat constructor|exact Hr]).
    assert (E2 : drop_while is_word ("i"%char :: rest) = rest)
      by (apply (drop_while_app_stop is_word ["i"%char] rest); [repeat constructor|exact Hr]).
    rewrite E1, E2. reflexivity.
  - (* signed_decimal *)
    intros sp s v Hsp Hs rest Hb. cbn [value res_of]. apply number_ev; auto; [eapply decimal_first; eauto|].
    now apply strtod_decimal_complete.
  - (* signed_hexadecimal *)
    intros sp s v Hsp Hs rest Hb. cbn [value res_of]. apply number_ev; auto.
    + destruct Hs. eexists _, _. split; [reflexivity|]. now left.
    + now apply strtod_hexadecimal_complete.
  - (* signed_group *)
    intros sp s e sp' Hsp Hs IH Hsp' rest Hb. rewrite <- !app_assoc. apply ev_S, ev_S. cbn [parse_unary].
    assert (Hx : forall c, Ascii.eqb "(" c = false -> consume c (sp ++ txt "(" ++ s ++ sp' ++ txt ")" ++ rest) = None)
      by (intros; now apply consume_miss).
    assert (Hh : consume "(" (sp ++ txt "(" ++ s ++ sp' ++ txt ")" ++ rest) = Some (s ++ sp' ++ txt ")" ++ rest)) by now apply consume_hit.
    eapply ev_ext.
    { intros f. rewrite !Hx by reflexivity. cbn [parse_primary]. rewrite Hh. reflexivity. }
    assert (Hm : forall c, Ascii.eqb ")" c = false -> consume c (sp' ++ txt ")" ++ rest) = None) by (intros; now apply consume_miss).
    assert (Hc : consume ")" (skip_spaces (sp' ++ txt ")" ++ rest)) = Some rest) by (rewrite consume_skip; now apply consume_hit).
    specialize (IH (sp' ++ txt ")" ++ rest) (res_of (value e) (skip_spaces (sp' ++ txt ")" ++ rest)))).
    assert (Hstop : sum_stop (sp' ++ txt ")" ++ rest)).
    { split; [apply boundary_spaces; [exact Hsp'|reflexivity]|]. split; now apply Hm. }
    specialize (IH Hstop). destruct (value e) as [v|]; cbn [res_of] in *.
    + eapply (ev_bind _ (fun f x => match consume ")" (snd x) with Some s => Ok (fst x, s) | None => Throw end)).
      * apply IH. apply ev_S. exists 0%nat. intros f _. cbn [add_sub_loop]. rewrite !Hm by reflexivity. reflexivity.
      * cbn [fst snd]. rewrite Hc. apply ev_const.
    + apply (ev_bind_throw _ (fun f x => match consume ")" (snd x) with Some s => Ok (fst x, s) | None => Throw end)). now apply IH.
Qed.
Lemma ev_at s o : ev (fun f => parse_add_sub f s) o -> parse_add_sub (6 * length s + 6) s = o.
Proof.
  intros [f0 H]. destruct (fuel_enough (length s)) as (_ & _ & _ & _ & _ & E).
  specialize (E (6 * length s + 6)%nat s ltac:(lia) ltac:(lia)).
  rewrite <- (H (Nat.max f0 (6 * length s + 6))) by lia. symmetry.
  apply (parse_more (6 * length s + 6)); [lia|reflexivity|exact E].
Qed.
Theorem parse_expr_value s e : expression s e -> parse_expr s = match value e with Some v => Ok v | None => Throw end.
Proof.
  intros (s' & sp & -> & Hs & Hsp). unfold parse_expr.
  assert (Hstop : sum_stop sp).
  { split; [rewrite <- (app_nil_r sp); apply boundary_spaces; [exact Hsp|exact I]|].
    unfold consume, skip_spaces. rewrite drop_while_all by exact Hsp. auto. }
  assert (Hc : forall c, consume c sp = None) by (intros c; unfold consume, skip_spaces; now rewrite drop_while_all by exact Hsp).
  pose proof (proj1 parse_complete s' e Hs sp (res_of (value e) []) Hstop) as H.
  assert (Hp : ev (fun f => parse_add_sub f (s' ++ sp)) (res_of (value e) [])).
  { apply H. destruct (value e) as [v|]; [|reflexivity]. apply ev_S. exists 0%nat. intros f _. cbn [add_sub_loop res_of].
    rewrite !Hc. unfold skip_spaces. now rewrite drop_while_all. }
  rewrite (ev_at _ _ Hp). destruct (value e); reflexivity.
Qed.
Theorem parse_expr_rejects s : (forall e, ~ expression s e) -> parse_expr s = Throw.
Proof.
  intros H. unfold parse_expr. destruct (fuel_enough (length s)) as (_ & _ & _ & _ & _ & E).
  specialize (E (6 * length s + 6)%nat s ltac:(lia) ltac:(lia)).
  destruct (parse_add_sub (6 * length s + 6) s) as [[v r]| |] eqn:Ep; [|reflexivity|congruence]. cbn [bindR fst snd].
  destruct (skip_spaces r) as [|c r'] eqn:Er; [|reflexivity]. exfalso.
  destruct (proj1 (parse_sound _) _ _ _ Ep) as (t & sp & e & Es & Hsp & Ht & _).
  apply (H e). destruct (skip_spaces_spec r) as (sp2 & Er2 & Hsp2 & _). rewrite Er, app_nil_r in Er2. subst r.
  exists t, (sp ++ sp2). split; [exact Es|]. split; [exact Ht|now apply spaces_app].
Qed.
