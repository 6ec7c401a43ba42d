(** Decimal numbers and stream reading. *)
From Verif Require Import Prelude Text.
From Coq Require Import ZifyBool ZifyN.
Local Open Scope N_scope.
Local Open Scope list_scope.

Lemma dec_val_app l1 l2 : dec_val (l1 ++ l2) = fold_left (fun a c => 10 * a + digit_val c) l2 (dec_val l1).
Proof. unfold dec_val. apply fold_left_app. Qed.
Lemma fold_dec_acc l : forall a, fold_left (fun a c => 10 * a + digit_val c) l a = a * 10 ^ N.of_nat (List.length l) + dec_val l.
Proof.
  unfold dec_val. induction l as [|c l IH]; intros a; cbn [fold_left List.length]; [simpl; lia|].
  rewrite IH. rewrite (IH (10 * 0 + digit_val c)). replace (N.of_nat (S (List.length l))) with (1 + N.of_nat (List.length l)) by lia.
  rewrite N.pow_add_r. change (10 ^ 1) with 10. lia.
Qed.
Lemma digit_chr_val d : d < 10 -> digit_val (digit_chr d) = d.
Proof. intros H. unfold digit_val, digit_chr. rewrite N_ascii_embedding by lia. lia. Qed.
Lemma digit_chr_digit d : d < 10 -> is_digit (digit_chr d) = true.
Proof. intros H. unfold is_digit, digit_chr. rewrite N_ascii_embedding by lia. lia. Qed.
Lemma digit_chr_space d : d < 10 -> is_space (digit_chr d) = false.
Proof. intros H. unfold is_space, digit_chr. rewrite N_ascii_embedding by lia. lia. Qed.

Lemma dec_loop_spec fuel : forall n acc, n < 10 ^ N.of_nat fuel -> (0 < fuel)%nat ->
  exists d, dec_loop fuel n acc = d ++ acc /\ d <> [] /\ Forall (fun c => is_digit c = true) d /\ dec_val d = n.
Proof.
  induction fuel as [|fuel IH]; intros n acc Hn Hf; [lia|]. cbn [dec_loop].
  pose proof (N.mod_lt n 10 ltac:(discriminate)) as Hm.
  destruct (N.ltb_spec n 10) as [H|H].
  - exists [digit_chr (n mod 10)]. split; [reflexivity|]. split; [discriminate|]. split.
    + constructor; [now apply digit_chr_digit|constructor].
    + unfold dec_val. cbn [fold_left]. rewrite digit_chr_val by assumption. rewrite N.mod_small by assumption. lia.
  - destruct fuel as [|fuel].
    { change (10 ^ N.of_nat 1) with 10 in Hn. lia. }
    destruct (IH (n / 10) (digit_chr (n mod 10) :: acc)) as (d & E & Hd & Hf' & Hv).
    + apply N.div_lt_upper_bound; [discriminate|]. replace (N.of_nat (S (S fuel))) with (1 + N.of_nat (S fuel)) in Hn by lia.
      rewrite N.pow_add_r in Hn. exact Hn.
    + lia.
    + exists (d ++ [digit_chr (n mod 10)]). split; [rewrite E, <- app_assoc; reflexivity|].
      split; [now destruct d|]. split.
      * apply Forall_app. split; [assumption|]. constructor; [now apply digit_chr_digit|constructor].
      * rewrite dec_val_app. cbn [fold_left]. rewrite digit_chr_val, Hv by assumption. symmetry. apply N.div_mod'.
Qed.
Lemma dec_spec n : n < two64 -> dec n <> [] /\ Forall (fun c => is_digit c = true) (dec n) /\ dec_val (dec n) = n.
Proof.
  intros H. unfold dec. destruct (dec_loop_spec 20 n []) as (d & E & H1 & H2 & H3).
  - eapply N.lt_trans; [exact H|reflexivity].
  - lia.
  - rewrite E, app_nil_r. auto.
Qed.

Lemma skip_ws_spec l : exists w, Forall (fun c => is_space c = true) w /\ l = w ++ skip_ws l /\
  match skip_ws l with c :: _ => is_space c = false | [] => True end.
Proof.
  induction l as [|c l IH]; simpl; [exists []; auto|]. destruct (is_space c) eqn:E.
  - destruct IH as (w & H1 & H2 & H3). exists (c :: w). split; [constructor; assumption|]. split; [simpl; congruence|assumption].
  - exists []. repeat split; auto.
Qed.
Lemma skip_ws_app w l : Forall (fun c => is_space c = true) w -> skip_ws (w ++ l) = skip_ws l.
Proof. induction 1 as [|c w H Hw IH]; simpl; [reflexivity|]. now rewrite H. Qed.
Lemma skip_ws_nonspace c l : is_space c = false -> skip_ws (c :: l) = c :: l.
Proof. intros H. simpl. now rewrite H. Qed.
Lemma span_digits_spec l : let '(d, t) := span_digits l in l = d ++ t /\ Forall (fun c => is_digit c = true) d /\
  match t with c :: _ => is_digit c = false | [] => True end.
Proof.
  induction l as [|c l IH]; simpl; [auto|]. destruct (is_digit c) eqn:E.
  - destruct (span_digits l) as [d t]. destruct IH as (H1 & H2 & H3). subst. auto.
  - auto.
Qed.
Lemma span_digits_app d l : Forall (fun c => is_digit c = true) d ->
  (match l with c :: _ => is_digit c = false | [] => True end) -> span_digits (d ++ l) = (d, l).
Proof.
  intros Hd Hl. induction Hd as [|c d H Hd IH]; simpl.
  - destruct l as [|c l]; simpl; [reflexivity|]. now rewrite Hl.
  - now rewrite H, IH.
Qed.
Lemma digit_not_sign c : is_digit c = true -> Ascii.eqb c "-" = false /\ Ascii.eqb c "+" = false.
Proof.
  intros H. split; apply Ascii.eqb_neq; intros ->; vm_compute in H; discriminate.
Qed.
Lemma digit_not_space c : is_digit c = true -> is_space c = false.
Proof. unfold is_digit, is_space. lia. Qed.
Lemma read_char_len l c r : read_char l = Some (c, r) -> (List.length r < List.length l)%nat.
Proof.
  unfold read_char. destruct (skip_ws_spec l) as (w & _ & E & _). destruct (skip_ws l) as [|c' r'] eqn:Es; [discriminate|].
  intros H. inversion H; subst c r. rewrite E, app_length. simpl. lia.
Qed.
Lemma read_u64_len l v r : read_u64 l = Some (v, r) -> (List.length r <= List.length l)%nat.
Proof.
  unfold read_u64. destruct (skip_ws_spec l) as (w & _ & E & _). 
  destruct (read_sign (skip_ws l)) as [neg l1] eqn:Es.
  assert (H1 : (List.length l1 <= List.length (skip_ws l))%nat).
  { destruct (skip_ws l) as [|c r']; simpl in Es; [inversion Es; simpl; lia|].
    destruct (Ascii.eqb c "-"); [inversion Es; simpl; lia|]. destruct (Ascii.eqb c "+"); inversion Es; simpl; lia. }
  pose proof (span_digits_spec l1) as H2. destruct (span_digits l1) as [d t]. destruct H2 as (H2 & _ & _).
  destruct d; [discriminate|]. destruct (_ <? two64); [|discriminate]. intros H; inversion H; subst.
  assert (H3 : (List.length l = List.length w + List.length (skip_ws l))%nat) by (rewrite E at 1; apply app_length).
  rewrite app_length in H1. simpl in H1. lia.
Qed.
