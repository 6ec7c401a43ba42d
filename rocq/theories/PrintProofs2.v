From Verif Require Export PrintProofs.
From Verif Require Import TextProofs PauliTextProofs BitsProofs OperatorSpec JsonProofs OperatorBatchedSpec OperatorBatchedProofs OperatorBatchedProofs2 GatesProofs3 PauliProofs.
Require Import Lia.
Local Open Scope N_scope.
Local Open Scope list_scope.

(** * Operators *)
Lemma first_of (c : ascii) a b x y : ~ In c a -> ~ In c b -> a ++ c :: x = b ++ c :: y -> a = b /\ x = y.
Proof.
  revert b. induction a as [|d a IH]; intros [|e b] Ha Hb E.
  - injection E as ->. auto.
  - injection E as -> _. exfalso. apply Hb. now left.
  - injection E as -> _. exfalso. apply Ha. now left.
  - injection E as -> E. destruct (IH b) as [-> ->]; auto; intros K; [apply Ha|apply Hb]; now right.
Qed.
Lemma one_items l : Forall (fun qi => fst qi < two64) l -> one_line (join_items l).
Proof.
  assert (HL : forall i, id_letter i <> newline) by (intros i; destruct i as [|[[]|[]|]]; discriminate).
  induction l as [|(q, i) l IH]; intros F; [exact one_nil|]. inversion F as [|? ? Hq Fl]; subst. cbn [fst] in Hq. specialize (IH Fl).
  destruct l as [|qi l].
  - cbn [join_items]. apply one_cons; [apply HL|]. apply one_cons; [discriminate|]. now apply one_dec.
  - change (join_items ((q, i) :: qi :: l)) with (id_letter i :: " "%char :: dec q ++ " "%char :: join_items (qi :: l)).
    apply one_cons; [apply HL|]. apply one_cons; [discriminate|]. apply one_app; [now apply one_dec|]. apply one_cons; [discriminate|exact IH].
Qed.
Lemma lor_u64 a b : a < two64 -> b < two64 -> N.lor a b < two64.
Proof.
  change two64 with (2 ^ 64). intros Ha Hb. destruct (N.eq_dec (N.lor a b) 0) as [->|Hz]; [reflexivity|].
  apply N.log2_lt_pow2; [lia|]. rewrite N.log2_lor. apply N.max_lub_lt.
  - destruct (N.eq_dec a 0) as [->|]; [reflexivity|]. apply N.log2_lt_pow2; lia.
  - destruct (N.eq_dec b 0) as [->|]; [reflexivity|]. apply N.log2_lt_pow2; lia.
Qed.
Lemma vector_small m : m < two64 -> Forall (fun q => q < two64) (mask_to_vector m).
Proof.
  intros H. rewrite mask_to_vector_bits by assumption. eapply Forall_impl; [|apply (bits_lt m 64 H)].
  intros q Hq. cbv beta in Hq. change two64 with 18446744073709551616. lia.
Qed.
Local Transparent pauli_target_list.
Lemma one_pauli p : pauli_u64 p -> one_line (pauli_to_text p).
Proof.
  intros [H1 H2]. apply one_items. apply Forall_forall. intros (q, i) Hq. apply in_combine_l in Hq. cbn [fst].
  pose proof (vector_small _ (lor_u64 _ _ H1 H2)) as F. rewrite Forall_forall in F. unfold pauli_target_list in Hq. exact (F q Hq).
Qed.
Lemma text_coef c d bf pf : pauli_to_text (Pauli c bf pf) = pauli_to_text (Pauli d bf pf).
Proof. unfold pauli_to_text, pauli_target_list, pauli_id_list. cbn [p_bf p_pf]. reflexivity. Qed.
Lemma same_text_inj p q : pauli_u64 p -> pauli_u64 q -> pauli_to_text p = pauli_to_text q -> p_bf p = p_bf q /\ p_pf p = p_pf q.
Proof.
  destruct p as [c bf pf], q as [d bf' pf']. intros Hp Hq E. rewrite (text_coef c d) in E.
  assert (Hp' : pauli_u64 (Pauli d bf pf)) by (destruct Hp; now split).
  pose proof (text_round_trip _ Hp') as K1. pose proof (text_round_trip _ Hq) as K2. cbn [p_coef] in K1, K2.
  revert E K1 K2. generalize (pauli_to_text (Pauli d bf pf)) (pauli_to_text (Pauli d bf' pf')). intros t u -> K1 K2. rewrite K1 in K2. injection K2 as -> ->. auto.
Qed.
Lemma quoted_inj (a b x y : text) : ~ In quote a -> ~ In quote b -> a ++ [" "%char; quote] ++ x ++ [quote] = b ++ [" "%char; quote] ++ y ++ [quote] -> a = b /\ x = y.
Proof.
  intros Ha Hb E.
  assert (N1 : forall c : text, ~ In quote c -> ~ In quote (c ++ [" "%char])) by (intros c K H; apply in_app_or in H; destruct H as [H|[H|[]]]; [contradiction|discriminate]).
  change (a ++ [" "%char] ++ (quote :: x ++ [quote]) = b ++ [" "%char] ++ (quote :: y ++ [quote])) in E.
  rewrite !app_assoc in E. apply first_of in E; [|now apply N1..]. destruct E as [E1 E2]. apply app_inv_tail in E1, E2. auto.
Qed.
Section Terms.
  Variable show : C -> text.
  Hypothesis Hshow : forall c, one_line (show c).
  Definition term_line (p : pauli) : text := show (p_coef p) ++ [" "%char; quote] ++ pauli_to_text p ++ [quote].
  Lemma one_term p : pauli_u64 p -> one_line (term_line p).
  Proof.
    intros H. unfold term_line. apply one_app; [apply Hshow|]. apply one_app; [literal|]. apply one_app; [now apply one_pauli|literal].
  Qed.
  Lemma op_blocks l r : Forall pauli_u64 l -> lines (flat_map (fun p => line (pauli_to_string show p)) l ++ r) = map term_line l ++ lines r.
  Proof. intros F. apply (lines_flat term_line). intros p Hp. rewrite Forall_forall in F. apply one_term. now apply F. Qed.
  Lemma op_text o : op_u64 o -> lines (op_to_string show o) = map term_line (o_terms o) /\
    Forall (fun p => pauli_from_text (pauli_to_text p) (p_coef p) = Ok p) (o_terms o).
  Proof.
    intros H. split.
    - unfold op_to_string. rewrite <- (app_nil_r (flat_map _ _)), op_blocks by assumption. cbn [lines]. apply app_nil_r.
    - eapply Forall_impl; [|exact H]. intros p. apply text_round_trip.
  Qed.
  Hypothesis Hquote : forall c, ~ In quote (show c).
  Definition shown_alike (p q : pauli) : Prop := show (p_coef p) = show (p_coef q) /\ p_bf p = p_bf q /\ p_pf p = p_pf q.
  Lemma term_inj p q : pauli_u64 p -> pauli_u64 q -> term_line p = term_line q -> shown_alike p q.
  Proof.
    intros Hp Hq E. unfold term_line in E. apply quoted_inj in E; [|apply Hquote..]. destruct E as [E1 E2].
    split; [exact E1|]. now apply same_text_inj.
  Qed.
  Lemma terms_inj l : forall m, Forall pauli_u64 l -> Forall pauli_u64 m -> map term_line l = map term_line m -> Forall2 shown_alike l m.
  Proof.
    induction l as [|p l IH]; intros [|q m] F G E; try discriminate; [constructor|].
    cbn [map] in E. injection E as E1 E2. inversion F; inversion G; subst. constructor; [now apply term_inj|now apply IH].
  Qed.
  Lemma op_shows o o' : op_u64 o -> op_u64 o' -> op_to_string show o = op_to_string show o' -> Forall2 shown_alike (o_terms o) (o_terms o').
  Proof.
    intros H H' E. apply terms_inj; try assumption. rewrite <- (proj1 (op_text o H)), <- (proj1 (op_text o' H')). now rewrite E.
  Qed.
  Lemma ob_text ops : fits_vector ops -> Forall op_u64 ops -> exists t, ob_to_string show (batch_of ops) = Ok t /\
    lines t = flat_map (fun b => (lit "Operator " ++ dec b ++ lit ":") :: map term_line (nth (N.to_nat b) (map o_terms ops) [])) (seqN (lenN ops)).
  Proof.
    intros Hf H. unfold batch_of, ob_of_operators, ob_to_string. set (L := map o_terms ops).
    assert (HL : lenN L < two64 - 1) by (unfold L, lenN; rewrite map_length; exact Hf).
    assert (E : exists rest, ob_row (ob_of_lists L) = 0 :: rest /\ lenN rest = lenN L).
    { unfold ob_of_lists. cbn [ob_row]. rewrite scan_cons. eexists. split; [reflexivity|].
      pose proof (lenN_scan 0 (map lenN L)) as K. rewrite scan_cons, lenN_cons, lenN_map in K. lia. }
    destruct E as (rest & E1 & E2). rewrite E1, E2.
    rewrite (collectR_ok _ (fun b => line (lit "Operator " ++ dec b ++ lit ":") ++ op_to_string show (Op (nth (N.to_nat b) L []) true false))).
    - cbn [bindR]. eexists. split; [reflexivity|]. rewrite <- flat_map_concat_map.
      match goal with |- lines ?t = _ => rewrite <- (app_nil_r t) end.
      rewrite (lines_blocks _ (fun b => (lit "Operator " ++ dec b ++ lit ":") :: map term_line (nth (N.to_nat b) L []))).
      + cbn [lines]. rewrite app_nil_r. unfold L, lenN. now rewrite map_length.
      + intros b r Hb. apply in_seqN in Hb. rewrite <- app_assoc, lines_line.
        * cbn [app]. f_equal. unfold op_to_string. cbn [o_terms]. apply op_blocks.
          destruct (nth_in_or_default (N.to_nat b) L []) as [K|K]; [|rewrite K; constructor]. unfold L in *. apply in_map_iff in K. destruct K as (o & <- & Ho).
          rewrite Forall_forall in H. now apply H.
        * apply one_app; [literal|]. apply one_app; [apply one_dec; lia|literal].
    - intros b Hb. apply in_seqN in Hb. destruct (get_operator_at_ok L (N.to_nat b) (nth (N.to_nat b) L []) HL) as [K _].
      + apply nth_error_nth'. unfold lenN in Hb. lia.
      + rewrite Nnat.N2Nat.id in K. rewrite K. reflexivity.
  Qed.
End Terms.

(** * Gates *)
Lemma one_listed l : Forall (fun q => q < two64) l -> one_line (listed l).
Proof.
  induction l as [|a l IH]; intros F; [exact one_nil|]. inversion F as [|? ? Ha Fl]; subst. destruct l as [|b l]; [now apply one_dec|].
  change (listed (a :: b :: l)) with (dec a ++ lit ", " ++ listed (b :: l)). apply one_app; [now apply one_dec|]. apply one_app; [literal|now apply IH].
Qed.
Lemma listed_ok l : Forall (fun q => q < two64) l -> list_of l (listed l).
Proof.
  induction l as [|a l IH]; intros F; [constructor|]. inversion F as [|? ? Ha Fl]; subst. destruct l as [|b l]; [constructor; now apply decimal_dec|].
  change (listed (a :: b :: l)) with (dec a ++ lit ", " ++ listed (b :: l)). apply list_more; [now apply decimal_dec|discriminate|now apply IH].
Qed.
Definition stop (t : text) : Prop := match t with [] => True | c :: _ => is_digit c = false end.
Lemma digits_first a : forall b x y, Forall (fun c => is_digit c = true) a -> Forall (fun c => is_digit c = true) b -> stop x -> stop y -> a ++ x = b ++ y -> a = b /\ x = y.
Proof.
  induction a as [|c a IH]; intros [|d b] x y Fa Fb Sx Sy E.
  - auto.
  - cbn [app] in E. subst x. inversion Fb. cbn in Sx. congruence.
  - cbn [app] in E. subst y. inversion Fa. cbn in Sy. congruence.
  - injection E as -> E. inversion Fa; inversion Fb; subst. destruct (IH b x y) as [-> ->]; auto.
Qed.
Lemma list_of_inj l t : list_of l t -> forall l', list_of l' t -> l = l'.
Proof.
  assert (D : forall a t b t' x y, decimal_of a t -> decimal_of b t' -> stop x -> stop y -> t ++ x = t' ++ y -> a = b /\ x = y).
  { intros a u b u' x y (_ & F & <-) (_ & F' & <-) Sx Sy E. destruct (digits_first _ _ _ _ F F' Sx Sy E) as [-> ->]. auto. }
  induction 1 as [|a t Ha|a t l r Ha Hl Hr IH]; intros l' H'.
  - inversion H' as [|b t' Hb E|b t' m s Hb Hm Hs E]; [reflexivity|destruct Hb; congruence|]. destruct Hb as [Hb _]. destruct t'; [congruence|discriminate].
  - inversion H' as [E|b t' Hb E|b t' m s Hb Hm Hs E]; subst.
    + destruct Ha; congruence.
    + destruct Ha as (_ & _ & <-), Hb as (_ & _ & <-). reflexivity.
    + exfalso. destruct (D b t' a (t' ++ to_text ", " ++ s) (to_text ", " ++ s) []) as [_ K]; try assumption; try exact I; try reflexivity.
      * now rewrite app_nil_r.
      * discriminate.
  - inversion H' as [E|b t' Hb E|b t' m s Hb Hm Hs E]; subst.
    + destruct Ha as [Ha _]. destruct t; [congruence|discriminate].
    + exfalso. destruct (D a t b (t ++ to_text ", " ++ r) (to_text ", " ++ r) []) as [_ K]; try assumption; try exact I; try reflexivity.
      * now rewrite app_nil_r.
      * discriminate.
    + destruct (D b t' a t (to_text ", " ++ s) (to_text ", " ++ r)) as [-> K]; try assumption; try reflexivity.
      apply app_inv_head in K. subst s. f_equal. now apply IH.
Qed.
Lemma listed_inj l l' : Forall (fun q => q < two64) l -> Forall (fun q => q < two64) l' -> listed l = listed l' -> l = l'.
Proof. intros F F' E. apply (list_of_inj l (listed l)); [now apply listed_ok|]. rewrite E. now apply listed_ok. Qed.
Lemma values_small c v : c < two64 -> Forall (fun q => q < two64) (mask_to_values c v).
Proof.
  intros H. rewrite mask_to_values_bits by assumption. apply Forall_forall. intros x Hx. apply in_map_iff in Hx. destruct Hx as (i & <- & _).
  destruct (N.testbit v i); reflexivity.
Qed.
Section Info.
  Variable indent : text.
  Hypothesis Hi : one_line indent.
  Definition info_line (name : string) (l : list N) : text := indent ++ lit name ++ listed l ++ lit "}".
  Definition info_lines (b : base) : list text :=
    [info_line "  Target Qubits: {" (mask_to_vector (g_t b)); info_line "  Control Qubits: {" (mask_to_vector (g_c b)); info_line "  Control Value: {" (mask_to_values (g_c b) (g_cv b))].
  Lemma one_info name l : one_line (lit name) -> Forall (fun q => q < two64) l -> one_line (info_line name l).
  Proof. intros H F. unfold info_line. apply one_app; [exact Hi|]. apply one_app; [exact H|]. apply one_app; [now apply one_listed|literal]. Qed.
  Lemma info_text b : masks_ok b -> lines (qubit_info indent b) = info_lines b.
  Proof.
    intros (H1 & H2 & H3).
    assert (E : qubit_info indent b = line (info_line "  Target Qubits: {" (mask_to_vector (g_t b))) ++ line (info_line "  Control Qubits: {" (mask_to_vector (g_c b))) ++ info_line "  Control Value: {" (mask_to_values (g_c b) (g_cv b))).
    { unfold qubit_info, line, info_line. now rewrite <- !app_assoc. }
    rewrite E. rewrite !lines_line, lines_last; [reflexivity| |..].
    - unfold info_line. destruct indent; discriminate.
    - apply one_info; [literal|now apply values_small].
    - apply one_info; [literal|now apply vector_small].
    - apply one_info; [literal|now apply vector_small].
  Qed.
  Lemma info_line_inj name l l' : Forall (fun q => q < two64) l -> Forall (fun q => q < two64) l' -> info_line name l = info_line name l' -> l = l'.
  Proof. intros F F' E. unfold info_line in E. do 2 apply app_inv_head in E. apply app_inv_tail in E. now apply listed_inj. Qed.
  Lemma info_inj b b' : masks_ok b -> masks_ok b' -> info_lines b = info_lines b' -> b = b'.
  Proof.
    intros (H1 & H2 & H3) (H1' & H2' & H3') E. unfold info_lines in E. 
    assert (E1 := f_equal (fun l => nth 0 l []) E). assert (E2 := f_equal (fun l => nth 1 l []) E). assert (E3 := f_equal (fun l => nth 2 l []) E). cbn [nth] in E1, E2, E3.
    apply info_line_inj in E1; [|now apply vector_small..]. apply info_line_inj in E2; [|now apply vector_small..]. apply info_line_inj in E3; [|now apply values_small..].
    pose proof (values_mask _ _ H2 H3) as V. pose proof (values_mask _ _ H2' H3') as V'. rewrite E2, E3 in V. rewrite V in V'. injection V' as V'.
    apply (f_equal vector_to_mask) in E1, E2. rewrite !mask_to_vector_to_mask in E1, E2 by assumption. injection E1 as E1. injection E2 as E2.
    clear - E1 E2 V'. destruct b as [x y z], b' as [x' y' z']. cbn [g_t g_c g_cv] in E1, E2, V'. now rewrite E1, E2, V'.
  Qed.
  Variable num : R -> text.
  Hypothesis Hnum : forall r, one_line (num r).
  Definition label (name : string) : text := lit "Gate Type: " ++ lit name.
  Definition angle (name : string) (v : R) : text := lit "  " ++ lit name ++ lit ": " ++ num v.
  Definition head_lines (g : egate) : list text :=
    match g with
    | EI => [label "I"] | EGlobalPhase _ ph => [label "GlobalPhase"; angle "Phase" ph] | ESwap _ => [label "Swap"]
    | EStd k _ => match k with
      | GX => [label "X"] | GY => [label "Y"] | GZ => [label "Z"] | GH => [label "H"] | GS => [label "S"] | GSdag => [label "Sdag"]
      | GT => [label "T"] | GTdag => [label "Tdag"] | GSqrtX => [label "SqrtX"] | GSqrtXdag => [label "SqrtXdag"]
      | GSqrtY => [label "SqrtY"] | GSqrtYdag => [label "SqrtYdag"] | GP0 => [label "P0"] | GP1 => [label "P1"]
      | GRX a => [label "RX"; angle "Angle" a] | GRY a => [label "RY"; angle "Angle" a] | GRZ a => [label "RZ"; angle "Angle" a]
      | GU1 l => [label "U1"; angle "Lambda" l] | GU2 p l => [angle "Phi" p; angle "Lambda" l; label "U2"]
      | GU3 t p l => [label "U3"; angle "Theta" t; angle "Phi" p; angle "Lambda" l] end
    | _ => []
    end.
  Lemma gate_head g k : gate_kind g = Some k -> gate_to_string num indent g = Some (flat_map (fun t => line (indent ++ t)) (head_lines g) ++ qubit_info indent (g_base g)).
  Proof.
    intros H. destruct g as [|b ph|k' b|b| | | | | |]; try discriminate; [| |destruct k'|]; cbn [gate_to_string head_lines std_heading flat_map g_base]; unfold type_line, value_line, label, angle;
      rewrite ?app_nil_r, <- ?app_assoc; reflexivity.
  Qed.
  Lemma gate_text g k : gate_kind g = Some k -> masks_ok (g_base g) -> exists t, gate_to_string num indent g = Some t /\ lines t = map (app indent) (head_lines g) ++ info_lines (g_base g).
  Proof.
    intros H Hb. rewrite (gate_head g k H). eexists. split; [reflexivity|]. rewrite (lines_flat (app indent)).
    - f_equal. now apply info_text.
    - intros t Ht. apply one_app; [exact Hi|].
      assert (A : forall n v, one_line (lit n) -> one_line (angle n v)) by (intros; unfold angle; apply one_app; [literal|]; apply one_app; [assumption|]; apply one_app; [literal|apply Hnum]).
      destruct g as [|b ph|k' b|b| | | | | |]; try discriminate; [| |destruct k'|]; cbn [head_lines In] in Ht; repeat (destruct Ht as [<-|Ht]; [first [literal|apply A; literal]|]); destruct Ht.
  Qed.
  Lemma head_inj g g' k k' : gate_kind g = Some k -> gate_kind g' = Some k' -> head_lines g = head_lines g' -> fst k = fst k' /\ map num (snd k) = map num (snd k').
  Proof.
    assert (A : forall n v v', angle n v = angle n v' -> num v = num v') by (intros n v v' E; unfold angle in E; now do 3 apply app_inv_head in E).
    intros H H' E.
    destruct g as [|b ph|x b|b| | | | | |]; try discriminate; [| |destruct x|]; injection H as <-;
      (destruct g'; try discriminate H'; try match goal with y : std1 |- _ => destruct y end; try discriminate E; injection H' as <-; cbn [head_lines] in E; cbn [fst snd map];
        repeat match goal with K : ?a :: _ = ?b :: _ |- _ =>
          let K1 := fresh in let K2 := fresh in assert (K1 := f_equal (fun l => nth 0 l []) K); assert (K2 := f_equal (@tl _) K); cbn [nth tl] in K1, K2; clear K; try apply A in K1 end; split; congruence).
  Qed.
  Lemma gate_shows g g' k k' t : gate_kind g = Some k -> gate_kind g' = Some k' -> masks_ok (g_base g) -> masks_ok (g_base g') ->
    gate_to_string num indent g = Some t -> gate_to_string num indent g' = Some t ->
    g_base g = g_base g' /\ fst k = fst k' /\ map num (snd k) = map num (snd k').
  Proof.
    intros H H' B B' E E'. destruct (gate_text g k H B) as (u & Eu & Lu), (gate_text g' k' H' B') as (v & Ev & Lv).
    rewrite E in Eu. injection Eu as <-. rewrite E' in Ev. injection Ev as <-. rewrite Lu in Lv.
    assert (Len : length (map (app indent) (head_lines g)) = length (map (app indent) (head_lines g'))).
    { apply (f_equal (@length _)) in Lv. rewrite !app_length in Lv. unfold info_lines in Lv. cbn [length] in Lv. lia. }
    apply (app_split _ _ _ _ Len) in Lv. destruct Lv as [L1 L2].
    split; [now apply info_inj|]. apply (head_inj g g' k k' H H').
    clear - L1. revert L1. generalize (head_lines g'). induction (head_lines g) as [|a l IH]; intros [|b m] E; try discriminate; [reflexivity|].
    cbn [map] in E. assert (K1 := f_equal (fun l => nth 0 l []) E). assert (K2 := f_equal (@tl _) E). cbn [nth tl] in K1, K2. apply app_inv_head in K1. subst b. f_equal. now apply IH.
  Qed.
  Definition measurement_lines (t bit : N) (reset : bool) : list text :=
    [indent ++ lit "Gate Type: Measurement"; indent ++ lit "  Classical Bit Index: " ++ dec bit; indent ++ lit "  Reset: " ++ bool_text reset] ++ info_lines (GBase t 0 0).
  Lemma measurement_text t bit reset : t < two64 -> bit < two64 -> lines (measurement_to_string indent t bit reset) = measurement_lines t bit reset.
  Proof.
    intros Ht Hb. unfold measurement_to_string, measurement_lines, type_line. rewrite !lines_line.
    - rewrite info_text; [reflexivity|]. repeat split. exact Ht.
    - apply one_app; [exact Hi|]. apply one_app; [literal|]. destruct reset; literal.
    - apply one_app; [exact Hi|]. apply one_app; [literal|now apply one_dec].
    - apply one_app; [exact Hi|]. literal.
  Qed.
  Lemma measurement_shows t t' bit bit' r r' : t < two64 -> t' < two64 -> bit < two64 -> bit' < two64 ->
    measurement_to_string indent t bit r = measurement_to_string indent t' bit' r' -> t = t' /\ bit = bit' /\ r = r'.
  Proof.
    intros H1 H2 H3 H4 E. apply (f_equal lines) in E. rewrite !measurement_text in E by assumption. unfold measurement_lines in E.
    apply (app_split) in E; [|reflexivity]. destruct E as [E1 E2]. apply info_inj in E2; [|now repeat split..]. injection E2 as E2.
    assert (K1 := f_equal (fun l => nth 1 l []) E1). assert (K2 := f_equal (fun l => nth 2 l []) E1). cbn [nth] in K1, K2.
    do 2 apply app_inv_head in K1. do 2 apply app_inv_head in K2. apply dec_inj in K1; try assumption. destruct r, r'; try discriminate K2; auto.
  Qed.
End Info.
Lemma pauli_gate_hides : exists g g', gate_wf g /\ gate_wf g' /\ gate_control_values g = [1] /\ gate_control_values g' = [0] /\
  forall num indent, gate_to_string num indent g = gate_to_string num indent g'.
Proof.
  exists (EPauli (GBase 1 2 2) (Pauli C1 1 0)), (EPauli (GBase 1 2 0) (Pauli C1 1 0)).
  repeat split.
Qed.
