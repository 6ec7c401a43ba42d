(** The text form of PauliOperator. *)
From Verif Require Import Prelude Bits BitsProofs Cplx Text TextProofs Pauli PauliText PauliSpec PauliTextSpec OperatorSpec GatesProofs3.
From Coq Require Import ZifyBool ZifyN.
Local Open Scope N_scope.
Local Open Scope list_scope.

Definition no_digit (l : text) : Prop := match l with c :: _ => is_digit c = false | [] => True end.

Lemma read_u64_number w num v rest : spaces w -> number num v -> no_digit rest -> read_u64 (w ++ num ++ rest) = Some (v, rest).
Proof.
  intros Hw Hn Hr. unfold read_u64. rewrite skip_ws_app by exact Hw. destruct Hn as [sg d Hs Hd Hf Hv|d Hd Hf Hv].
  - destruct d as [|c d]; [contradiction|]. inversion Hf as [|? ? Hc Hf']; subst. destruct (digit_not_sign c Hc) as [N1 N2].
    assert (E : read_sign (skip_ws ((sg ++ c :: d) ++ rest)) = (false, (c :: d) ++ rest)).
    { destruct Hs as [-> | ->].
      - simpl app. rewrite skip_ws_nonspace by now apply digit_not_space. simpl. now rewrite N1, N2.
      - reflexivity. }
    rewrite E, span_digits_app by assumption. rewrite (proj2 (N.ltb_lt _ _) Hv). reflexivity.
  - assert (E : read_sign (skip_ws (("-"%char :: d) ++ rest)) = (true, d ++ rest)) by reflexivity.
    rewrite E, span_digits_app by assumption. destruct d as [|c d]; [contradiction|]. rewrite (proj2 (N.ltb_lt _ _) Hv). reflexivity.
Qed.
Lemma read_u64_inv l v rest : read_u64 l = Some (v, rest) -> exists w num, l = w ++ num ++ rest /\ spaces w /\ number num v /\ no_digit rest.
Proof.
  unfold read_u64. destruct (skip_ws_spec l) as (w & Hw & E & _). destruct (read_sign (skip_ws l)) as [neg l1] eqn:Es.
  pose proof (span_digits_spec l1) as Hs. destruct (span_digits l1) as [d t]. destruct Hs as (El & Hd & Ht).
  destruct d as [|c d]; [discriminate|]. destruct (N.ltb_spec (dec_val (c :: d)) two64) as [Hv|]; [|discriminate].
  intros H. inversion H; subst v t. clear H.
  assert (Hsk : exists sg, skip_ws l = sg ++ l1 /\ ((neg = true /\ sg = ["-"%char]) \/ (neg = false /\ (sg = [] \/ sg = ["+"%char])))).
  { destruct (skip_ws l) as [|x r]; simpl in Es; [inversion Es; subst; exists []; auto|].
    destruct (Ascii.eqb x "-") eqn:E1; [apply Ascii.eqb_eq in E1; subst x; inversion Es; subst; exists ["-"%char]; auto|].
    destruct (Ascii.eqb x "+") eqn:E2; [apply Ascii.eqb_eq in E2; subst x; inversion Es; subst; exists ["+"%char]; auto|].
    inversion Es; subst. exists []. auto. }
  destruct Hsk as (sg & Esg & Hsg). exists w, (sg ++ c :: d). split.
  - rewrite E, Esg, El. now rewrite <- app_assoc.
  - split; [exact Hw|]. split; [|exact Ht]. destruct Hsg as [[-> ->]|[-> Hsg]].
    + simpl app. unfold wrap. apply num_neg; [discriminate|assumption|assumption].
    + apply num_plain; [assumption|discriminate|assumption|assumption].
Qed.
Lemma read_char_spaces w : spaces w -> read_char w = None.
Proof. intros H. unfold read_char. rewrite <- (app_nil_r w), skip_ws_app by exact H. reflexivity. Qed.
Lemma read_char_cons w c l : spaces w -> is_space c = false -> read_char (w ++ c :: l) = Some (c, l).
Proof. intros H Hc. unfold read_char. rewrite skip_ws_app by exact H. now rewrite skip_ws_nonspace. Qed.
Lemma read_char_inv l c r : read_char l = Some (c, r) -> exists w, l = w ++ c :: r /\ spaces w /\ is_space c = false.
Proof.
  unfold read_char. destruct (skip_ws_spec l) as (w & Hw & E & H). destruct (skip_ws l) as [|c' r']; [discriminate|].
  intros H'; inversion H'; subst c' r'. exists w. auto.
Qed.
Lemma read_char_none l : read_char l = None -> spaces l.
Proof.
  unfold read_char. destruct (skip_ws_spec l) as (w & Hw & E & H). destruct (skip_ws l) as [|c' r']; [|discriminate].
  intros _. rewrite E, app_nil_r. exact Hw.
Qed.

Lemma letter_id_of c : letter_id c = letter_of c.
Proof. destruct c as [[] [] [] [] [] [] [] []]; reflexivity. Qed.
Lemma letter_of_lt c id : letter_of c = Some id -> id < 4.
Proof. rewrite <- letter_id_of. unfold letter_id. repeat (destruct (_ || _)); intros H; inversion H; reflexivity. Qed.

(** the effect of a list of items *)
Fixpoint add_items (p : pauli) (items : list (ascii * N)) : res pauli :=
  match items with
  | [] => Ok p
  | (c, v) :: r =>
    match letter_of c with
    | None => Throw
    | Some id => if id =? 0 then add_items p r else p' <- add_single_pauli p v id ;; add_items p' r
    end
  end.
Lemma number_nonempty num v : number num v -> num <> [].
Proof. intros [sg d Hs Hd|d]; [destruct sg; [now destruct d|discriminate]|discriminate]. Qed.
Lemma parse_spells l items : spells l items -> forall fuel p, (List.length l < fuel)%nat -> parse_pauli fuel l p = add_items p items.
Proof.
  induction 1 as [w Hw|w1 w2 num rest c v items Hw1 Hc Hw2 Hn Hr Hs IH]; intros fuel p Hf; (destruct fuel as [|fuel]; [lia|]); cbn [parse_pauli add_items].
  - now rewrite read_char_spaces.
  - rewrite read_char_cons, (read_u64_number w2 num v rest), letter_id_of by assumption. rewrite !app_length in Hf. simpl in Hf. rewrite !app_length in Hf.
    destruct (letter_of c) as [id|]; [|reflexivity]. destruct (id =? 0); [apply IH; lia|].
    destruct (add_single_pauli p v id); [|reflexivity|reflexivity]. simpl. apply IH. lia.
Qed.
Lemma add_single_no_ub p q id : add_single_pauli p q id <> UB.
Proof. unfold add_single_pauli. repeat (destruct (_ <=? _)); try discriminate. destruct (N.testbit _ _); discriminate. Qed.
Lemma parse_ok_spells fuel : forall l p, (List.length l < fuel)%nat ->
  match parse_pauli fuel l p with Ok _ => exists items, spells l items | Throw => True | UB => False end.
Proof.
  induction fuel as [|fuel IH]; intros l p Hf; [lia|]. cbn [parse_pauli].
  destruct (read_char l) as [[c l1]|] eqn:Ec.
  2:{ exists []. constructor. now apply read_char_none. }
  destruct (read_u64 l1) as [[v l2]|] eqn:Eu; [|exact I].
  pose proof (read_char_len _ _ _ Ec) as L1. pose proof (read_u64_len _ _ _ Eu) as L2.
  apply read_char_inv in Ec as (w1 & -> & Hw1 & Hc). apply read_u64_inv in Eu as (w2 & num & -> & Hw2 & Hn & Hr).
  destruct (letter_id c) as [id|]; [|exact I].
  assert (G : forall p', match parse_pauli fuel l2 p' with Ok _ => exists items, spells (w1 ++ c :: w2 ++ num ++ l2) items | Throw => True | UB => False end).
  { intros p'. specialize (IH l2 p'). destruct (parse_pauli fuel l2 p'); [|exact I|apply IH; lia].
    destruct IH as [items Hi]; [lia|]. exists ((c, v) :: items). now constructor. }
  destruct (id =? 0); [apply G|]. pose proof (add_single_no_ub p v id). destruct (add_single_pauli p v id); [apply G|exact I|contradiction].
Qed.

(** ** Adding single Paulis *)
Definition at_qubit (p : pauli) (q : N) : N := pauli_id_of (p_bf p) (p_pf p) q.
Lemma at_qubit_0 p q : at_qubit p q = 0 <-> N.testbit (N.lor (p_bf p) (p_pf p)) q = false.
Proof. unfold at_qubit, pauli_id_of. rewrite N.lor_spec. destruct (N.testbit (p_bf p) q), (N.testbit (p_pf p) q); simpl; split; intros; congruence. Qed.
Lemma lor_u64 a b : a < two64 -> b < two64 -> N.lor a b < two64.
Proof. unfold two64. intros. apply lor_lt_iff. now split. Qed.
Lemma shl1_u64 q : q < 64 -> shl64 1 q = 2 ^ q /\ 2 ^ q < two64.
Proof.
  intros H. assert (2 ^ q < two64) by (unfold two64; apply N.pow_lt_mono_r; lia). split; [|assumption].
  unfold shl64. rewrite N.shiftl_mul_pow2, N.mul_1_l. now apply wrap_small.
Qed.
Lemma add_single_ok p q id : pauli_u64 p -> q < 64 -> 1 <= id -> id < 4 -> at_qubit p q = 0 ->
  exists p', add_single_pauli p q id = Ok p' /\ pauli_u64 p' /\ p_coef p' = p_coef p /\ at_qubit p' q = id /\
    (forall q', q' <> q -> at_qubit p' q' = at_qubit p q').
Proof.
  intros [Hb Hp] Hq H1 H4 H0. unfold add_single_pauli. apply at_qubit_0 in H0 as Ht. rewrite Ht.
  destruct (N.leb_spec 64 q); [lia|]. destruct (N.leb_spec 4 id); [lia|]. destruct (shl1_u64 q Hq) as [Es Hs]. rewrite Es.
  rewrite N.lor_spec in Ht. apply orb_false_iff in Ht as [T1 T2].
  eexists. split; [reflexivity|]. unfold pauli_u64, at_qubit, pauli_id_of. cbn [p_bf p_pf p_coef].
  assert (Hc : id = 1 \/ id = 2 \/ id = 3) by lia. 
  destruct Hc as [-> |[-> | ->]]; repeat match goal with |- context [N.eqb ?a ?b] => let v := eval vm_compute in (N.eqb a b) in change (N.eqb a b) with v end; cbn [orb]; cbv iota;
    (split; [split; try assumption; now apply lor_u64|]); (split; [reflexivity|]); 
    (split; [rewrite ?N.lor_spec, ?N.pow2_bits_true, ?T1, ?T2; reflexivity|]);
    intros q' Hq'; rewrite ?N.lor_spec, ?(N.pow2_bits_false q q') by congruence; rewrite ?orb_false_r; reflexivity.
Qed.
Lemma add_single_throw p q id : 64 <= q \/ 4 <= id \/ at_qubit p q <> 0 -> add_single_pauli p q id = Throw.
Proof.
  intros H. unfold add_single_pauli. destruct (N.leb_spec 64 q); [reflexivity|]. destruct (N.leb_spec 4 id); [reflexivity|].
  destruct H as [H|[H|H]]; [lia|lia|]. rewrite at_qubit_0 in H. apply not_false_iff_true in H. now rewrite H.
Qed.
Lemma add_items_ok items : forall p, pauli_u64 p -> legal items -> (forall q, In q (map fst (factors items)) -> at_qubit p q = 0) ->
  exists p', add_items p items = Ok p' /\ pauli_u64 p' /\ p_coef p' = p_coef p /\
    (forall q id, In (q, id) (factors items) -> at_qubit p' q = id) /\
    (forall q, ~ In q (map fst (factors items)) -> at_qubit p' q = at_qubit p q).
Proof.
  induction items as [|[c v] items IH]; intros p Hp (Hl & Hq & Hd) Hfr.
  - exists p. cbn. repeat split; try apply Hp; auto. intros q id [].
  - inversion Hl as [|? ? Hc Hl']; subst. cbn [fst] in Hc. cbn [add_items]. destruct (letter_of c) as [id|] eqn:El; [|congruence].
    pose proof (letter_of_lt c id El) as Hid.
    destruct (N.eqb_spec id 0) as [-> |Hnz].
    + assert (Ef : factors ((c, v) :: items) = factors items) by (unfold factors; cbn [flat_map fst]; rewrite El; reflexivity).
      rewrite Ef in *. apply IH; auto. repeat split; auto.
    + assert (Ef : factors ((c, v) :: items) = (v, id) :: factors items).
      { unfold factors. cbn [flat_map fst snd]. rewrite El. destruct id as [|[]]; [congruence|reflexivity..]. }
      rewrite Ef in *. cbn [map fst] in *. inversion Hq; subst. inversion Hd; subst. cbn [fst] in *.
      destruct (add_single_ok p v id) as (p1 & E1 & Hu1 & Hc1 & Ha1 & Ho1); auto; try lia. { apply Hfr. now left. }
      rewrite E1. cbn [bindR]. destruct (IH p1 Hu1) as (p' & E' & Hu' & Hc' & Hin & Hout).
      * repeat split; auto.
      * intros q Hin. rewrite Ho1; [apply Hfr; now right|]. intros ->. contradiction.
      * exists p'. split; [exact E'|]. split; [assumption|]. split; [congruence|]. split.
        -- intros q id' [Eq|Hin']; [inversion Eq; subst; now rewrite Hout|now apply Hin].
        -- intros q Hn. apply Decidable.not_or in Hn as [Hn1 Hn2]. rewrite Hout by assumption. apply Ho1. congruence.
Qed.
Lemma add_items_inv items : forall p p', pauli_u64 p -> add_items p items = Ok p' ->
  legal items /\ (forall q, In q (map fst (factors items)) -> at_qubit p q = 0).
Proof.
  induction items as [|[c v] items IH]; intros p p' Hp E.
  - split; [repeat constructor|intros q []].
  - cbn [add_items] in E. destruct (letter_of c) as [id|] eqn:El; [|discriminate]. pose proof (letter_of_lt c id El) as Hid.
    destruct (N.eqb_spec id 0) as [-> |Hnz].
    + assert (Ef : factors ((c, v) :: items) = factors items) by (unfold factors; cbn [flat_map fst]; rewrite El; reflexivity).
      unfold legal. rewrite Ef. destruct (IH p p' Hp E) as [(H1 & H2 & H3) H4]. repeat split; auto. constructor; [|assumption]. cbn. congruence.
    + assert (Ef : factors ((c, v) :: items) = (v, id) :: factors items).
      { unfold factors. cbn [flat_map fst snd]. rewrite El. destruct id as [|[]]; [congruence|reflexivity..]. }
      unfold legal. rewrite Ef. cbn [map fst].
      destruct (N.lt_ge_cases v 64) as [Hv|Hv]; [|rewrite add_single_throw in E by auto; discriminate].
      destruct (N.eq_dec (at_qubit p v) 0) as [H0|H0]; [|rewrite add_single_throw in E by auto; discriminate].
      destruct (add_single_ok p v id) as (p1 & E1 & Hu1 & Hc1 & Ha1 & Ho1); auto; try lia. rewrite E1 in E. cbn [bindR] in E.
      destruct (IH p1 p' Hu1 E) as [(H1 & H2 & H3) H4].
      assert (Hn : ~ In v (map fst (factors items))). { intros Hin. apply H4 in Hin. rewrite Hin in Ha1. lia. }
      repeat split; try (constructor; auto; fail).
      * constructor; [cbn; congruence|assumption].
      * intros q [<- |Hin]; [assumption|]. rewrite <- Ho1; [auto|]. intros ->. contradiction.
Qed.
Lemma add_items_no_ub items : forall p, add_items p items <> UB.
Proof.
  induction items as [|[c v] items IH]; intros p; cbn [add_items]; [discriminate|]. destruct (letter_of c) as [id|]; [|discriminate].
  destruct (id =? 0); [apply IH|]. pose proof (add_single_no_ub p v id). destruct (add_single_pauli p v id); simpl; [apply IH|discriminate|contradiction].
Qed.

Lemma at_qubit_one coef q : at_qubit (Pauli coef 0 0) q = 0.
Proof. unfold at_qubit, pauli_id_of. cbn. now rewrite !N.bits_0. Qed.
Lemma zero_u64 coef : pauli_u64 (Pauli coef 0 0). Proof. split; reflexivity. Qed.

Lemma text_accepts l items coef : spells l items -> legal items ->
  exists p, pauli_from_text l coef = Ok p /\ p_coef p = coef /\ product_of (factors items) p.
Proof.
  intros Hs Hl. unfold pauli_from_text. rewrite (parse_spells l items Hs) by lia.
  destruct (add_items_ok items (Pauli coef 0 0) (zero_u64 coef) Hl) as (p & E & [H1 H2] & Hc & Hin & Hout).
  { intros. apply at_qubit_one. }
  exists p. split; [assumption|]. split; [assumption|]. split; [assumption|]. split; [assumption|].
  intros q id [H|[-> H]]; [now apply Hin|]. fold (at_qubit p q). rewrite Hout by assumption. apply at_qubit_one.
Qed.
Lemma text_rejects l items coef : spells l items -> ~ legal items -> pauli_from_text l coef = Throw.
Proof.
  intros Hs Hl. unfold pauli_from_text. rewrite (parse_spells l items Hs) by lia.
  pose proof (add_items_no_ub items (Pauli coef 0 0)).
  destruct (add_items (Pauli coef 0 0) items) as [p| |] eqn:E; [|reflexivity|contradiction]. exfalso. apply Hl.
  apply (add_items_inv items _ _ (zero_u64 coef) E).
Qed.
Lemma text_malformed l coef : (forall items, ~ spells l items) -> pauli_from_text l coef = Throw.
Proof.
  intros H. unfold pauli_from_text. pose proof (parse_ok_spells (S (List.length l)) l (Pauli coef 0 0) ltac:(lia)) as G.
  destruct (parse_pauli _ _ _); [destruct G as [items G]; now apply H in G|reflexivity|contradiction].
Qed.

(** ** Round trip *)
Lemma pauli_id_loop_bits fuel bf pf : forall m, m < two64 -> (List.length (bits m) <= fuel)%nat ->
  (forall q, In q (bits m) -> N.testbit (N.lor bf pf) q = true) ->
  pauli_id_loop fuel bf pf m = map (pauli_id_of bf pf) (bits m).
Proof.
  induction fuel as [|f IH]; intros m Hm Hl Hq; simpl.
  - destruct (bits m); [reflexivity|simpl in Hl; lia].
  - destruct (N.eqb_spec m 0) as [->|Hnz]; [reflexivity|].
    destruct (bits_step m) as (Hb & _ & _); [lia|assumption|].
    rewrite Hb. cbn [map]. rewrite IH.
    + specialize (Hq (ctz m)). rewrite Hb in Hq. specialize (Hq (or_introl eq_refl)). rewrite N.lor_spec in Hq. rewrite N.land_spec.
      assert (Ei : pauli_id_of bf pf (ctz m) = match N.testbit bf (ctz m), N.testbit pf (ctz m) with false, false => 0 | true, false => 1 | true, true => 2 | false, true => 3 end) by reflexivity.
      rewrite Ei. destruct (N.testbit bf (ctz m)), (N.testbit pf (ctz m)); try discriminate; reflexivity.
    + now apply land_pred_u64.
    + rewrite Hb in Hl. simpl in Hl. lia.
    + intros q Hin. apply Hq. rewrite Hb. now right.
Qed.
Definition item_of (qi : N * N) : ascii * N := (id_letter (snd qi), fst qi).
Lemma number_dec q : q < two64 -> number (dec q) q.
Proof.
  intros H. destruct (dec_spec q H) as (H1 & H2 & H3). rewrite <- H3 at 2. apply (num_plain [] (dec q)); auto. now rewrite H3.
Qed.
Lemma id_letter_space id : is_space (id_letter id) = false.
Proof. destruct id as [|[[]|[]|]]; reflexivity. Qed.
Lemma join_spells l : Forall (fun qi => fst qi < two64) l -> spells (join_items l) (map item_of l) /\ no_digit (" "%char :: join_items l) .
Proof.
  induction 1 as [|[q id] l Hq Hl [IH _]]; (split; [|reflexivity]).
  - constructor. constructor.
  - cbn [fst] in Hq. destruct l as [|qi l].
    + cbn [join_items map]. replace (id_letter id :: " "%char :: dec q) with ([] ++ id_letter id :: [" "%char] ++ dec q ++ []) by (simpl; now rewrite app_nil_r).
      unfold item_of at 1. cbn [fst snd]. apply spells_cons; [constructor|apply id_letter_space|repeat constructor|now apply number_dec|exact I|].
      constructor. constructor.
    + assert (E : join_items ((q, id) :: qi :: l) = [] ++ id_letter id :: [" "%char] ++ dec q ++ (" "%char :: join_items (qi :: l))) by reflexivity.
      rewrite E. cbn [map]. unfold item_of at 1. cbn [fst snd]. apply spells_cons; [constructor|apply id_letter_space|repeat constructor|now apply number_dec|reflexivity|].
      cbn [map] in IH. destruct IH as [w Hw|w1 w2 num rest c v items Hw1 Hc Hw2 Hn Hr Hs].
      * constructor. constructor; [reflexivity|assumption].
      * apply (spells_cons (" "%char :: w1)); auto. constructor; [reflexivity|assumption].
Qed.
Lemma letter_of_id id : id < 4 -> letter_of (id_letter id) = Some id.
Proof. intros H. assert (Hc : id = 0 \/ id = 1 \/ id = 2 \/ id = 3) by lia. destruct Hc as [-> |[-> |[-> | ->]]]; reflexivity. Qed.
Lemma factors_items l : Forall (fun qi => 1 <= snd qi /\ snd qi < 4) l -> factors (map item_of l) = l.
Proof.
  induction 1 as [|[q id] l [H1 H2] Hl IH]; [reflexivity|]. unfold factors in *. cbn [map flat_map item_of fst snd]. rewrite letter_of_id by assumption.
  rewrite IH. cbn [fst snd] in H1. destruct id as [|[]]; [lia|reflexivity..].
Qed.
Lemma pauli_ext p q : pauli_u64 p -> pauli_u64 q -> p_coef p = p_coef q -> (forall k, at_qubit p k = at_qubit q k) -> p = q.
Proof.
  destruct p as [c b f], q as [c' b' f']. cbn [p_coef]. intros _ _ -> H. f_equal; apply N.bits_inj; intros k; specialize (H k);
    unfold at_qubit, pauli_id_of in H; cbn in H; destruct (N.testbit b k), (N.testbit f k), (N.testbit b' k), (N.testbit f' k); congruence.
Qed.
Lemma combine_map_r {T U} (f : T -> U) l : combine l (map f l) = map (fun x => (x, f x)) l.
Proof. induction l; simpl; congruence. Qed.
Lemma text_round_trip p : pauli_u64 p -> pauli_from_text (pauli_to_text p) (p_coef p) = Ok p.
Proof.
  intros [Hb Hp]. assert (Hu : N.lor (p_bf p) (p_pf p) < two64) by now apply lor_u64.
  set (l := map (fun q => (q, at_qubit p q)) (bits (N.lor (p_bf p) (p_pf p)))).
  assert (El : combine (pauli_target_list p) (pauli_id_list p) = l).
  { with_strategy transparent [pauli_target_list] unfold pauli_target_list. unfold pauli_id_list.
    rewrite mask_to_vector_bits by assumption. rewrite pauli_id_loop_bits.
    - apply combine_map_r.
    - assumption.
    - now apply bits_length_64.
    - intros q Hq. rewrite in_bits in Hq. exact Hq. }
  unfold pauli_to_text. rewrite El.
  assert (Hlt : forall q, In q (bits (N.lor (p_bf p) (p_pf p))) -> q < 64).
  { intros q Hq. apply in_bits in Hq. destruct (N.lt_ge_cases q 64) as [|H]; [assumption|]. rewrite lt_two64_tb in Hq by assumption. discriminate. }
  assert (Hids : Forall (fun qi => 1 <= snd qi /\ snd qi < 4) l).
  { apply Forall_forall. intros qi Hqi. apply in_map_iff in Hqi as (q & <- & Hq). cbn [snd]. apply in_bits in Hq.
    unfold at_qubit, pauli_id_of. rewrite N.lor_spec in Hq. destruct (N.testbit (p_bf p) q), (N.testbit (p_pf p) q); try discriminate; lia. }
  destruct (join_spells l) as [Hs _].
  { apply Forall_forall. intros qi Hqi. apply in_map_iff in Hqi as (q & <- & Hq). cbn [fst]. apply Hlt in Hq. eapply N.lt_trans; [exact Hq|reflexivity]. }
  assert (Hm : map fst l = bits (N.lor (p_bf p) (p_pf p))) by (unfold l; rewrite map_map; cbn [fst]; apply map_id).
  destruct (text_accepts _ _ (p_coef p) Hs) as (p' & E & Hc & H1 & H2 & Hat).
  { unfold legal. rewrite factors_items by assumption. split; [|split].
    - apply Forall_forall. intros it Hit. apply in_map_iff in Hit as (qi & <- & Hqi). rewrite Forall_forall in Hids. cbn [item_of fst].
      rewrite letter_of_id by now apply Hids. discriminate.
    - apply Forall_forall. intros qi Hqi. apply in_map_iff in Hqi as (q & <- & Hq). now apply Hlt.
    - rewrite Hm. apply incr_NoDup, bits_incr. }
  rewrite E. f_equal. apply pauli_ext; [split; assumption|split; assumption|assumption|]. rewrite factors_items in Hat by assumption.
  intros k. unfold at_qubit at 1. apply Hat. destruct (N.testbit (N.lor (p_bf p) (p_pf p)) k) eqn:Ek.
  - left. apply in_map_iff. exists k. split; [reflexivity|]. now apply in_bits.
  - right. rewrite Hm. split; [now apply at_qubit_0|]. rewrite in_bits, Ek. discriminate.
Qed.

(** ** The list constructors *)
Lemma add_paulis_items l : Forall (fun f => snd f < 4) l -> forall p, add_paulis p l = add_items p (map item_of l).
Proof.
  induction 1 as [|[q id] l H Hl IH]; intros p; [reflexivity|]. cbn [add_paulis map item_of add_items fst snd] in *.
  rewrite letter_of_id by assumption. destruct (id =? 0); [apply IH|]. destruct (add_single_pauli p q id); cbn [bindR]; [apply IH|reflexivity|reflexivity].
Qed.
Lemma add_paulis_no_ub l : forall p, add_paulis p l <> UB.
Proof.
  induction l as [|[q id] l IH]; intros p; cbn [add_paulis]; [discriminate|]. destruct (id =? 0); [apply IH|].
  pose proof (add_single_no_ub p q id). destruct (add_single_pauli p q id); cbn [bindR]; [apply IH|discriminate|contradiction].
Qed.
Lemma add_paulis_big l : forall p p', add_paulis p l = Ok p' -> Forall (fun f => snd f < 4) l.
Proof.
  induction l as [|[q id] l IH]; intros p p' E; [constructor|]. cbn [add_paulis] in E. destruct (N.eqb_spec id 0) as [-> |Hnz].
  - constructor; [reflexivity|eauto].
  - destruct (N.lt_ge_cases id 4) as [H|H]; [|rewrite add_single_throw in E by auto; discriminate].
    destruct (add_single_pauli p q id); [|discriminate|discriminate]. constructor; [assumption|]. eapply IH. exact E.
Qed.
Lemma factors_nontrivial l : Forall (fun f => snd f < 4) l -> factors (map item_of l) = nontrivial l.
Proof.
  induction 1 as [|[q id] l H Hl IH]; [reflexivity|]. unfold factors, nontrivial in *. cbn [map flat_map filter item_of fst snd] in *.
  rewrite letter_of_id by assumption. destruct id as [|[]]; cbn; rewrite IH; reflexivity.
Qed.
Lemma legal_items l : Forall (fun f => snd f < 4) l -> (legal (map item_of l) <-> legal_factors l).
Proof.
  intros H. unfold legal, legal_factors. rewrite factors_nontrivial by assumption. split; [tauto|]. intros (_ & H2 & H3). split; [|auto].
  apply Forall_forall. intros it Hit. apply in_map_iff in Hit as (f & <- & Hf). rewrite Forall_forall in H. cbn [item_of fst].
  rewrite letter_of_id by now apply H. discriminate.
Qed.
Lemma lists_accepts ts ids coef : List.length ts = List.length ids -> legal_factors (combine ts ids) ->
  exists p, pauli_from_lists ts ids coef = Ok p /\ p_coef p = coef /\ product_of (nontrivial (combine ts ids)) p.
Proof.
  intros Hl Hf. unfold pauli_from_lists. rewrite (proj2 (Nat.eqb_eq _ _) Hl). destruct Hf as (H4 & Hf).
  rewrite add_paulis_items by assumption. assert (Hleg : legal (map item_of (combine ts ids))) by (apply legal_items; [assumption|split; assumption]).
  destruct (add_items_ok _ (Pauli coef 0 0) (zero_u64 coef) Hleg) as (p & E & [H1 H2] & Hc & Hin & Hout).
  { intros. apply at_qubit_one. }
  rewrite factors_nontrivial in * by assumption.
  exists p. split; [assumption|]. split; [assumption|]. split; [assumption|]. split; [assumption|].
  intros q id [H|[-> H]]; [now apply Hin|]. fold (at_qubit p q). rewrite Hout by assumption. apply at_qubit_one.
Qed.
Lemma lists_rejects ts ids coef : ~ (List.length ts = List.length ids /\ legal_factors (combine ts ids)) -> pauli_from_lists ts ids coef = Throw.
Proof.
  intros H. unfold pauli_from_lists. destruct (Nat.eqb_spec (List.length ts) (List.length ids)) as [El|]; [|reflexivity].
  pose proof (add_paulis_no_ub (combine ts ids) (Pauli coef 0 0)).
  destruct (add_paulis _ _) as [p| |] eqn:E; [|reflexivity|contradiction]. exfalso. apply H. split; [assumption|].
  pose proof (add_paulis_big _ _ _ E) as H4. rewrite add_paulis_items in E by assumption.
  apply legal_items; [assumption|]. apply (add_items_inv _ _ _ (zero_u64 coef) E).
Qed.

(** ** I is not looked at *)
Lemma text_identity_unchecked : exists items coef p, spells (to_text "I 100 X 0 I 0") items /\ pauli_from_text (to_text "I 100 X 0 I 0") coef = Ok p /\
  In 100 (map snd items) /\ ~ NoDup (map snd items).
Proof.
  pose (p0 := Pauli C1 1 0). exists [("I", 100); ("X", 0); ("I", 0)]%char, C1, p0. split; [|split; [vm_compute; reflexivity|]].
  - change (to_text "I 100 X 0 I 0") with (join_items [(100, 0); (0, 1); (0, 0)]). apply (join_spells [(100, 0); (0, 1); (0, 0)]).
    repeat constructor.
  - split; [now left|]. cbn. intros H. inversion H as [|? ? _ H']; subst. inversion H' as [|? ? H1 _]; subst. apply H1. now left.
Qed.
Lemma text_negative_wraps : exists p, pauli_from_text (to_text "X -18446744073709551615") C1 = Ok p /\ product_of [(1, 1)] p.
Proof.
  exists (Pauli C1 2 0). split; [vm_compute; reflexivity|]. split; [reflexivity|]. split; [reflexivity|].
  intros q id [[H|[]]|[-> H]]; [inversion H; subst; reflexivity|]. unfold pauli_id_of. cbn [p_bf p_pf]. rewrite N.bits_0.
  change 2 with (2 ^ 1). rewrite N.pow2_bits_false; [reflexivity|]. intros <-. apply H. now left.
Qed.
