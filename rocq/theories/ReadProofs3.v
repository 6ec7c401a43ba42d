(** Reading OpenQASM text is defined. *)
From Verif Require Export QasmProofs9.
From Coq Require Import Lia ZifyBool ZifyN ZifyNat.
Open Scope N_scope.

(** the two orders give the same, or one is undefined where the other throws *)
Definition agree {A} (a b : res A) : Prop := a = b \/ (a = UB /\ b = Throw).
Lemma agree_refl {A} (a : res A) : agree a a. Proof. now left. Qed.
Lemma agree_bind {A B} (a b : res A) (k l : A -> res B) : agree a b -> (forall v, b = Ok v -> agree (k v) (l v)) -> agree (v <- a ;; k v) (v <- b ;; l v).
Proof. intros [->|[-> ->]] H; [|now right]. destruct b; cbn [bindR]; [now apply H|now left|now left]. Qed.
Lemma qbind_total {A B} (x : res A) (k : A -> res B) : x <> UB -> (forall v, x = Ok v -> k v <> UB) -> (v <- x ;; k v) <> UB.
Proof. intros Hx Hk. destruct x; cbn [bindR]; [now apply Hk|discriminate|congruence]. Qed.
Lemma mask_args_agree t cs vs : t <> UB -> length vs = length cs -> agree (mask_args true t cs vs) (mask_args false t cs vs).
Proof.
  intros Ht Hl. unfold mask_args, agree.
  destruct (forallb (fun q => q <? 64) cs) eqn:E.
  - assert (HF : Forall (fun q => q < 64) cs) by (apply Forall_forall; rewrite forallb_forall in E; intros q Hq; specialize (E q Hq); lia).
    pose proof (values_total cs vs Hl HF). pose proof (mask_total cs).
    left. destruct (vector_to_mask_values cs vs), (vector_to_mask cs), t; cbn [bindR]; try reflexivity; congruence.
  - assert (vector_to_mask cs = Throw) as ->.
    { destruct (vector_to_mask_cases cs) as [[m Hm]|H]; [|exact H]. apply vector_to_mask_ok in Hm. destruct Hm as [HF _]. exfalso.
      apply not_true_iff_false in E. apply E. apply forallb_forall. rewrite Forall_forall in HF. intros q Hq. specialize (HF q Hq). lia. }
    destruct (vector_to_mask_values cs vs), t; cbn [bindR]; try congruence; tauto.
Qed.
Lemma create_agree t cs vs k : t <> UB -> length vs = length cs -> agree (create true t cs vs k) (create false t cs vs k).
Proof. intros Ht Hl. unfold create. apply agree_bind; [now apply mask_args_agree|]. intros; apply agree_refl. Qed.
Lemma resized_agree t cs vs0 k : t <> UB ->
  agree (vs <- resize_and_check_control_values cs vs0 ;; create true t cs vs k) (vs <- resize_and_check_control_values cs vs0 ;; create false t cs vs k).
Proof. intros Ht. destruct (resize_cases cs vs0) as [(vs & -> & Hl & _)|[-> _]]; cbn [bindR]; [now apply create_agree|now left]. Qed.
(** the calls that statements make *)
Definition plain_call (k : call) : Prop :=
  match k with Call1 _ _ _ _ | CallCX _ _ | CallCZ _ _ | CallCCX _ _ _ | CallSwap _ _ _ _ => True | _ => False end.
Lemma plain_agree k : plain_call k -> agree (make true k) (make false k).
Proof.
  destruct k; cbn [plain_call]; try contradiction; intros _; cbn [make];
    first [apply resized_agree; apply mask_total | apply create_agree; [apply mask_total|reflexivity]].
Qed.
Lemma plain_total vf k : plain_call k -> order_ok vf (call_control_list k) -> make vf k <> UB.
Proof. intros Hp Ho. apply make_total; [| | |exact Ho]; destruct k; cbn in *; try contradiction; auto. Qed.
Lemma gate_call_plain name ps qs k : gate_call name ps qs = Ok (Some k) -> plain_call k /\ incl (call_control_list k) qs.
Proof.
  intros H. apply gate_call_sound in H. remember (Some k) as o eqn:Eo. destruct H; inversion Eo; subst; (split; [exact I|]); intros x Hx; cbn in *; tauto.
Qed.
Lemma gate_call_total name ps qs : gate_call name ps qs <> UB.
Proof.
  destruct ps as [|u [|v [|w [|x ps]]]]; destruct qs as [|a [|b [|c [|d qs]]]]; cbn [gate_call]; try discriminate;
    repeat (match goal with |- context [if ?b then _ else _] => destruct b end; try discriminate).
Qed.

(** ** Readers *)
Lemma add_gate_agree name ps qs r : agree (reader_add_gate true name ps qs r) (reader_add_gate false name ps qs r).
Proof.
  unfold reader_add_gate. apply agree_bind; [apply agree_refl|]. intros [k|] Hk; [|apply agree_refl]. apply gate_call_plain in Hk. destruct Hk as [Hk _].
  apply agree_bind; [now apply plain_agree|]. intros; apply agree_refl.
Qed.
Lemma add_gate_total vf name ps qs r : order_ok vf qs -> reader_add_gate vf name ps qs r <> UB.
Proof.
  intros Ho. unfold reader_add_gate. apply qbind_total; [apply gate_call_total|]. intros [k|] Hk; [|discriminate]. apply gate_call_plain in Hk. destruct Hk as [Hk Hi].
  apply qbind_total; [|discriminate]. apply plain_total; [exact Hk|]. destruct Ho as [Ho|Ho]; [now left|right]. rewrite Forall_forall in *. intros q Hq. apply Ho, Hi, Hq.
Qed.
Lemma parse_expr_total s : parse_expr s <> UB.
Proof.
  unfold parse_expr. destruct (fuel_enough (length s)) as (_ & _ & _ & _ & _ & E). specialize (E (6 * length s + 6)%nat s ltac:(lia) ltac:(lia)).
  apply qbind_total; [exact E|]. intros [v r] _. cbn [fst snd]. destruct (skip_spaces r); discriminate.
Qed.
Lemma comma_total s : forall b d ps, comma_loop s b d ps <> UB.
Proof.
  induction s as [|c s IH]; intros b d ps; cbn [comma_loop].
  - destruct (d =? 0)%Z; discriminate.
  - destruct (_ <? 0)%Z; [discriminate|]. destruct (_ && _); apply IH.
Qed.
Lemma split_comma_total s : split_comma_list s <> UB.
Proof. apply qbind_total; [apply comma_total|]. intros [p b] _. discriminate. Qed.
Lemma indexed_total o rs : parse_indexed_register o rs <> UB.
Proof. unfold parse_indexed_register. destruct (bracketed _) as [[n i]|]; [|discriminate]. destruct (find_register n rs); [|discriminate]. destruct (parse_u64 i); [|discriminate]. destruct (_ <=? _); discriminate. Qed.
Lemma operand_total o rs : parse_measure_register_operand o rs <> UB.
Proof.
  unfold parse_measure_register_operand. cbv zeta. repeat match goal with |- context [find_char ?c ?s] => destruct (find_char c s) end; try (apply qbind_total; [apply indexed_total|discriminate]).
  destruct (find_register _ _); discriminate.
Qed.
Lemma mapR_total {A B} (f : A -> res B) l : (forall x, f x <> UB) -> Circuit.mapR f l <> UB.
Proof. intros H. induction l as [|x l IH]; [discriminate|]. cbn [Circuit.mapR]. apply qbind_total; [apply H|]. intros y _. apply qbind_total; [exact IH|discriminate]. Qed.
Lemma decl_total s k : parse_register_decl s k <> UB.
Proof. unfold parse_register_decl. destruct (bracketed _) as [[n i]|]; [|discriminate]. destruct (parse_u64 i); [|discriminate]. destruct (_ =? _); discriminate. Qed.
Lemma name_total s k : parse_register_name s k <> UB.
Proof. unfold parse_register_name. destruct (find_char _ _); discriminate. Qed.
Lemma measurement_total q c b : make_measurement q c b <> UB.
Proof. apply qbind_total; [apply mask_total|]. intros t _. apply qbind_total; [apply make_base_total|discriminate]. Qed.
Lemma add_measurements_total k : forall i q c r, add_measurements k i q c r <> UB.
Proof. induction k as [|k IH]; intros i q c r; cbn [add_measurements]; [discriminate|]. apply qbind_total; [apply measurement_total|]. intros g _. apply IH. Qed.
Lemma parse_measure_total s r : parse_measure s r <> UB.
Proof.
  unfold parse_measure. destruct (find_text _ _); [|discriminate]. apply qbind_total; [apply operand_total|]. intros a _. apply qbind_total; [apply operand_total|]. intros b _.
  destruct (_ =? _); [apply add_measurements_total|discriminate].
Qed.
Definition in_reach (rs : registers) : Prop := forall o q, parse_indexed_register o rs = Ok q -> q < 64.
Lemma parse_gate_total vf s r : vf = false \/ in_reach (rd_qregs r) -> parse_gate vf s r <> UB.
Proof.
  intros Hr. unfold parse_gate. cbv zeta. set (r1 := if rd_saw_version r then r else _).
  assert (Er : rd_qregs r1 = rd_qregs r) by (unfold r1; destruct (rd_saw_version r); reflexivity). clearbody r1.
  destruct (take_while is_word s) as [|c nm]; [discriminate|].
  apply qbind_total.
  - destruct (trim (drop_while is_word s)) as [|c0 rest]; [discriminate|]. destruct (Ascii.eqb c0 "("); [|discriminate]. destruct (close_paren _ _ _); [|discriminate].
    apply qbind_total; [apply split_comma_total|]. intros ps _. apply qbind_total; [apply mapR_total, parse_expr_total|]. discriminate.
  - intros [ps rest] _. apply qbind_total; [apply split_comma_total|]. intros ops _. apply qbind_total; [apply mapR_total; intros; apply indexed_total|].
    intros qs Hqs. destruct (has_repeats qs); [discriminate|]. apply add_gate_total. destruct Hr as [Hr|Hr]; [now left|right].
    rewrite Er in Hqs. apply mapR_ok in Hqs. clear -Hqs Hr. induction Hqs as [|o q ops qs Hq _ IH]; constructor; [eapply Hr; eassumption|exact IH].
Qed.
Lemma parse_gate_agree s r : agree (parse_gate true s r) (parse_gate false s r).
Proof.
  unfold parse_gate. cbv zeta. destruct (take_while is_word s) as [|c nm]; [apply agree_refl|].
  apply agree_bind; [apply agree_refl|]. intros [ps rest] _. apply agree_bind; [apply agree_refl|]. intros ops _. apply agree_bind; [apply agree_refl|]. intros qs _.
  destruct (has_repeats qs); [apply agree_refl|apply add_gate_agree].
Qed.
Ltac handle_cases := repeat match goal with |- context [if ?b then _ else _] => destruct b end.
Lemma handle_total vf st r : vf = false \/ in_reach (rd_qregs r) -> handle_statement vf st r <> UB.
Proof.
  intros Hr. unfold handle_statement. cbv zeta. handle_cases; try discriminate; try (apply parse_gate_total; exact Hr); try apply parse_measure_total.
  all: (apply qbind_total; [apply name_total|]); intros name _; destruct (find_register _ _); [discriminate|]; (apply qbind_total; [apply decl_total|]); discriminate.
Qed.
Lemma handle_agree st r : agree (handle_statement true st r) (handle_statement false st r).
Proof.
  unfold handle_statement. cbv zeta. handle_cases; try apply agree_refl. apply parse_gate_agree.
Qed.
Lemma split_total s : split_statements s <> UB.
Proof. unfold split_statements. cbv zeta. handle_cases; try discriminate. Qed.
Lemma all_total sts : forall r, handle_statements false sts r <> UB.
Proof. induction sts as [|st sts IH]; intros r; cbn [handle_statements]; [discriminate|]. apply qbind_total; [apply handle_total; now left|]. intros; apply IH. Qed.
Lemma all_agree sts : forall r, agree (handle_statements true sts r) (handle_statements false sts r).
Proof. induction sts as [|st sts IH]; intros r; cbn [handle_statements]; [apply agree_refl|]. apply agree_bind; [apply handle_agree|]. intros; apply IH. Qed.
Theorem loads_total source : loads false source <> UB.
Proof. apply qbind_total; [apply split_total|]. intros; apply all_total. Qed.
Theorem loads_agree source : agree (loads true source) (loads false source).
Proof. apply agree_bind; [apply agree_refl|]. intros; apply all_agree. Qed.

(** ** Only far qubits *)
Lemma find_range name ds : forall off r, find_register name (regs_from off ds) = Some r -> r_offset r + r_size r <= off + total ds.
Proof.
  induction ds as [|[n s] ds IH]; intros off r; [discriminate|]. cbn [regs_from find_register]. destruct (text_eqb n name).
  - intros [= <-]. cbn. lia.
  - intros H. apply IH in H. cbn. fold (total ds). lia.
Qed.
Lemma few_reach n rs : (sizes_total rs < 2 ^ 64 -> contiguous n rs) -> sizes_total rs <= 64 -> in_reach rs.
Proof.
  intros C Ht o q H. destruct C as (ds & -> & ->); [lia|]. rewrite sizes_total_from in Ht. unfold parse_indexed_register in H.
  destruct (bracketed _) as [[nm i]|]; [|discriminate]. destruct (find_register nm _) as [r|] eqn:Ef; [|discriminate]. destruct (parse_u64 i) as [k|]; [|discriminate].
  destruct (N.leb_spec (r_size r) k); [discriminate|]. injection H as <-. apply find_range in Ef. rewrite N.mod_small by lia. lia.
Qed.
Lemma all_far sts : forall r, rd_ok r -> handle_statements true sts r = UB ->
  exists before st after r', sts = before ++ st :: after /\ handle_statements true before r = Ok r' /\ 64 < sizes_total (rd_qregs r').
Proof.
  induction sts as [|st sts IH]; intros r Hr H; cbn [handle_statements] in H; [discriminate|].
  destruct (handle_statement true st r) as [r1| |] eqn:E; cbn [bindR] in H; [|discriminate|].
  - destruct (IH r1) as (before & st' & after & r' & -> & Hb & Hs); [eapply handle_ok; eassumption|exact H|].
    exists (st :: before), st', after, r'. split; [reflexivity|]. split; [|exact Hs]. cbn [handle_statements]. now rewrite E.
  - exists [], st, sts, r. split; [reflexivity|]. split; [reflexivity|]. apply N.nle_gt. intros Hs. revert E. apply handle_total. right.
    destruct Hr as [C _]. eapply few_reach; eassumption.
Qed.
Theorem loads_far source : loads true source = UB -> exists before st after r, split_statements source = Ok (before ++ st :: after) /\
  handle_statements true before rd_new = Ok r /\ 64 < sizes_total (rd_qregs r).
Proof.
  unfold loads. intros H. destruct (split_statements source) as [sts| |] eqn:E; cbn [bindR] in H; [|discriminate|].
  - destruct (all_far sts rd_new rd_new_ok H) as (before & st & after & r & -> & Hb & Hs). eauto 8.
  - exfalso. exact (split_total _ E).
Qed.
