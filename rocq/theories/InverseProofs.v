(** C20: inverses of inverses. *)
From Verif Require Export CircuitProofs10 GatesProofs8 InverseSpec.
From Coq Require Import ZifyBool ZifyN ZifyNat Permutation Lra FunctionalExtensionality.
Open Scope N_scope.

Lemma std1_inverse_again k k' : std1_inverse k = Ok k' -> exists k'', std1_inverse k' = Ok k''.
Proof. destruct k; cbn; intros H; try discriminate; injection H as <-; eexists; reflexivity. Qed.
Lemma make_base_again t c cv : N.land t c = 0 -> make_base t c cv = Ok (GBase t c cv).
Proof. intros H. now apply make_base_ok. Qed.
Lemma sorted_sortN l : is_sorted (sortN l) = true.
Proof.
  assert (I : forall x l, is_sorted l = true -> is_sorted (insert_sorted x l) = true).
  { intros x. induction l0 as [|y r IH]; [reflexivity|]. intros H. cbn [insert_sorted]. destruct (N.leb_spec x y).
    - cbn [is_sorted]. replace (x <=? y) with true by lia. exact H.
    - destruct r as [|z r].
      + cbn. replace (y <=? x) with true by lia. reflexivity.
      + cbn [is_sorted] in H. apply andb_true_iff in H. destruct H as [H1 H2]. specialize (IH H2). cbn [insert_sorted] in *.
        destruct (x <=? z) eqn:E; cbn [is_sorted] in *; [replace (y <=? x) with true by lia|rewrite H1]; exact IH. }
  unfold sortN. induction l as [|x l IH]; [reflexivity|]. cbn [fold_right]. now apply I.
Qed.
Lemma mask_sortN l m : vector_to_mask l = Ok m -> vector_to_mask (sortN l) = Ok m.
Proof.
  rewrite !vector_to_mask_ok. intros (HF & HD & HT). split; [|split].
  - rewrite Forall_forall in *. intros x Hx. apply HF. now apply sortN_in.
  - apply incr_NoDup. now apply sortN_incr.
  - intros i. now rewrite sortN_in.
Qed.
Lemma unitary_adj d M : unitary d M -> unitary d (mat_adj M).
Proof.
  assert (E : mat_adj (mat_adj M) = M) by (extensionality i; extensionality j; unfold mat_adj; c_eq; cbn; ring).
  intros [H1 H2]. split; rewrite E; assumption.
Qed.

(** get_inverse() of a factory gate is what some factory would make *)
Lemma inverse_is_factory vf k g g' : call_typed k -> make vf k = Ok g -> call_invertible k -> get_inverse g = Ok g' ->
  exists k', call_typed k' /\ make vf k' = Ok g' /\ call_invertible k' /\ has_inverse k' = true.
Proof.
  intros Hty H Hi Hg. destruct k as [|ph cs vs|kk t cs vs|c t|c t|c1 c2 t|t1 t2 cs vs|pc pt cs vs|dst|p cs vs|p a cs vs|ts M cs vs u|ts Sp cs vs]; pose proof H as Hm; cbn [make] in H.
  - injection H as <-. injection Hg as <-. exists CallI. auto.
  - inv_bind H. destruct (create_ok _ _ _ _ _ _ H) as (t' & c & cv & Et & Ec & Ecv & Hl & ->). cbn [get_inverse g_t g_c g_cv] in Hg.
    rewrite make_base_again in Hg by exact Hl. injection Hg as <-. exists (CallGlobalPhase (- ph) cs vs). repeat (split; [exact I|]). split; [|split; [exact I|reflexivity]].
    cbn [make]. rewrite E. cbn [bindR]. rewrite Et. now rewrite (create_eval vf t' cs v c cv).
  - inv_bind H. destruct (create_ok _ _ _ _ _ _ H) as (t' & c & cv & Et & Ec & Ecv & Hl & ->). cbn [get_inverse g_t g_c g_cv] in Hg. inv_bind Hg.
    rewrite make_base_again in Hg by exact Hl. injection Hg as <-. exists (Call1 v0 t cs vs). split; [exact I|]. split; [|split; [exact I|]].
    + cbn [make]. rewrite E. cbn [bindR]. rewrite Et. now rewrite (create_eval vf t' cs v c cv).
    + cbn [has_inverse]. destruct (std1_inverse_again _ _ E0) as (k2 & E2). destruct v0; try reflexivity; discriminate.
  - destruct (create_ok _ _ _ _ _ _ H) as (t' & c' & cv & Et & Ec & Ecv & Hl & ->). cbn [get_inverse g_t g_c g_cv std1_inverse bindR] in Hg.
    rewrite make_base_again in Hg by exact Hl. injection Hg as <-. exists (CallCX c t). auto.
  - destruct (create_ok _ _ _ _ _ _ H) as (t' & c' & cv & Et & Ec & Ecv & Hl & ->). cbn [get_inverse g_t g_c g_cv std1_inverse bindR] in Hg.
    rewrite make_base_again in Hg by exact Hl. injection Hg as <-. exists (CallCZ c t). auto.
  - destruct (create_ok _ _ _ _ _ _ H) as (t' & c' & cv & Et & Ec & Ecv & Hl & ->). cbn [get_inverse g_t g_c g_cv std1_inverse bindR] in Hg.
    rewrite make_base_again in Hg by exact Hl. injection Hg as <-. exists (CallCCX c1 c2 t). auto.
  - inv_bind H. destruct (create_ok _ _ _ _ _ _ H) as (t' & c & cv & Et & Ec & Ecv & Hl & ->). injection Hg as <-. exists (CallSwap t1 t2 cs vs). auto.
  - inv_bind H. inv_bind H. destruct v0 as [[t c] cv]. inv_bind H. inv_bind H. inv_bind H. injection H as <-. injection Hg as <-. exists (CallEcr pc pt cs vs). auto.
  - destruct (N.leb_spec 64 (N.of_nat (length dst))) as [|Hlen]; [discriminate|]. inv_bind H.
    destruct (negb (v =? _)) eqn:E1; [discriminate|]. pose proof H as H'. unfold make_permutation_impl in H. rewrite E in H. cbn [bindR] in H.
    replace (64 <=? N.of_nat (length dst)) with false in H by lia.
    destruct (negb (v =? sub64 _ _)) eqn:E2; [discriminate|]. apply negb_false_iff, N.eqb_eq in E2.
    rewrite bound_value in E2 by assumption. inv_bind H. injection H as <-. clear E1.
    apply vector_to_mask_ok in E. destruct E as (HF & HD & HT).
    assert (HP : is_perm dst).
    { split; [assumption|]. apply Forall_forall. intros q Hq. apply HT in Hq. rewrite E2 in Hq. apply in_bits in Hq. rewrite bits_ones in Hq. now apply in_seqN in Hq. }
    cbn [get_inverse] in Hg. exists (CallPermutation (perm_inverse dst)). split; [exact I|]. split; [|split; [exact I|reflexivity]].
    assert (HP' : is_perm (perm_inverse dst)) by (apply perm_inverse_perm; [exact HP|lia]). cbn [make]. rewrite perm_inverse_length.
    replace (64 <=? N.of_nat (length dst)) with false by lia. pose proof Hg as Hg'. unfold make_permutation_impl in Hg'.
    destruct (vector_to_mask (perm_inverse dst)) as [m| |]; [|discriminate|discriminate]. cbn [bindR] in *. rewrite perm_inverse_length in Hg'.
    replace (64 <=? N.of_nat (length dst)) with false in Hg' by lia. rewrite bound_value in * by lia.
    destruct (m =? 2 ^ N.of_nat (length dst) - 1) eqn:Et; cbn [negb] in Hg'; [|discriminate]. apply N.eqb_eq in Et.
    destruct (N.eqb_spec (N.of_nat (length dst)) 0) as [E|E].
    + replace (m =? 0) with true by (rewrite Et, E; reflexivity). exact Hg.
    + rewrite Et, N.eqb_refl. exact Hg.
  - inv_bind H. inv_bind H. destruct v0 as [[t c] cv]. inv_bind H. injection H as <-. injection Hg as <-. exists (CallPauli p cs vs). auto.
  - inv_bind H. inv_bind H. destruct v0 as [[t c] cv]. inv_bind H. injection H as <-. cbn [get_inverse] in Hg.
    assert (Hb : g_c v0 = c /\ g_cv v0 = cv) by (unfold make_pauli_base in E1; inv_bind E1; apply make_base_ok in E1; destruct E1 as [_ ->]; auto).
    destruct Hb as [Hb1 Hb2]. rewrite Hb1, Hb2, E1 in Hg. injection Hg as <-. exists (CallPauliRotation p (- a) cs vs). split; [exact Hty|]. split; [|split; [exact I|reflexivity]].
    cbn [make]. rewrite E. cbn [bindR]. rewrite E0. cbn [bindR]. rewrite E1. reflexivity.
  - pose proof (make_inverse_ok vf _ g Hm Hi) as Hio. inv_bind H. destruct (64 <=? _) eqn:E64; [discriminate|]. rewrite shl64_one in H by lia.
    destruct (m_rows M =? _) eqn:E1; [|discriminate]. destruct (m_cols M =? _) eqn:E2; [|discriminate]. cbn [negb orb] in H.
    apply N.eqb_eq in E1, E2. destruct (create_ok _ _ _ _ _ _ H) as (t & c & cv & Et & Ec & Ecv & Hl & ->).
    destruct u; [|discriminate]. cbn [get_inverse g_t g_c g_cv inverse_ok] in Hg, Hio. rewrite make_base_again in Hg by exact Hl. injection Hg as <-.
    set (M' := if is_sorted ts then M else transform_dense_matrix_by_order M ts) in *.
    assert (R1 : m_rows M' = 2 ^ N.of_nat (length ts) /\ m_cols M' = 2 ^ N.of_nat (length ts)).
    { unfold M'. destruct (is_sorted ts); [auto|]. cbn. auto. }
    destruct R1 as [R1 R2]. rewrite R1 in Hio.
    exists (CallDense (sortN ts) (DMat (m_cols M') (m_rows M') (mat_adj (m_at M'))) cs vs true). split; [exact I|]. split; [|split; [|reflexivity]].
    + cbn [make]. rewrite E. cbn [bindR]. rewrite sortN_length, E64, sorted_sortN. rewrite shl64_one by lia. cbn [m_rows m_cols]. rewrite R1, R2, N.eqb_refl. cbn [negb orb].
      rewrite (mask_sortN ts t Et). rewrite (create_eval vf t cs v c cv) by assumption. reflexivity.
    + cbn [call_invertible m_at]. rewrite sortN_length. now apply unitary_adj.
  - inv_bind H. destruct (is_sorted _); [|destruct (_ || _); [discriminate|]];
      apply create_ok in H; destruct H as (? & ? & ? & _ & _ & _ & _ & ->); discriminate.
Qed.

(** * Types are not looked at when a circuit runs or is inverted *)

Definition show_p (g : pgate) : pgate :=
  match g with PRot _ k b c => PRot true k b c | PPauliRotation _ b p c => PPauliRotation true b p c | g => g end.
Definition show (i : citem) : citem := match i with IParam g key => IParam (show_p g) key | i => i end.
Definition show_c (c : circuit) : circuit := Circuit (map show (c_gates c)) (c_conds c).

Lemma show_mask i : item_mask (show i) = item_mask i.
Proof. destruct i as [|[]]; reflexivity. Qed.
Lemma show_inverse i : item_inverse (show i) = item_inverse i.
Proof. destruct i as [|[]]; reflexivity. Qed.
Lemma show_required c : required_n_qubits (show_c c) = required_n_qubits c.
Proof.
  unfold required_n_qubits. f_equal. cbn [show_c c_gates]. generalize 0 as m. induction (c_gates c) as [|i l IH]; intros m; [reflexivity|]. cbn [map fold_left]. rewrite show_mask. apply IH.
Qed.
Lemma show_keys c : keys (show_c c) = keys c.
Proof. unfold keys. cbn [show_c c_gates]. induction (c_gates c) as [|i l IH]; [reflexivity|]. cbn [map flat_map]. rewrite IH. now destruct i. Qed.
Lemma show_mapR l : mapR item_inverse (map show l) = mapR item_inverse l.
Proof. induction l as [|i l IH]; [reflexivity|]. cbn [map Circuit.mapR]. now rewrite show_inverse, IH. Qed.
Lemma show_circuit_inverse c : circuit_inverse (show_c c) = circuit_inverse c.
Proof. unfold circuit_inverse. cbn [show_c c_gates c_conds]. now rewrite <- map_rev, show_mapR. Qed.
Lemma show_item_update n L ps i : item_update n L ps (show i) = item_update n L ps i.
Proof. destruct i as [|[]]; reflexivity. Qed.
Lemma show_marks i m : mark_measured (show i) m = mark_measured i m.
Proof. now destruct i. Qed.
Lemma show_guarded n L ps i m : guarded_update n L ps (show i) m = guarded_update n L ps i m.
Proof. unfold guarded_update. now rewrite show_mask, show_item_update, show_marks. Qed.
Lemma show_run n L ps l : forall fs m, run_items n L ps (map show l) fs m = run_items n L ps l fs m.
Proof.
  induction l as [|i l IH]; intros fs m; [reflexivity|]. cbn [map run_items]. destruct fs as [|f fs]; [reflexivity|].
  f_equal. apply functional_extensionality. intros [|]; [|apply IH]. rewrite show_guarded. f_equal. apply functional_extensionality. intros m'. apply IH.
Qed.
Lemma show_update n L ps c : circuit_update n L ps (show_c c) = circuit_update n L ps c.
Proof. unfold circuit_update. rewrite show_required, show_keys. cbn [show_c c_gates c_conds]. now rewrite show_run. Qed.

(** * Inverses of factory gates are factory gates again, up to their type *)

Lemma shown_inverse i i' : factory_made (show i) -> item_inverse i = Ok i' -> factory_made (show i').
Proof.
  rewrite <- show_inverse. generalize (show i) as j. clear i. intros [[[v g]| |]|g key] H E; cbn [factory_made] in H; try contradiction.
  - destruct H as (vf & k & Hty & Hm & Hi & Hh). cbn [item_inverse c_inverse] in E. inv_bind E. inv_bind E0. injection E as <-. injection E0 as <-.
    destruct (inverse_is_factory vf k g _ Hty Hm Hi E1) as (k' & H'). cbn [show factory_made]. exists vf, k'. exact H'.
  - destruct H as (vf & k & Hty & Hm). destruct k as [kk t pc cs vs|p pc cs vs]; cbn [make_param] in Hm.
    + inv_bind Hm. inv_bind Hm. destruct v0 as [[t' c] cv]. inv_bind Hm. injection Hm as <-. injection E as <-. cbn [show show_p factory_made].
      exists vf, (PCallRot kk t (- pc) cs vs). split; [exact Hty|]. cbn [make_param]. rewrite E0. cbn [bindR]. rewrite E1. cbn [bindR]. rewrite E2. reflexivity.
    + inv_bind Hm. inv_bind Hm. destruct v0 as [[t' c] cv]. inv_bind Hm. injection Hm as <-. injection E as <-. cbn [show show_p factory_made].
      exists vf, (PCallPauliRotation p (- pc) cs vs). split; [exact Hty|]. cbn [make_param]. rewrite E0. cbn [bindR]. rewrite E1. cbn [bindR]. rewrite E2. reflexivity.
Qed.
Lemma factory_shown i : factory_made i -> factory_made (show i).
Proof.
  destruct i as [[[v g]| |]|g key]; intros H; try exact H. destruct H as (vf & k & Hty & Hm). cbn [show factory_made]. exists vf, k. split; [exact Hty|]. rewrite Hm. f_equal.
  destruct k; cbn [make_param] in Hm; inv_bind Hm; inv_bind Hm; destruct v0 as [[? ?] ?]; inv_bind Hm; now injection Hm as <-.
Qed.
Lemma undoable_shown i : undoable i -> factory_made (show i).
Proof. induction 1; [now apply factory_shown|]. eapply shown_inverse; eassumption. Qed.

Lemma put_together_shown c : put_together c -> Forall undoable (c_gates c) /\ length (c_conds c) = length (c_gates c).
Proof.
  assert (A : forall (l : list citem) i, Forall undoable l -> undoable i -> Forall undoable (l ++ [i])) by (intros; apply Forall_app; auto).
  induction 1 as [|c g Hc [IH Hl] Hu|c g key Hc [IH Hl] Hu|c g f Hc [IH Hl] Hu|c g key f Hc [IH Hl] Hu|c d Hc [IH Hl] Hd [IH' Hl']|c Hc [IH Hl]|c c' Hc [IH Hl] E]; cbn [c_new add_gate add_param_gate add_conditional_gate add_conditional_param_gate add_circuit circuit_copy c_gates c_conds]; unfold set_back; rewrite ?removelast_last.
  1: split; [constructor|reflexivity].
  1-4: split; [now apply A|now rewrite !app_length, Hl].
  - split; [apply Forall_app; auto|]. now rewrite !app_length, Hl, Hl'.
  - auto.
  - unfold circuit_inverse in E. inv_bind E. injection E as <-. cbn [c_gates c_conds]. rewrite rev_length, Hl, <- (rev_length (c_gates c)).
    assert (HF : Forall undoable (rev (c_gates c))) by (apply Forall_forall; intros i Hi; rewrite <- in_rev in Hi; rewrite Forall_forall in IH; auto).
    clear IH Hl Hc. revert v E0. induction HF as [|i l Hi HF IH]; intros v E; cbn [Circuit.mapR] in E; [injection E as <-; auto|].
    inv_bind E. inv_bind E. injection E as <-. destruct (IH _ E1) as [IH1 IH2]. split; [constructor; [eapply u_inverse; eassumption|exact IH1]|]. simpl. now f_equal.
Qed.

Theorem closed_inverse c : put_together c -> exists c', circuit_inverse c = Ok c' /\ put_together c' /\
  c_conds c' = rev (c_conds c) /\ length (c_gates c') = length (c_gates c) /\
  forall n L ps w, n < 64 -> lanes_ok L -> required_n_qubits c <= n -> (forall key, In key (keys c) -> ps key <> None) ->
  (forall f, In (Some f) (c_conds c) -> exists b, f (w_reg w) = Ok b) -> (forall k, unit_draw (w_rand w k)) ->
  runs (circuit_update n L ps c;~ circuit_update n L ps c') w (done (fun _ w' =>
    (forall x, x < 2 ^ n -> w_amp w' x = w_amp w x) /\ w_reg w' = w_reg w /\ forall i, w_rand w' i = w_rand w i)).
Proof.
  intros Hc. destruct (put_together_shown c Hc) as [HF Hl].
  assert (HS : Forall factory_made (c_gates (show_c c))).
  { cbn [show_c c_gates]. apply Forall_forall. intros i Hi. apply in_map_iff in Hi. destruct Hi as (j & <- & Hj). apply undoable_shown. rewrite Forall_forall in HF. auto. }
  assert (HL : length (c_conds (show_c c)) = length (c_gates (show_c c))) by (cbn [show_c c_conds c_gates]; now rewrite map_length).
  destruct (inverse_exists (show_c c) HS) as (c' & E & H1 & H2). pose proof E as E'. rewrite show_circuit_inverse in E'. exists c'. split; [exact E'|]. split; [eapply t_inverse; eassumption|].
  split; [exact H1|]. split; [rewrite H2; cbn [show_c c_gates]; now rewrite map_length|].
  intros n L ps w Hn HLn Hreq Hkeys Hconds Hu. rewrite <- (show_update n L ps c). apply (inverse_undoes n L ps (show_c c) c' w); try assumption; [now rewrite show_required|now rewrite show_keys].
Qed.

(** H(0), RX(1) by theta; the inverse of that, its inverse added to it, and S(0)^-1 if bit 0 is set *)
Definition ex_first : circuit := add_param_gate (add_gate c_new (CElem (true, ex_H))) ex_RX "theta".
Definition ex_second : circuit := Circuit [IParam (PRot false RotX (GBase 2 0 0) (- (1))) "theta"; IGate (CElem (false, ex_H))] [None; None].
Definition ex_third : circuit := Circuit [IGate (CElem (false, ex_H)); IParam (PRot false RotX (GBase 2 0 0) (- - (1))) "theta"] [None; None].
Definition ex_Sdag : cgate := CElem (false, EStd GSdag (GBase 1 0 0)).
Definition ex_all : circuit := add_conditional_gate (add_circuit ex_second ex_third) ex_Sdag (bit_cond 0 true).
Lemma ex_closed : put_together ex_all /\ length (c_gates ex_all) = 5%nat.
Proof.
  split; [|reflexivity].
  assert (H1 : put_together ex_first).
  { apply t_param; [apply t_gate; [constructor|]|]; apply u_factory; [exists true, (Call1 GH 0 [] [])|exists true, (PCallRot RotX 1 1 [] [])]; repeat split. }
  assert (H2 : put_together ex_second) by (eapply t_inverse; [exact H1|reflexivity]).
  apply t_cond_gate.
  - apply t_circuit; [exact H2|]. eapply t_inverse; [exact H2|reflexivity].
  - eapply u_inverse with (i := IGate (CElem (true, EStd GS (GBase 1 0 0)))); [|reflexivity]. apply u_factory. exists true, (Call1 GS 0 [] []). repeat split.
Qed.
