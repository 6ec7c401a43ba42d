(** Batched observables, and inputs on which the observables are wrong. *)
From Verif Require Import Prelude BitsProofs Cplx Spec Gates GateSpec PauliSpec PauliProofs GatesProofs GatesProofs2 Operator OperatorSpec OperatorHist OperatorProofs.
From Coq Require Import Permutation FunctionalExtensionality.
Local Open Scope N_scope.

Lemma pauli_expectation_batch_correct p n B flat trees : n <= 63 -> pauli_fits n p ->
  (forall b, b < B -> reduction_of (expect_iters p (2 ^ n)) (trees b)) ->
  pauli_expectation_batch p (2 ^ n) B flat trees = map (fun b => Some (inner n (row (2 ^ n) flat b) (pauli_act p (row (2 ^ n) flat b)))) (seqN B).
Proof. intros Hn Hf Ht. apply map_ext_in. intros b Hb. apply in_seqN in Hb. apply pauli_expectation_correct; auto. Qed.
Lemma op_expectation_batch_correct o n B flat trees : 0 < n -> n <= 63 -> op_fits n o ->
  (forall b, b < B -> reduction_of (op_iters o (2 ^ n)) (trees b)) ->
  op_expectation_batch o (2 ^ n) B flat trees = map (fun b => Some (inner n (row (2 ^ n) flat b) (op_act o (row (2 ^ n) flat b)))) (seqN B).
Proof. intros Hn0 Hn Hf Ht. apply map_ext_in. intros b Hb. apply in_seqN in Hb. apply op_expectation_correct; auto. Qed.
Lemma op_transition_batch_correct o n B bra ket trees : 0 < n -> n <= 63 -> op_fits n o ->
  (forall b, b < B -> reduction_of (op_iters o (2 ^ n)) (trees b)) ->
  op_transition_batch o (2 ^ n) B bra ket trees = map (fun b => Some (inner n (row (2 ^ n) bra b) (op_act o (row (2 ^ n) ket b)))) (seqN B).
Proof. intros Hn0 Hn Hf Ht. apply map_ext_in. intros b Hb. apply in_seqN in Hb. apply op_transition_correct; auto. Qed.

(** no qubits: every loop over pairs is empty *)
Lemma C1_neq_C0 : C1 <> C0. Proof. intros H. apply (f_equal fst) in H. simpl in H. lra. Qed.
Lemma list_prod_nil_r {T U} (l : list T) : list_prod l ([] : list U) = [].
Proof. induction l; simpl; auto. Qed.
Lemma op_iters_0 o : op_iters o (2 ^ 0) = [].
Proof. unfold op_iters. change (N.shiftr (2 ^ 0) 1) with 0. apply list_prod_nil_r. Qed.
Lemma op_expectation_0_wrong : exists o psi, op_fits 0 o /\ forall t, reduction_of (op_iters o (2 ^ 0)) t ->
  op_expectation o (2 ^ 0) psi t = Some C0 /\ inner 0 psi (op_act o psi) = C1.
Proof.
  exists (op_of_terms [pauli_one]), (basis 0). split; [repeat constructor|]. intros t Ht. rewrite op_iters_0 in Ht. split.
  - unfold op_expectation. rewrite (creduce_correct _ (fun _ => C0) [] t Ht); [reflexivity|]. intros i [].
  - unfold inner. change (2 ^ 0) with 1. rewrite Csum_1. unfold op_act, terms_act. simpl Csuml. rewrite pauli_one_act.
    unfold basis. simpl. Csolve.
Qed.
Lemma op_transition_0_wrong : exists o bra ket, op_fits 0 o /\ forall t, reduction_of (op_iters o (2 ^ 0)) t ->
  op_transition o (2 ^ 0) bra ket t = Some C0 /\ inner 0 bra (op_act o ket) = C1.
Proof.
  exists (op_of_terms [pauli_one]), (basis 0), (basis 0). split; [repeat constructor|]. intros t Ht. rewrite op_iters_0 in Ht. split.
  - unfold op_transition. rewrite (creduce_correct _ (fun _ => C0) [] t Ht); [reflexivity|]. intros i [].
  - unfold inner. change (2 ^ 0) with 1. rewrite Csum_1. unfold op_act, terms_act. simpl Csuml. rewrite pauli_one_act.
    unfold basis. simpl. Csolve.
Qed.
(** 32 qubits or more: the loop bound does not fit into an int *)
Lemma cast_int_big n : 32 <= n -> Z.to_N (cast_int (N.shiftr (2 ^ n) 1)) = 0.
Proof.
  intros Hn. rewrite N.shiftr_div_pow2. change (2 ^ 1) with 2.
  assert (Hd : 2 ^ n = 2 ^ (n - 1) * 2) by (replace n with ((n - 1) + 1) at 1 by lia; rewrite N.pow_add_r; reflexivity).
  rewrite Hd, N.div_mul by discriminate. unfold cast_int. cbv zeta.
  destruct (N.eq_dec n 32) as [-> |Hne]; [reflexivity|].
  replace (n - 1) with ((n - 33) + 32) by lia. rewrite N.pow_add_r, N.mod_mul by (apply N.pow_nonzero; discriminate). reflexivity.
Qed.
Lemma op_expectations_big_wrong n : 32 <= n -> exists o psi, op_fits n o /\ forall t, reduction_of (op_expectations_iters (2 ^ n)) t ->
  op_expectations o (2 ^ n) 0 psi t = Some C0 /\ inner n psi (pauli_act (term o 0) psi) = C1.
Proof.
  intros Hn. exists (op_of_terms [pauli_one]), (basis 0). split.
  { constructor; [|constructor]. split; apply pow2_pos. }
  intros t Ht. unfold op_expectations_iters in Ht. rewrite cast_int_big in Ht by assumption. split.
  - unfold op_expectations. rewrite (creduce_correct _ (fun _ => C0) (seqN 0) t Ht); [reflexivity|]. intros i [].
  - unfold inner. rewrite (Csum_single _ _ 0).
    + change (term (op_of_terms [pauli_one]) 0) with pauli_one. rewrite pauli_one_act. unfold basis. simpl. Csolve.
    + apply pow2_pos.
    + intros i _ Hi. unfold basis. destruct (i =? 0) eqn:E; [apply N.eqb_eq in E; contradiction|]. Csolve.
Qed.
(** batched transition amplitudes of one Pauli operator: the imaginary part is lost, and off-diagonal terms doubled *)
Lemma pauli_transition_batch_diag_wrong : exists p bra ket, pauli_fits 1 p /\ forall trees,
  reduction_of (expect_iters p (2 ^ 1)) (trees 0) ->
  pauli_transition_batch p (2 ^ 1) 1 bra ket trees = [Some C0] /\ inner 1 (row (2 ^ 1) bra 0) (pauli_act p (row (2 ^ 1) ket 0)) = Ci.
Proof.
  exists (Pauli C1 0 1), (basis 0), (fun x => (Ci * basis 0 x)%C). split; [repeat constructor|]. intros trees Ht.
  unfold pauli_transition_batch. change (seqN 1) with [0]. cbn [map]. split.
  - f_equal. unfold pauli_transition_batched. unfold expect_iters in Ht. cbn [p_bf] in Ht. change (0 =? 0) with true in Ht. cbv iota in Ht.
    destruct (rreduce_correct (fun i => rrun (fun a : addr2 => if fst a then snd a <? 2 ^ 1 else snd a <? 2 ^ 1)
       (bra_ket (row (2 ^ 1) (basis 0) 0) (row (2 ^ 1) (fun x => (Ci * basis 0 x)%C) 0)) (trans_diag_batched (Pauli C1 0 1) i))
       (fun _ => 0%R) _ _ Ht) as (v & Hv & Ev).
    { intros i Hi. apply in_seqN in Hi. change (2 ^ 1) with 2 in Hi. assert (Hc : i = 0 \/ i = 1) by lia.
      destruct Hc; subst i; cbn; unfold flipR, parity, row, basis; simpl; f_equal; ring. }
    cbn [p_bf]. change (0 =? 0) with true. cbv iota. rewrite Hv. cbn [option_map p_coef]. f_equal. rewrite Ev.
    change (seqN (2 ^ 1)) with [0; 1]. simpl. Csolve.
  - unfold inner. change (2 ^ 1) with 2. rewrite Csum_2, !pauli_act_eq. cbn [p_bf p_pf p_coef]. rewrite !phase_diag, !N.lxor_0_r.
    unfold row, basis, pauli_sign, parity. simpl. Csolve.
Qed.
Lemma pauli_transition_batch_pair_wrong : exists p bra ket, pauli_fits 1 p /\ forall trees,
  reduction_of (expect_iters p (2 ^ 1)) (trees 0) ->
  pauli_transition_batch p (2 ^ 1) 1 bra ket trees = [Some (C1 + C1)%C] /\ inner 1 (row (2 ^ 1) bra 0) (pauli_act p (row (2 ^ 1) ket 0)) = C1.
Proof.
  exists (Pauli C1 1 0), (basis 0), (basis 1). split; [repeat constructor|]. intros trees Ht.
  unfold pauli_transition_batch. change (seqN 1) with [0]. cbn [map]. split.
  - f_equal. unfold pauli_transition_batched. unfold expect_iters in Ht. cbn [p_bf] in Ht. change (1 =? 0) with false in Ht. cbv iota in Ht.
    destruct (rreduce_correct (fun i => rrun (fun a : addr2 => if fst a then snd a <? 2 ^ 1 else snd a <? 2 ^ 1)
       (bra_ket (row (2 ^ 1) (basis 0) 0) (row (2 ^ 1) (basis 1) 0)) (trans_pair_batched (Pauli C1 1 0) i))
       (fun _ => 2%R) _ _ Ht) as (v & Hv & Ev).
    { intros i Hi. apply in_seqN in Hi. change (N.shiftr (2 ^ 1) 1) with 1 in Hi. assert (Hc : i = 0) by lia.
      subst i; cbn; unfold flipR, parity, row, basis; simpl; f_equal; ring. }
    cbn [p_bf]. change (1 =? 0) with false. cbv iota. rewrite Hv. cbn [option_map p_coef]. f_equal. rewrite Ev.
    change (seqN (N.shiftr (2 ^ 1) 1)) with [0]. simpl. Csolve.
  - unfold inner. change (2 ^ 1) with 2. rewrite Csum_2, !pauli_act_eq. cbn [p_bf p_pf p_coef]. 
    unfold pauli_phase, mi_pow, row, basis, pauli_sign, parity. simpl. Csolve.
Qed.
(** bra and ket of different sizes are not rejected *)
Lemma pauli_transition_oob : exists p bra ket, forall t, reduction_of (expect_iters p (2 ^ 2)) t -> pauli_transition p (2 ^ 2) (2 ^ 1) bra ket t = None.
Proof.
  exists (Pauli C1 0 1), (fun _ => C0), (fun _ => C0). intros t Ht. unfold pauli_transition. unfold expect_iters in Ht. cbn [p_bf] in *. change (0 =? 0) with true in *. cbv iota in *.
  assert (H : In 2 (leaves t)). { eapply Permutation_in; [apply Permutation_sym; exact Ht|]. now apply in_seqN. }
  replace (creduce _ t) with (@None C); [reflexivity|]. symmetry.
  set (f := fun i => rrun _ _ _).
  assert (Hf : f 2 = None) by reflexivity. clear Ht. clearbody f. induction t as [l|a IHa b IHb].
  - simpl in *. unfold creduce. simpl.
    assert (G : forall l s, (s = None \/ In 2 l) -> fold_left (fun s i => oadd Cadd s (f i)) l s = None).
    { induction l0 as [|x l0 IH]; intros s [Hs|Hin]; simpl; auto; try contradiction.
      - subst s. apply IH. now left.
      - apply IH. destruct Hin as [-> |Hin]; [left; rewrite Hf; now destruct s|now right]. }
    apply G. now right.
  - simpl in H. apply in_app_or in H. unfold creduce in *. simpl. destruct H as [H|H]; [rewrite (IHa H); reflexivity|rewrite (IHb H)].
    now destruct (reduce C0 Cadd f a).
Qed.
(** get_full_matrix forgets the coefficient *)
Lemma pauli_full_matrix_wrong : exists p i j, pauli_fits 1 p /\ i < 2 ^ 1 /\ j < 2 ^ 1 /\
  pauli_get_full_matrix p 1 i j <> pauli_act p (basis j) i.
Proof.
  exists (Pauli (C1 + C1)%C 0 0), 0, 0. split; [repeat constructor|]. split; [reflexivity|]. split; [reflexivity|].
  rewrite pauli_act_eq. cbn [p_bf p_pf p_coef]. rewrite phase_diag. intros H. apply (f_equal fst) in H.
  cbn in H. unfold rot90, pauli_sign, parity, basis in H. simpl in H. lra.
Qed.
