(** What the transition amplitude of a PauliOperator on batched states is. *)
From Verif Require Import Prelude BitsProofs Cplx Spec Gates GateSpec PauliSpec PauliProofs GatesProofs GatesProofs2 Operator OperatorSpec OperatorHist OperatorProofs OperatorProofs2.
From Coq Require Import Permutation FunctionalExtensionality Lra.
Local Open Scope N_scope.

Lemma Csuml_real {I} (F : I -> C) l : Csuml (fun i => RtoC (Re (F i))) l = RtoC (Re (Csuml F l)).
Proof.
  unfold Csuml. induction l as [|a l IH]; cbn [map fold_right]; [reflexivity|]. rewrite IH. destruct (F a), (fold_right _ _ _).
  unfold RtoC, Re, Cadd. cbn. f_equal; lra.
Qed.
Lemma flipR_Re x r z : flipR x (Re (Cscale r z)) = (r * Re (pauli_sign x * z)%C)%R.
Proof.
  unfold flipR, pauli_sign. destruct (parity x), z; unfold Cscale, Re, Cmul, C1, Copp; cbn; ring.
Qed.
Lemma unit_self_adjoint n p phi psi : pauli_fits n p ->
  inner n phi (pauli_act (unit_coef p) psi) = inner n (pauli_act (unit_coef p) phi) psi.
Proof.
  intros H. set (q := unit_coef p). pose proof (all_real_self_adjoint n [q] false true) as A.
  assert (E : op_act (Op [q] true false) = pauli_act q).
  { extensionality a. extensionality x. unfold op_act, terms_act, Csuml. cbn. ring. }
  rewrite E in A. apply A; [|repeat constructor; exact (proj1 H) || exact (proj2 H)].
  cbn [all_real forallb p_coef q unit_coef]. unfold is_real. cbn. destruct (Req_EM_T 0 0); [reflexivity|congruence].
Qed.
Lemma Re_inner_swap n a b : Re (inner n a b) = Re (inner n b a).
Proof.
  assert (E : inner n a b = Cconj (inner n b a)).
  { unfold inner. rewrite Csum_conj. apply Csum_ext. intros x _. rewrite Cconj_mul, Cconj_invol. ring. }
  rewrite E. destruct (inner n b a). reflexivity.
Qed.

Lemma pauli_transition_batched_value p n bra ket t : n <= 63 -> pauli_fits n p -> reduction_of (expect_iters p (2 ^ n)) t ->
  pauli_transition_batched p (2 ^ n) (2 ^ n) bra ket t =
  Some (p_coef p * RtoC ((if p_bf p =? 0 then 1 else 2) * Re (inner n bra (pauli_act (unit_coef p) ket))))%C.
Proof.
  intros Hn Hfit Ht. pose proof (unit_self_adjoint n p ket bra Hfit) as Hsa.
  unfold pauli_transition_batched, expect_iters in *. destruct Hfit as [Hb Hp]. set (P1 := unit_coef p) in *.
  destruct (N.eqb_spec (p_bf p) 0) as [E|E].
  - destruct (rreduce_correct (fun i => rrun (fun a : addr2 => if fst a then snd a <? 2 ^ n else snd a <? 2 ^ n) (bra_ket bra ket) (trans_diag_batched p i))
      (fun i => flipR (N.land i (p_pf p)) (Re (Cconj (bra i) * ket i)%C)) _ t Ht) as (v & Hv & Ev).
    { intros i Hi. apply in_seqN in Hi. simpl. now rewrite ltb_true. }
    rewrite Hv. cbn [option_map]. f_equal. f_equal. rewrite Ev, Rmult_1_l. unfold inner.
    unfold Csum. rewrite <- Csuml_real. apply Csuml_ext. intros x _.
    replace (Re (Cconj (bra x) * ket x)%C) with (Re (Cscale 1 (Cconj (bra x) * ket x)%C)) by (destruct (Cconj (bra x) * ket x)%C; unfold Cscale, Re; cbn; ring).
    rewrite flipR_Re, Rmult_1_l, pauli_act_eq. subst P1. unfold unit_coef. cbn [p_coef p_bf p_pf]. rewrite E, phase_diag, N.lxor_0_r. f_equal. f_equal. ring.
  - set (F := fun i => let b0 := insert_zero_to_basis_index i (bit_width (p_bf p) - 1) in let b1 := N.lxor b0 (p_bf p) in
      (pauli_sign (N.land b0 (p_pf p)) * (bra b0 * Cconj (ket b1) * phase90 (p_bf p) (p_pf p))
       + pauli_sign (N.land b1 (p_pf p)) * (bra b1 * Cconj (ket b0) * phase90 (p_bf p) (p_pf p)))%C).
    destruct (rreduce_correct (fun i => rrun (fun a : addr2 => if fst a then snd a <? 2 ^ n else snd a <? 2 ^ n) (bra_ket bra ket) (trans_pair_batched p i))
      (fun i => Re (Cscale 2 (F i))) _ t Ht) as (v & Hv & Ev).
    { intros i Hi. apply in_seqN in Hi. destruct (pair_idx_lt n (p_bf p) i Hn E Hb Hi) as [H1 H2]. unfold trans_pair_batched. cbn [rrun fst snd]. rewrite !ltb_true by assumption.
      f_equal. rewrite !flipR_Re. unfold F. cbv zeta. unfold bra_ket. cbn [fst snd].
      set (u := (pauli_sign _ * _)%C). set (w := (pauli_sign _ * _)%C). destruct u, w. unfold Cscale, Re, Cadd. cbn. ring. }
    rewrite Hv. cbn [option_map]. f_equal. f_equal. rewrite Ev, Csuml_real.
    assert (EF : Csuml F (seqN (N.shiftr (2 ^ n) 1)) = inner n ket (pauli_act P1 bra)).
    { unfold inner. rewrite (pair_sum n (p_bf p)) by assumption. unfold Csum. apply Csuml_ext. intros i _. unfold F. cbv zeta. rewrite !pauli_act_eq.
      subst P1. unfold unit_coef. cbn [p_coef p_bf p_pf].
      set (b0 := insert_zero_to_basis_index _ _). rewrite phase_high, (phase_low _ _ b0).
      rewrite N.lxor_assoc, N.lxor_nilpotent, N.lxor_0_r. ring. }
    f_equal. rewrite (Re_inner_swap n bra), <- Hsa, <- EF.
    clear. unfold Csuml. induction (seqN (N.shiftr (2 ^ n) 1)) as [|a l IH]; cbn [map fold_right]; [unfold Re; cbn; ring|].
    unfold Re, Cadd, Cscale in *. cbn [fst snd] in *. lra.
Qed.
Lemma pauli_transition_batch_value p n B bra ket trees : n <= 63 -> pauli_fits n p ->
  (forall b, b < B -> reduction_of (expect_iters p (2 ^ n)) (trees b)) ->
  pauli_transition_batch p (2 ^ n) B bra ket trees =
  map (fun b => Some (p_coef p * RtoC ((if p_bf p =? 0 then 1 else 2)
    * Re (inner n (row (2 ^ n) bra b) (pauli_act (unit_coef p) (row (2 ^ n) ket b)))))%C) (seqN B).
Proof. intros Hn Hf Ht. apply map_ext_in. intros b Hb. apply in_seqN in Hb. apply pauli_transition_batched_value; auto. Qed.
