(** Properties of PauliOperator and Operator (C12, C14, C16-C18).

    [pauli_act p] and [op_act o] (OperatorSpec.v) are the linear maps the objects stand for; [inner n] the inner
    product on n qubits.  A parallel_reduce may group its iterations in any way: [reduction_of iters t] says that
    the tree [t] is such a grouping. *)
From Verif Require Import Prelude Cplx Spec Kernels GateSpec Operator OperatorSpec OperatorHist OperatorProofs OperatorProofs2 OperatorProofs3 OperatorProofs4 TransitionProofs.
From Coq Require Import Permutation.

(** C12: PauliOperator::apply_to_state *)
Theorem C12_apply_to_state : forall p n psi, n <= 63 -> pauli_fits n p ->
  kcomputes N.eqb (fun a => a <? 2 ^ n) (pauli_apply_to_state (2 ^ n) p) psi
    (fun a => if a <? 2 ^ n then pauli_act p psi a else psi a).
Proof. exact pauli_kernel_act. Qed.
Print Assumptions C12_apply_to_state.
Example C12_apply_example : pauli_fits 5 (Pauli Ci 19 10). Proof. split; reflexivity. Qed.

(** C14 *)
Theorem C14_product_is_composition : forall a b psi x, pauli_u64 a -> pauli_u64 b ->
  pauli_act (pauli_mul a b) psi x = pauli_act a (pauli_act b psi) x.
Proof. exact pauli_mul_act. Qed.
Print Assumptions C14_product_is_composition.
Theorem C14_product_associative : forall a b c, pauli_u64 a -> pauli_u64 b -> pauli_u64 c ->
  pauli_mul (pauli_mul a b) c = pauli_mul a (pauli_mul b c).
Proof. exact pauli_mul_assoc. Qed.
Print Assumptions C14_product_associative.
Theorem C14_identity_neutral : forall a, pauli_u64 a ->
  pauli_mul (Pauli C1 0 0) a = a /\ pauli_mul a (Pauli C1 0 0) = a.
Proof. exact (fun a H => conj (pauli_mul_1_l a H) (pauli_mul_1_r a H)). Qed.
Print Assumptions C14_identity_neutral.
Theorem C14_dagger_adjoint : forall n p phi psi, pauli_fits n p ->
  inner n (pauli_act (pauli_dagger p) phi) psi = inner n phi (pauli_act p psi).
Proof. exact pauli_dagger_adjoint. Qed.
Print Assumptions C14_dagger_adjoint.
Theorem C14_scalar : forall p c psi x, pauli_act (pauli_scale p c) psi x = (c * pauli_act p psi x)%C.
Proof. exact pauli_scale_act. Qed.
Print Assumptions C14_scalar.
Example C14_example : pauli_u64 (Pauli Ci 9 5) /\ pauli_u64 (Pauli C1 3 6) /\ p_coef (pauli_mul (Pauli C1 1 0) (Pauli C1 1 1)) = (C1 * C1 * Ci)%C.
Proof. repeat split. Qed.

(** C16 *)
Theorem C16_pauli_expectation : forall p n, n <= 63 -> pauli_fits n p ->
  forall psi t, reduction_of (expect_iters p (2 ^ n)) t ->
  pauli_expectation p (2 ^ n) psi t = Some (inner n psi (pauli_act p psi)).
Proof. exact pauli_expectation_correct. Qed.
Print Assumptions C16_pauli_expectation.
Theorem C16_pauli_transition : forall p n, n <= 63 -> pauli_fits n p ->
  forall bra ket t, reduction_of (expect_iters p (2 ^ n)) t ->
  pauli_transition p (2 ^ n) (2 ^ n) bra ket t = Some (inner n bra (pauli_act p ket)).
Proof. exact pauli_transition_correct. Qed.
Print Assumptions C16_pauli_transition.
Theorem C16_pauli_expectation_batched : forall p n B flat trees, n <= 63 -> pauli_fits n p ->
  (forall b, b < B -> reduction_of (expect_iters p (2 ^ n)) (trees b)) ->
  pauli_expectation_batch p (2 ^ n) B flat trees =
  map (fun b => Some (inner n (row (2 ^ n) flat b) (pauli_act p (row (2 ^ n) flat b)))) (seqN B).
Proof. exact pauli_expectation_batch_correct. Qed.
Print Assumptions C16_pauli_expectation_batched.
(** For operators: at least one qubit (see C16_operator_no_qubits_refuted). *)
Theorem C16_operator_expectation_partial : forall o n, n <= 63 -> op_fits n o ->
  forall psi t, 0 < n -> reduction_of (op_iters o (2 ^ n)) t ->
  op_expectation o (2 ^ n) psi t = Some (inner n psi (op_act o psi)).
Proof. exact op_expectation_correct. Qed.
Print Assumptions C16_operator_expectation_partial.
Theorem C16_operator_transition_partial : forall o n, n <= 63 -> op_fits n o ->
  forall bra ket t, 0 < n -> reduction_of (op_iters o (2 ^ n)) t ->
  op_transition o (2 ^ n) bra ket t = Some (inner n bra (op_act o ket)).
Proof. exact op_transition_correct. Qed.
Print Assumptions C16_operator_transition_partial.
(** get_expectation_values: between 1 and 31 qubits (see C16_expectation_values_refuted). *)
Theorem C16_operator_expectation_values_partial : forall o n, n <= 63 -> op_fits n o ->
  forall b psi t, 0 < n -> n <= 31 -> b < N.of_nat (length (o_terms o)) ->
  reduction_of (op_expectations_iters (2 ^ n)) t ->
  op_expectations o (2 ^ n) b psi t = Some (inner n psi (pauli_act (term o b) psi)).
Proof. exact op_expectations_correct. Qed.
Print Assumptions C16_operator_expectation_values_partial.
Theorem C16_operator_expectation_batched_partial : forall o n B flat trees, 0 < n -> n <= 63 -> op_fits n o ->
  (forall b, b < B -> reduction_of (op_iters o (2 ^ n)) (trees b)) ->
  op_expectation_batch o (2 ^ n) B flat trees =
  map (fun b => Some (inner n (row (2 ^ n) flat b) (op_act o (row (2 ^ n) flat b)))) (seqN B).
Proof. exact op_expectation_batch_correct. Qed.
Print Assumptions C16_operator_expectation_batched_partial.
Theorem C16_operator_transition_batched_partial : forall o n B bra ket trees, 0 < n -> n <= 63 -> op_fits n o ->
  (forall b, b < B -> reduction_of (op_iters o (2 ^ n)) (trees b)) ->
  op_transition_batch o (2 ^ n) B bra ket trees =
  map (fun b => Some (inner n (row (2 ^ n) bra b) (op_act o (row (2 ^ n) ket b)))) (seqN B).
Proof. exact op_transition_batch_correct. Qed.
Print Assumptions C16_operator_transition_batched_partial.
Example C16_example : op_fits 3 (op_of_terms [Pauli C1 5 3; Pauli Ci 0 6; Pauli C1 0 0]) /\
  reduction_of (op_iters (op_of_terms [Pauli C1 5 3; Pauli Ci 0 6]) (2 ^ 1)) (RJoin (RLeaf [(1, 0)]) (RLeaf [(0, 0)])) /\
  reduction_of (expect_iters (Pauli C1 5 3) (2 ^ 3)) (RJoin (RLeaf [3]) (RJoin (RLeaf [0; 2]) (RLeaf [1]))).
Proof.
  split; [repeat constructor|]. split; unfold reduction_of; simpl.
  - apply perm_swap.
  - change (expect_iters (Pauli C1 5 3) (2 ^ 3)) with [0; 1; 2; 3].
    apply Permutation_trans with [0; 3; 2; 1]; [apply perm_swap|]. apply perm_skip.
    apply Permutation_trans with [3; 1; 2]; [apply perm_skip, perm_swap|].
    apply Permutation_trans with [1; 3; 2]; [apply perm_swap|apply perm_skip, perm_swap].
Qed.
(** The full claim is false of the code: *)
(** - on a register without qubits the loops of Operator run over no index; *)
Theorem C16_operator_no_qubits_refuted : exists o psi, op_fits 0 o /\ forall t, reduction_of (op_iters o (2 ^ 0)) t ->
  op_expectation o (2 ^ 0) psi t = Some C0 /\ inner 0 psi (op_act o psi) = C1.
Proof. exact op_expectation_0_wrong. Qed.
Print Assumptions C16_operator_no_qubits_refuted.
Theorem C16_operator_transition_no_qubits_refuted : exists o bra ket, op_fits 0 o /\ forall t, reduction_of (op_iters o (2 ^ 0)) t ->
  op_transition o (2 ^ 0) bra ket t = Some C0 /\ inner 0 bra (op_act o ket) = C1.
Proof. exact op_transition_0_wrong. Qed.
Print Assumptions C16_operator_transition_no_qubits_refuted.
(** - get_expectation_values casts its loop bound to int; *)
Theorem C16_expectation_values_refuted : forall n, 32 <= n -> exists o psi, op_fits n o /\
  forall t, reduction_of (op_expectations_iters (2 ^ n)) t ->
  op_expectations o (2 ^ n) 0 psi t = Some C0 /\ inner n psi (pauli_act (term o 0) psi) = C1.
Proof. exact op_expectations_big_wrong. Qed.
Print Assumptions C16_expectation_values_refuted.
(** - the transition amplitude of a PauliOperator on batched states loses the imaginary part, and doubles
      off-diagonal contributions. *)
Theorem C16_pauli_transition_batched_refuted : exists p bra ket, pauli_fits 1 p /\ forall trees,
  reduction_of (expect_iters p (2 ^ 1)) (trees 0) ->
  pauli_transition_batch p (2 ^ 1) 1 bra ket trees = [Some C0] /\ inner 1 (row (2 ^ 1) bra 0) (pauli_act p (row (2 ^ 1) ket 0)) = Ci.
Proof. exact pauli_transition_batch_diag_wrong. Qed.
Print Assumptions C16_pauli_transition_batched_refuted.
Theorem C16_pauli_transition_batched_pair_refuted : exists p bra ket, pauli_fits 1 p /\ forall trees,
  reduction_of (expect_iters p (2 ^ 1)) (trees 0) ->
  pauli_transition_batch p (2 ^ 1) 1 bra ket trees = [Some (C1 + C1)%C] /\ inner 1 (row (2 ^ 1) bra 0) (pauli_act p (row (2 ^ 1) ket 0)) = C1.
Proof. exact pauli_transition_batch_pair_wrong. Qed.
Print Assumptions C16_pauli_transition_batched_pair_refuted.
(**   What it returns instead is, for every element of the batch, the coefficient times the real part of the amplitude of
      the bare string, twice that part when the string contains an X or Y ([p_bf p] is not 0).  So a result
      other than 0 is right only when the string is diagonal and that amplitude real.  The two theorems above are
      inputs of both kinds. *)
Theorem C16_pauli_transition_batched_partial : forall p n B bra ket trees, n <= 63 -> pauli_fits n p ->
  (forall b, b < B -> reduction_of (expect_iters p (2 ^ n)) (trees b)) ->
  pauli_transition_batch p (2 ^ n) B bra ket trees =
  map (fun b => Some (p_coef p * RtoC ((if p_bf p =? 0 then 1 else 2)
    * Re (inner n (row (2 ^ n) bra b) (pauli_act (unit_coef p) (row (2 ^ n) ket b)))))%C) (seqN B).
Proof. exact pauli_transition_batch_value. Qed.
Print Assumptions C16_pauli_transition_batched_partial.
(** - a bra with more qubits than the ket makes the ket be read out of bounds. *)
Theorem C16_pauli_transition_sizes_refuted : exists p bra ket, forall t, reduction_of (expect_iters p (2 ^ 2)) t ->
  pauli_transition p (2 ^ 2) (2 ^ 1) bra ket t = None.
Proof. exact pauli_transition_oob. Qed.
Print Assumptions C16_pauli_transition_sizes_refuted.

(** C17 *)
Theorem C17_sum : forall a b psi x, op_act (op_add a b) psi x = (op_act a psi x + op_act b psi x)%C.
Proof. exact op_add_act. Qed.
Print Assumptions C17_sum.
Theorem C17_difference : forall a b psi x, op_act (op_sub a b) psi x = (op_act a psi x - op_act b psi x)%C.
Proof. exact op_sub_act. Qed.
Print Assumptions C17_difference.
Theorem C17_negation : forall a psi x, op_act (op_neg a) psi x = (- op_act a psi x)%C.
Proof. exact op_neg_act. Qed.
Print Assumptions C17_negation.
Theorem C17_scalar : forall a c psi x, op_act (op_scale a c) psi x = (c * op_act a psi x)%C /\
  op_act (op_scale_in_place a c) psi x = (c * op_act a psi x)%C.
Proof. exact (fun a c psi x => conj (op_scale_act a c psi x) (op_scale_in_place_act a c psi x)). Qed.
Print Assumptions C17_scalar.
Theorem C17_pauli_sum_difference : forall a q psi x, op_act (op_add_pauli a q) psi x = (op_act a psi x + pauli_act q psi x)%C /\
  op_act (op_sub_pauli a q) psi x = (op_act a psi x - pauli_act q psi x)%C.
Proof. exact (fun a q psi x => conj (op_add_pauli_act a q psi x) (op_sub_pauli_act a q psi x)). Qed.
Print Assumptions C17_pauli_sum_difference.
Theorem C17_product : forall a b psi x, op_u64 a -> op_u64 b -> op_act (op_mul a b) psi x = op_act a (op_act b psi) x.
Proof. exact op_mul_act. Qed.
Print Assumptions C17_product.
Theorem C17_pauli_product : forall a q psi x, op_u64 a -> pauli_u64 q ->
  op_act (op_mul_pauli a q) psi x = op_act a (pauli_act q psi) x /\
  op_act (op_mul_pauli_in_place a q) psi x = op_act a (pauli_act q psi) x.
Proof. exact (fun a q psi x H H' => conj (op_mul_pauli_act a q psi x H H') (op_mul_pauli_in_place_act a q psi x H H')). Qed.
Print Assumptions C17_pauli_product.
Theorem C17_adjoint : forall n o phi psi, op_fits n o -> inner n (op_act (op_dagger o) phi) psi = inner n phi (op_act o psi).
Proof. exact op_dagger_adjoint. Qed.
Print Assumptions C17_adjoint.
Theorem C17_optimize : forall o, o_view o = false -> exists o', op_optimize o = Ok o' /\
  (forall psi x, op_act o' psi x = op_act o psi x) /\ distinct_strings (o_terms o').
Proof. exact op_optimize_correct. Qed.
Print Assumptions C17_optimize.
(** In every program over Operator variables (OperatorHist.v) optimize succeeds. *)
Theorem C17_optimize_programs : forall l x o, lookup (orun l) x = Some o -> exists o', op_optimize o = Ok o' /\
  (forall psi a, op_act o' psi a = op_act o psi a) /\ distinct_strings (o_terms o').
Proof. exact programs_optimize. Qed.
Print Assumptions C17_optimize_programs.
Example C17_optimize_programs_example : exists o, lookup (orun [OSlet 0 (OEterms [Pauli Ci 5 3]); OSassign 1 0; OSlet 2 (OEadd 0 1); OSscale 2 Ci]) 2 = Some o /\ length (o_terms o) = 2%nat.
Proof. exact programs_optimize_example. Qed.
(** An operator that is a view of another one's terms is not optimized. *)
Theorem C17_optimize_view : forall o, o_view o = true -> op_optimize o = Throw.
Proof. exact op_optimize_view. Qed.
Print Assumptions C17_optimize_view.
Example C17_optimize_view_example : exists o, o_view o = true /\ o_terms o = [Pauli Ci 5 3; Pauli C1 5 3]. Proof. now exists (Op [Pauli Ci 5 3; Pauli C1 5 3] false true). Qed.
(** Operator(n): n times the identity, known to be Hermitian, the owner of its terms. *)
Theorem C17_new : forall n, (forall psi x, op_act (op_new n) psi x = (RtoC (INR n) * psi x)%C) /\
  length (o_terms (op_new n)) = n /\ o_herm (op_new n) = true /\ o_view (op_new n) = false.
Proof. exact op_new_spec. Qed.
Print Assumptions C17_new.
Theorem C17_full_matrix : forall o n i j, n <= 63 -> i < 2 ^ n -> op_full_matrix o n i j = op_act o (basis j) i.
Proof. exact op_full_matrix_correct. Qed.
Print Assumptions C17_full_matrix.
Theorem C17_pauli_full_matrix_ignoring_coef : forall p n i j, n <= 63 -> i < 2 ^ n ->
  pauli_get_full_matrix_ignoring_coef p n i j = pauli_act (unit_coef p) (basis j) i.
Proof. exact pauli_full_entry. Qed.
Print Assumptions C17_pauli_full_matrix_ignoring_coef.
(** apply_to_state: under every schedule of the loops over the copies, every grouping of the final sums. *)
Theorem C17_apply_to_state : forall o n, n <= 63 -> op_fits n o -> forall psi scheds trees,
  (forall i, reduction_of (seqN (N.of_nat (length (o_terms o)))) (trees i)) ->
  match op_apply_to_state o (2 ^ n) psi scheds trees with
  | Finished r => forall i, i < 2 ^ n -> r i = Some (op_act o psi i)
  | Unfinished => True
  | OutOfBounds | DataRace => False
  end.
Proof. exact op_apply_to_state_safe. Qed.
Print Assumptions C17_apply_to_state.
Theorem C17_apply_to_state_completes : forall o n, n <= 63 -> op_fits n o -> forall psi trees,
  exists scheds r, op_apply_to_state o (2 ^ n) psi scheds trees = Finished r.
Proof. exact op_apply_to_state_live. Qed.
Print Assumptions C17_apply_to_state_completes.
(** PauliOperator::get_full_matrix leaves out the coefficient. *)
Theorem C17_pauli_full_matrix_partial : forall p n i j, n <= 63 -> i < 2 ^ n -> p_coef p = C1 ->
  pauli_get_full_matrix p n i j = pauli_act p (basis j) i.
Proof. exact pauli_full_matrix_unit. Qed.
Print Assumptions C17_pauli_full_matrix_partial.
Theorem C17_pauli_full_matrix_refuted : exists p i j, pauli_fits 1 p /\ i < 2 ^ 1 /\ j < 2 ^ 1 /\
  pauli_get_full_matrix p 1 i j <> pauli_act p (basis j) i.
Proof. exact pauli_full_matrix_wrong. Qed.
Print Assumptions C17_pauli_full_matrix_refuted.
Example C17_example : let o := op_of_terms [Pauli C1 5 3; Pauli Ci 0 6; Pauli Ci 5 3] in
  op_fits 3 o /\ op_u64 o /\ o_view o = false /\
  match op_optimize o with Ok o' => map (fun p => (p_bf p, p_pf p)) (o_terms o') = [(0, 6); (5, 3)] | _ => False end /\
  reduction_of (seqN (N.of_nat (length (o_terms o)))) (RLeaf [0; 1; 2]).
Proof. repeat split; try (repeat constructor). Qed.

(** C18: after every program that forms no products, does not force the flag, and changes shared terms in place
    only by a real factor. *)
Theorem C18_is_hermitian_partial : forall l x o n, plain_run empty_store l -> lookup (orun l) x = Some o ->
  o_herm o = true -> op_fits n o -> self_adjoint n (op_act o).
Proof. exact hermitian_flag_honest. Qed.
Print Assumptions C18_is_hermitian_partial.
(** The full claim is false of the code: products of hermitian operators are flagged hermitian ... *)
Theorem C18_product_refuted : exists a b, o_herm a = true /\ o_herm b = true /\ op_fits 1 a /\ op_fits 1 b /\
  o_herm (op_mul a b) = true /\ ~ self_adjoint 1 (op_act (op_mul a b)).
Proof. exact mul_herm_wrong. Qed.
Print Assumptions C18_product_refuted.
Theorem C18_pauli_product_refuted : exists a q, o_herm a = true /\ is_real (p_coef q) = true /\ op_fits 1 a /\ pauli_fits 1 q /\
  o_herm (op_mul_pauli a q) = true /\ ~ self_adjoint 1 (op_act (op_mul_pauli a q)).
Proof. exact mulp_herm_wrong. Qed.
Print Assumptions C18_pauli_product_refuted.
(** ... and copies share their terms but not their flags. *)
Theorem C18_shared_terms_refuted : exists o,
  lookup (orun [OSlet 0 (OEterms [Pauli C1 0 1]); OSassign 1 0; OSscale 1 Ci]) 0 = Some o /\
  o_herm o = true /\ op_fits 1 o /\ ~ self_adjoint 1 (op_act o).
Proof. exact shared_herm_wrong. Qed.
Print Assumptions C18_shared_terms_refuted.
Definition C18_prog : list ostmt :=
  [OSlet 0 (OEterms [Pauli C1 5 3; Pauli C1 0 6]); OSlet 1 (OEdagger 0); OSlet 2 (OEadd 0 1); OSassign 3 2;
   OSscale 0 Ci; OSlet 4 (OEsubp 2 (Pauli C1 1 1)); OSload 1 [Pauli C1 0 0; Pauli C1 2 0]; OSoptimize 4].
Example C18_example : plain_run empty_store C18_prog /\ exists o, lookup (orun C18_prog) 3 = Some o /\ o_herm o = true /\ op_fits 3 o.
Proof.
  split.
  - simpl. repeat split.
    + left. intros h y h' Hx Hy Hh. inversion Hx; subst. cbn in Hh.
      destruct (y =? 3) eqn:E3; [inversion Hh; subst; cbn; discriminate|].
      destruct (y =? 2) eqn:E2; [inversion Hh; subst; cbn; discriminate|].
      destruct (y =? 1) eqn:E1; [inversion Hh; subst; cbn; discriminate|].
      destruct (y =? 0) eqn:E0; [apply N.eqb_eq in E0; subst; now destruct Hy|discriminate].
    + intros h y h' Hx Hy Hh. cbn in Hx. inversion Hx; subst. cbn in Hh.
      destruct (y =? 4) eqn:E4; [inversion Hh; subst; cbn; discriminate|].
      destruct (y =? 0) eqn:E0; [inversion Hh; subst; cbn; discriminate|].
      destruct (y =? 3) eqn:E3; [inversion Hh; subst; cbn; discriminate|].
      destruct (y =? 2) eqn:E2; [inversion Hh; subst; cbn; discriminate|].
      destruct (y =? 1) eqn:E1; [apply N.eqb_eq in E1; subst; now destruct Hy|discriminate].
  - eexists. split; [reflexivity|]. split.
    + cbn. unfold all_real. cbn. now rewrite is_real_1.
    + repeat constructor.
Qed.
