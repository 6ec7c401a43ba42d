(** C48: batches of operators act element by element.
    [batch_of ops] is the batch built from the operators ops.  [junk] is what an uninitialised view contains. *)
From Verif Require Import OperatorBatchedSpec.
From Verif Require OperatorBatchedProofs4 RowProofs.

(** the elements, in order, with a throw past the end *)
Theorem C48_elements : forall ops, fits_vector ops -> holds (batch_of ops) (map o_terms ops).
Proof. exact OperatorBatchedProofs4.batch_holds. Qed.
Print Assumptions C48_elements.
(** a view of an element has the same terms and is marked as a view, and there is none past the end *)
Theorem C48_view : forall ops, fits_vector ops ->
  (forall b o, nth_error ops b = Some o ->
     exists p, ob_view_operator_at (batch_of ops) (N.of_nat b) = Ok p /\ o_terms p = o_terms o /\ o_view p = true) /\
  (forall b, N.of_nat (length ops) <= b -> ob_view_operator_at (batch_of ops) b = Throw).
Proof. exact RowProofs.view_ok. Qed.
Print Assumptions C48_view.
Example C48_view_example : exists p, ob_view_operator_at (batch_of [op_of_terms [Pauli Ci 0 1]; op_of_terms [Pauli C1 2 1; Pauli Ci 1 1]]) 1 = Ok p /\
  o_terms p = [Pauli C1 2 1; Pauli Ci 1 1].
Proof. eexists. split; reflexivity. Qed.
(** copies, on either side of the memory spaces, hold the same elements *)
Theorem C48_copy : forall ops, fits_vector ops -> holds (ob_copy (batch_of ops)) (map o_terms ops).
Proof. exact RowProofs.copy_ok. Qed.
Print Assumptions C48_copy.
(** but the elements come out marked Hermitian whatever they are, *)
Theorem C48_hermitian_flag_refuted : exists ops p, fits_vector ops /\ ob_get_operator_at (batch_of ops) 0 = Ok p /\ o_herm p = true /\ map o_herm ops = [false].
Proof. exact OperatorBatchedProofs4.flag_wrong. Qed.
Print Assumptions C48_hermitian_flag_refuted.
(** and a default-constructed batch claims 2^64 - 1 elements that it does not have: asking for one, or for the
    sum or product of two such batches, is undefined *)
Theorem C48_default_batch_refuted : ob_batch_size ob_default = two64 - 1 /\ ob_get_operator_at ob_default 0 = UB /\
  (forall junk sched, ob_add ob_default ob_default junk sched = Some UB) /\ (forall junk sched, ob_mul ob_default ob_default junk sched = Some UB).
Proof. exact RowProofs.default_batch_wrong. Qed.
Print Assumptions C48_default_batch_refuted.
(** load replaces the elements when their number stays the same *)
Theorem C48_load : forall o A B, fits_vector A -> length A = length B -> o = batch_of A -> exists r, ob_load_operators o B = Ok r /\ holds r (map o_terms B).
Proof. exact OperatorBatchedProofs4.load_ok. Qed.
Print Assumptions C48_load.
Theorem C48_load_other_size : forall o A B, length A <> length B -> o = batch_of A -> ob_load_operators o B = Throw.
Proof. exact OperatorBatchedProofs4.load_other. Qed.
Print Assumptions C48_load_other_size.

(** arithmetic, under every schedule *)
Theorem C48_sum : forall A B junk, fits_vector A -> length A = length B -> returns_batch (ob_add (batch_of A) (batch_of B) junk) (each2 op_add A B).
Proof. exact OperatorBatchedProofs4.sum_ok. Qed.
Print Assumptions C48_sum.
Theorem C48_difference : forall A B junk, fits_vector A -> length A = length B ->
  returns_batch (fun s => ob_sub (batch_of A) (batch_of B) junk (fst s) (snd s)) (each2 op_sub A B).
Proof. exact OperatorBatchedProofs4.difference_ok. Qed.
Print Assumptions C48_difference.
Theorem C48_product : forall A B junk, fits_vector A -> length A = length B -> returns_batch (ob_mul (batch_of A) (batch_of B) junk) (each2 op_mul A B).
Proof. exact OperatorBatchedProofs4.product_ok. Qed.
Print Assumptions C48_product.
Theorem C48_dagger : forall A, fits_vector A -> returns_batch (ob_dagger (batch_of A)) (map op_dagger A).
Proof. exact OperatorBatchedProofs4.dagger_ok. Qed.
Print Assumptions C48_dagger.
Theorem C48_negation : forall A, fits_vector A -> returns_batch (ob_neg (batch_of A)) (map op_neg A).
Proof. exact OperatorBatchedProofs4.negation_ok. Qed.
Print Assumptions C48_negation.
Theorem C48_mismatch : forall A B junk, length A <> length B ->
  always_throws (ob_add (batch_of A) (batch_of B) junk) /\ always_throws (ob_mul (batch_of A) (batch_of B) junk) /\
  (forall s1 s2, ob_sub (batch_of A) (batch_of B) junk s1 s2 = None \/ ob_sub (batch_of A) (batch_of B) junk s1 s2 = Some Throw) /\
  (exists s1 s2, ob_sub (batch_of A) (batch_of B) junk s1 s2 = Some Throw).
Proof. exact OperatorBatchedProofs4.mismatch_ok. Qed.
Print Assumptions C48_mismatch.
Example C48_arithmetic_nonvacuous : let A := [op_of_terms [Pauli C1 1 0; Pauli C1 0 1]; op_of_terms []] in
  let B := [op_of_terms []; op_of_terms [Pauli C1 1 1]] in fits_vector A /\ length A = length B /\ map (fun o => length (o_terms o)) (each2 op_add A B) = [2%nat; 1%nat].
Proof. repeat split. Qed.

(** Scaling by one coefficient per element is right only when every element has exactly one term:
    the code indexes the coefficients by term.  Missing: batches with other numbers of terms. *)
Theorem C48_scale_partial : forall A coef, fits_vector A -> length coef = length A -> Forall (fun o => length (o_terms o) = 1%nat) A ->
  returns_batch (ob_scale (batch_of A) coef) (each2 op_scale A coef).
Proof. exact OperatorBatchedProofs4.scale_ok. Qed.
Print Assumptions C48_scale_partial.
Theorem C48_scale_size : forall A coef, fits_vector A -> length coef <> length A -> always_throws (ob_scale (batch_of A) coef).
Proof. exact OperatorBatchedProofs4.scale_mismatch. Qed.
Print Assumptions C48_scale_size.
(** with more terms than elements it reads past the coefficients, *)
Theorem C48_scale_out_of_bounds_refuted : forall A coef, fits_vector A -> length coef = length A -> (length A < length (concat (map o_terms A)))%nat ->
  never_returns (ob_scale (batch_of A) coef).
Proof. exact OperatorBatchedProofs4.scale_oob. Qed.
Print Assumptions C48_scale_out_of_bounds_refuted.
(** and it may scale a term by the coefficient of another element *)
Theorem C48_scale_wrong_element_refuted : exists A coef s r, length coef = length A /\ ob_scale (batch_of A) coef s = Some (Ok r) /\ ~ holds r (map o_terms (each2 op_scale A coef)).
Proof. exact OperatorBatchedProofs4.scale_wrong. Qed.
Print Assumptions C48_scale_wrong_element_refuted.

(** One Pauli operator per element: all four methods refuse vectors of the right size; *)
Theorem C48_paulis_refuted : forall A ps junk, length ps = length A ->
  always_throws (ob_add_paulis (batch_of A) ps junk) /\ always_throws (ob_sub_paulis (batch_of A) ps junk) /\
  always_throws (ob_mul_paulis (batch_of A) ps) /\ always_throws (ob_mul_paulis_in_place (batch_of A) ps).
Proof. exact OperatorBatchedProofs4.paulis_throw. Qed.
Print Assumptions C48_paulis_refuted.
(** with one Pauli operator too many, sum and difference are right *)
Theorem C48_paulis_one_more : forall A ps q junk, fits_vector A -> length ps = length A -> returns_batch (ob_add_paulis (batch_of A) (ps ++ [q]) junk) (each2 op_add_pauli A ps).
Proof. exact OperatorBatchedProofs4.paulis_ok. Qed.
Print Assumptions C48_paulis_one_more.
Theorem C48_sub_paulis_one_more : forall A ps q junk, fits_vector A -> length ps = length A -> returns_batch (ob_sub_paulis (batch_of A) (ps ++ [q]) junk) (each2 op_sub_pauli A ps).
Proof. exact RowProofs.sub_paulis_ok. Qed.
Print Assumptions C48_sub_paulis_one_more.
(** and the products never return *)
Theorem C48_mul_paulis_refuted : forall A ps, A <> [] ->
  (never_returns (ob_mul_paulis (batch_of A) ps) \/ always_throws (ob_mul_paulis (batch_of A) ps)) /\
  (never_returns (ob_mul_paulis_in_place (batch_of A) ps) \/ always_throws (ob_mul_paulis_in_place (batch_of A) ps)).
Proof. exact OperatorBatchedProofs4.mul_paulis_wrong. Qed.
Print Assumptions C48_mul_paulis_refuted.

(** Expectation values and transition amplitudes, for every grouping [trees b] of the reduction of element b. *)
Theorem C48_expectation : forall A n psi trees, 0 < n -> n <= 63 -> Forall (op_fits n) A ->
  (forall b o, nth_error A b = Some o -> reduction_of (op_iters o (2 ^ n)) (trees (N.of_nat b))) ->
  ob_expectation (batch_of A) n psi trees = Ok (map (fun o => Some (inner n psi (op_act o psi))) A).
Proof. exact OperatorBatchedProofs4.expectation_ok. Qed.
Print Assumptions C48_expectation.
Theorem C48_expectation_batch : forall A n flat trees, fits_vector A -> 0 < n -> n <= 63 -> Forall (op_fits n) A ->
  (forall b o, nth_error A b = Some o -> reduction_of (op_iters o (2 ^ n)) (trees (N.of_nat b))) ->
  ob_expectation_batch (batch_of A) n (N.of_nat (length A)) flat trees =
  Ok (map (fun '(b, o) => Some (inner n (row (2 ^ n) flat b) (op_act o (row (2 ^ n) flat b)))) (combine (seqN (N.of_nat (length A))) A)).
Proof. exact OperatorBatchedProofs4.expectation_batch_ok. Qed.
Print Assumptions C48_expectation_batch.
Theorem C48_transition : forall A n bra ket trees, 0 < n -> n <= 63 -> Forall (op_fits n) A ->
  (forall b o, nth_error A b = Some o -> reduction_of (op_iters o (2 ^ n)) (trees (N.of_nat b))) ->
  ob_transition (batch_of A) n n bra ket trees = Ok (map (fun o => Some (inner n bra (op_act o ket))) A).
Proof. exact OperatorBatchedProofs4.transition_ok. Qed.
Print Assumptions C48_transition.
Theorem C48_transition_batch : forall A n bra ket trees, fits_vector A -> 0 < n -> n <= 63 -> Forall (op_fits n) A ->
  (forall b o, nth_error A b = Some o -> reduction_of (op_iters o (2 ^ n)) (trees (N.of_nat b))) ->
  let B := N.of_nat (length A) in
  ob_transition_batch (batch_of A) n n B B bra ket trees =
  Ok (map (fun '(b, o) => Some (inner n (row (2 ^ n) bra b) (op_act o (row (2 ^ n) ket b)))) (combine (seqN B) A)).
Proof. exact OperatorBatchedProofs4.transition_batch_ok. Qed.
Print Assumptions C48_transition_batch.
Theorem C48_amplitude_throws : forall A n nb nk B Bb Bk flat bra ket trees, fits_vector A ->
  (B <> N.of_nat (length A) -> ob_expectation_batch (batch_of A) n B flat trees = Throw) /\
  (nb <> nk -> ob_transition (batch_of A) nb nk bra ket trees = Throw) /\
  (nb <> nk \/ Bb <> Bk \/ Bb <> N.of_nat (length A) -> ob_transition_batch (batch_of A) nb nk Bb Bk bra ket trees = Throw).
Proof. exact OperatorBatchedProofs4.amplitude_throws. Qed.
Print Assumptions C48_amplitude_throws.
Theorem C48_zero_qubits_refuted : exists o psi, op_fits 0 o /\ inner 0 psi (op_act o psi) <> C0 /\
  forall trees, reduction_of (ob_iters (2 ^ 0) (0, 1)) (trees 0) -> ob_expectation (batch_of [o]) 0 psi trees = Ok [Some C0].
Proof. exact OperatorBatchedProofs4.zero_qubits_wrong. Qed.
Print Assumptions C48_zero_qubits_refuted.
Example C48_amplitudes_nonvacuous : let A := [op_of_terms [Pauli C1 1 0; Pauli C1 0 2]; op_of_terms []] in
  Forall (op_fits 2) A /\ exists trees, forall b o, nth_error A b = Some o -> reduction_of (op_iters o (2 ^ 2)) (trees (N.of_nat b)).
Proof.
  split; [repeat constructor|]. exists (fun b => RLeaf (op_iters (nth (N.to_nat b) [op_of_terms [Pauli C1 1 0; Pauli C1 0 2]; op_of_terms []] (op_of_terms [])) (2 ^ 2))).
  intros [|[|[|b]]] o H; try discriminate; injection H as <-; apply reduction_exists.
Qed.

(** get_applied_states, under every schedule of every round, for operators that never flip a qubit other than qubit 0
    and for operators all of whose terms flip a qubit.
    Missing: operators that mix the two kinds, where C48_applied_race_refuted shows a data race. *)
Theorem C48_applied_partial : forall A n psi batch_size, 0 < n -> n <= 63 -> 0 < batch_size -> Forall (op_fits n) A ->
  Forall (fun o => flips_only_qubit_0 o \/ every_term_flips o) A ->
  (forall scheds, ob_applied_states (batch_of A) n psi batch_size scheds = None \/
     exists r, ob_applied_states (batch_of A) n psi batch_size scheds = Some (Ok r) /\ applied_rows n A psi r) /\
  (exists scheds r, ob_applied_states (batch_of A) n psi batch_size scheds = Some (Ok r) /\ applied_rows n A psi r).
Proof. exact OperatorBatchedProofs4.applied_ok. Qed.
Print Assumptions C48_applied_partial.
Example C48_applied_nonvacuous : let A := [op_of_terms [Pauli C1 1 0; Pauli C1 0 2]; op_of_terms [Pauli C1 2 0; Pauli C1 3 1]] in
  Forall (op_fits 2) A /\ Forall (fun o => flips_only_qubit_0 o \/ every_term_flips o) A.
Proof.
  split; [repeat constructor|]. constructor; [left; repeat constructor; discriminate|]. constructor; [right; repeat constructor; discriminate|]. constructor.
Qed.
Theorem C48_applied_race_refuted : exists o, op_fits 2 o /\ forall psi, exists scheds, ob_applied_states (batch_of [o]) 2 psi 1 scheds = Some UB.
Proof. exact OperatorBatchedProofs4.applied_race. Qed.
Print Assumptions C48_applied_race_refuted.
Theorem C48_applied_zero_rounds_refuted : forall A n psi scheds, A <> [] -> ob_applied_states (batch_of A) n psi 0 scheds = None.
Proof. exact OperatorBatchedProofs4.applied_no_progress. Qed.
Print Assumptions C48_applied_zero_rounds_refuted.
