(** Properties of the gates (C03-C13, C19, C21, C22, C27, C37, C38).

    [make vf k] is the gate factory call [k] (gate_factory.hpp), [vf] the order in which C++ evaluates the
    arguments of the constructor.  [updating n B L g psi psi'] says that update_quantum_state of [g] on B
    states of n qubits, with L SIMD lanes, turns the amplitudes [psi] into [psi'] under every schedule, without
    exception, out-of-bounds access or data race; [result] that [psi'] is the outcome of some run.  The
    amplitude of basis state i of element b is at index b * 2^n + i; B = 1 is the single state. *)
From Verif Require Import GatesProofs9.
From Coq Require Import Permutation Sorting.Sorted.

(** C03: no data race, no out-of-bounds access, one result, and every update can complete. *)
Theorem C03_gate_updates_safe : forall vf k g n B L psi, call_typed k -> make vf k = Ok g ->
  Forall (fun q => q < n) (call_operands k) -> sizes_ok n B L ->
  exists p, update_plan n (B * 2 ^ n) L g = Ok p /\
    (forall junk scheds, run_plan (B * 2 ^ n) p junk scheds psi <> DataRace /\ run_plan (B * 2 ^ n) p junk scheds psi <> OutOfBounds) /\
    (forall junk scheds junk' scheds' r r', run_plan (B * 2 ^ n) p junk scheds psi = Finished r ->
       run_plan (B * 2 ^ n) p junk' scheds' psi = Finished r' -> forall a, a < B * 2 ^ n -> r a = r' a) /\
    (forall junk, exists scheds r, run_plan (B * 2 ^ n) p junk scheds psi = Finished r).
Proof. exact call_safe. Qed.
Print Assumptions C03_gate_updates_safe.
Example C03_example : exists g, make true (CallDense [2; 0] (DMat 4 4 mat_id) [5; 1] [0; 1] false) = Ok g /\
  Forall (fun q => q < 6) (call_operands (CallDense [2; 0] (DMat 4 4 mat_id) [5; 1] [0; 1] false)) /\ sizes_ok 6 3 4.
Proof.
  eexists. split; [vm_compute; reflexivity|]. split; [repeat constructor|]. split; [reflexivity|]. split; [discriminate|].
  right. exists 2. split; reflexivity.
Qed.

(** C04: the 2x2 matrix on the pair of amplitudes that differ in the target bit, where the controls hold. *)
Theorem C04_one_target_gates : forall vf k t cs vs g n B L psi, make vf (Call1 k t cs vs) = Ok g ->
  Forall (fun q => q < n) (t :: cs) -> sizes_ok n B L ->
  updating n B L g psi (fun x =>
    if ctrl_ok (with_values cs vs) x
    then (std1_textbook k (N.b2n (N.testbit x t)) 0 * psi (N.clearbit x t)
          + std1_textbook k (N.b2n (N.testbit x t)) 1 * psi (N.setbit x t))%C
    else psi x).
Proof. exact one_target_gate. Qed.
Print Assumptions C04_one_target_gates.
Theorem C04_cx_gate : forall vf c t g n B L psi, make vf (CallCX c t) = Ok g -> Forall (fun q => q < n) [t; c] -> sizes_ok n B L ->
  updating n B L g psi (fun x => psi (if N.testbit x c then N.lxor x (2 ^ t) else x)).
Proof. exact cx_gate. Qed.
Print Assumptions C04_cx_gate.
Theorem C04_cz_gate : forall vf c t g n B L psi, make vf (CallCZ c t) = Ok g -> Forall (fun q => q < n) [t; c] -> sizes_ok n B L ->
  updating n B L g psi (fun x => if N.testbit x c && N.testbit x t then (- psi x)%C else psi x).
Proof. exact cz_gate. Qed.
Print Assumptions C04_cz_gate.
Theorem C04_ccx_gate : forall vf c1 c2 t g n B L psi, make vf (CallCCX c1 c2 t) = Ok g -> Forall (fun q => q < n) [t; c1; c2] -> sizes_ok n B L ->
  updating n B L g psi (fun x => psi (if N.testbit x c1 && N.testbit x c2 then N.lxor x (2 ^ t) else x)).
Proof. exact ccx_gate. Qed.
Print Assumptions C04_ccx_gate.
Example C04_example : exists g, make false (Call1 GH 1 [4; 0] [0; 1]) = Ok g /\ Forall (fun q => q < 5) [1; 4; 0] /\ sizes_ok 5 1 0 /\
  with_values [4; 0] [0; 1] = [(4, false); (0, true)].
Proof.
  eexists. split; [vm_compute; reflexivity|]. split; [repeat constructor|]. split; [|reflexivity].
  split; [reflexivity|]. split; [discriminate|left; reflexivity].
Qed.
Example C04_cx_example : exists g, make false (CallCX 0 3) = Ok g /\ Forall (fun q => q < 4) [3; 0].
Proof. eexists. split; [vm_compute; reflexivity|repeat constructor]. Qed.
Example C04_ccx_example : exists g, make false (CallCCX 0 2 3) = Ok g /\ Forall (fun q => q < 4) [3; 0; 2].
Proof. eexists. split; [vm_compute; reflexivity|repeat constructor]. Qed.

(** C05 *)
Theorem C05_global_phase : forall vf ph cs vs g n B L psi, make vf (CallGlobalPhase ph cs vs) = Ok g -> Forall (fun q => q < n) cs -> sizes_ok n B L ->
  updating n B L g psi (fun x => if ctrl_ok (with_values cs vs) x then (Cexpi ph * psi x)%C else psi x).
Proof. exact global_phase_gate. Qed.
Print Assumptions C05_global_phase.
Theorem C05_identity : forall vf g n B L psi, make vf CallI = Ok g -> sizes_ok n B L -> updating n B L g psi psi.
Proof. exact identity_gate. Qed.
Print Assumptions C05_identity.
Example C05_example : exists g, make false (CallGlobalPhase PI [3; 1] [1; 0]) = Ok g /\ Forall (fun q => q < 4) [3; 1].
Proof. eexists. split; [reflexivity|repeat constructor]. Qed.

(** C06 *)
Theorem C06_swap : forall vf a b cs vs g n B L psi, make vf (CallSwap a b cs vs) = Ok g -> Forall (fun q => q < n) (a :: b :: cs) -> sizes_ok n B L ->
  updating n B L g psi (fun x => if ctrl_ok (with_values cs vs) x then psi (exchange x a b) else psi x).
Proof. exact swap_gate_call. Qed.
Print Assumptions C06_swap.
Theorem C06_ecr : forall vf a b cs vs g n B L psi, make vf (CallEcr a b cs vs) = Ok g -> Forall (fun q => q < n) (a :: b :: cs) -> sizes_ok n B L ->
  updating n B L g psi (apply_mat [a; b] (with_values cs vs) ecr_textbook psi).
Proof. exact ecr_gate_call. Qed.
Print Assumptions C06_ecr.
Example C06_example : (exists g, make false (CallSwap 4 1 [2] []) = Ok g) /\ (exists g, make false (CallEcr 4 1 [2] [0]) = Ok g) /\
  (exists g, make false (CallEcr 1 4 [2] [0]) = Ok g) /\ Forall (fun q => q < 5) [4; 1; 2].
Proof. repeat split; try (eexists; vm_compute; reflexivity). repeat constructor. Qed.

(** C07, C10: bit i of a matrix index is the i-th listed target, in whatever order the targets are listed:
    [gather ts x] reads the target bits of x into an index, [scatter ts j x] writes them. *)
Theorem C07_dense_matrix : forall vf ts M cs vs u g n B L psi, make vf (CallDense ts M cs vs u) = Ok g ->
  Forall (fun q => q < n) (ts ++ cs) -> sizes_ok n B L ->
  updating n B L g psi (apply_mat ts (with_values cs vs) (m_at M) psi).
Proof. exact dense_gate. Qed.
Print Assumptions C07_dense_matrix.
Example C07_example : (exists g, make false (CallDense [] (DMat 1 1 mat_id) [2] [] true) = Ok g) /\
  (exists g, make false (CallDense [0] (DMat 2 2 mat_id) [2] [] true) = Ok g) /\
  (exists g, make false (CallDense [0; 1] (DMat 4 4 mat_id) [2] [0] true) = Ok g) /\
  (exists g, make false (CallDense [3; 0; 1] (DMat 8 8 mat_id) [2] [0] true) = Ok g).
Proof. repeat split; eexists; vm_compute; reflexivity. Qed.
Theorem C10_target_order : forall vf ts M cs vs u g n B L psi r x, make vf (CallDense ts M cs vs u) = Ok g ->
  Forall (fun q => q < n) (ts ++ cs) -> sizes_ok n B L -> result n B L g psi r -> x < B * 2 ^ n -> ctrl_ok (with_values cs vs) x = true ->
  r x = Csum (2 ^ N.of_nat (length ts)) (fun j => (m_at M (gather ts x) j * psi (scatter ts j x))%C) /\
  (forall i t, nth_error ts i = Some t -> N.testbit (gather ts x) (N.of_nat i) = N.testbit x t) /\
  (forall j i t, nth_error ts i = Some t -> N.testbit (scatter ts j x) t = N.testbit j (N.of_nat i)) /\
  (forall j q, ~ In q ts -> N.testbit (scatter ts j x) q = N.testbit x q).
Proof. exact dense_target_order. Qed.
Print Assumptions C10_target_order.

(** C08: any two lane counts (0 is the scalar code) give the same amplitudes. *)
Theorem C08_lanes_agree : forall vf k g n B L L' psi r r' a, call_typed k -> make vf k = Ok g -> Forall (fun q => q < n) (call_operands k) ->
  sizes_ok n B L -> sizes_ok n B L' -> result n B L g psi r -> result n B L' g psi r' -> a < B * 2 ^ n -> r a = r' a.
Proof. exact lanes_agree. Qed.
Print Assumptions C08_lanes_agree.
Example C08_example : sizes_ok 6 3 0 /\ sizes_ok 6 3 8 /\
  forall psi, exists r r', result 6 3 0 (EStd GH (GBase 8 16 16)) psi r /\ result 6 3 8 (EStd GH (GBase 8 16 16)) psi r'.
Proof. exact lanes_example. Qed.

(** C09 *)
Theorem C09_sparse_matrix : forall vf ts Sp cs vs g n B L psi, csr_ok Sp -> csr_rows Sp = 2 ^ N.of_nat (length ts) ->
  make vf (CallSparse ts Sp cs vs) = Ok g -> Forall (fun q => q < n) (ts ++ cs) -> sizes_ok n B L ->
  updating n B L g psi (apply_mat ts (with_values cs vs) (csr_sum Sp) psi).
Proof. exact sparse_gate. Qed.
Print Assumptions C09_sparse_matrix.
Theorem C09_sparse_equals_dense : forall vf vf' ts M Sp cs vs u g g' n B L L' psi r r' a,
  csr_ok Sp -> csr_rows Sp = 2 ^ N.of_nat (length ts) -> mat_eq (2 ^ N.of_nat (length ts)) (csr_sum Sp) (m_at M) ->
  make vf (CallDense ts M cs vs u) = Ok g -> make vf' (CallSparse ts Sp cs vs) = Ok g' ->
  Forall (fun q => q < n) (ts ++ cs) -> sizes_ok n B L -> sizes_ok n B L' ->
  result n B L g psi r -> result n B L' g' psi r' -> a < B * 2 ^ n -> r a = r' a.
Proof. exact sparse_dense. Qed.
Print Assumptions C09_sparse_equals_dense.
(** a 4x4 matrix with an empty row, stored in compressed form, on unsorted targets *)
Example C09_example : let Sp := Csr 4 [0; 2; 2; 3; 4] [0; 3; 1; 2] [C1; Ci; C1; C1] in
  csr_ok Sp /\ (exists g, make false (CallSparse [3; 1] Sp [0] []) = Ok g) /\
  csr_sum Sp 0 3 = Ci /\ csr_sum Sp 1 1 = C0 /\ csr_sum Sp 2 1 = C1.
Proof. exact sparse_example. Qed.

(** C11 *)
Theorem C11_permutation : forall vf dst g n B L psi r, make vf (CallPermutation dst) = Ok g -> N.of_nat (length dst) <= n -> sizes_ok n B L ->
  result n B L g psi r -> forall x y, x < B * 2 ^ n ->
    (forall i, i < N.of_nat (length dst) -> N.testbit y (nth (N.to_nat i) dst 0) = N.testbit x i) ->
    (forall i, N.of_nat (length dst) <= i -> N.testbit y i = N.testbit x i) -> r y = psi x.
Proof. exact permutation_gate_call. Qed.
Print Assumptions C11_permutation.
Theorem C11_permutation_runs : forall vf dst g n B L psi, make vf (CallPermutation dst) = Ok g -> N.of_nat (length dst) <= n -> sizes_ok n B L ->
  updating n B L g psi (apply_mat (seqN (N.of_nat (length dst))) [] (permutation_textbook dst) psi).
Proof. exact permutation_runs. Qed.
Print Assumptions C11_permutation_runs.
Theorem C11_accepted_iff_permutation : forall vf dst,
  ((exists g, make vf (CallPermutation dst) = Ok g) <->
   (length dst < 64)%nat /\ Permutation dst (seqN (N.of_nat (length dst)))) /\
  (make vf (CallPermutation dst) = Throw <->
   ~ ((length dst < 64)%nat /\ Permutation dst (seqN (N.of_nat (length dst))))).
Proof. exact permutation_accepted. Qed.
Print Assumptions C11_accepted_iff_permutation.
Example C11_example : (exists g, make false (CallPermutation [2; 0; 1; 3]) = Ok g) /\
  make false (CallPermutation [2; 0; 2; 3]) = Throw /\ make false (CallPermutation [1; 2]) = Throw.
Proof. split; [eexists; vm_compute; reflexivity|]. split; vm_compute; reflexivity. Qed.

(** C12: [p_bf], [p_pf] hold the X and Z parts of the string; [pauli_id_of] reads off the letter (0 I, 1 X, 2 Y, 3 Z). *)
Theorem C12_pauli_gate : forall vf p cs vs g n B L psi, p_bf p < 2 ^ 64 -> p_pf p < 2 ^ 64 -> make vf (CallPauli p cs vs) = Ok g ->
  Forall (fun q => q < n) (bits (N.lor (p_bf p) (p_pf p)) ++ cs) -> sizes_ok n B L ->
  updating n B L g psi (apply_mat (bits (N.lor (p_bf p) (p_pf p))) (with_values cs vs)
    (fun i j => (p_coef p * tensor (map (pauli_id_of (p_bf p) (p_pf p)) (bits (N.lor (p_bf p) (p_pf p)))) i j)%C) psi).
Proof. exact pauli_gate_call. Qed.
Print Assumptions C12_pauli_gate.
(** Z0 Y2 X3 with a control *)
Example C12_example : let p := Pauli Ci 12 5 in (exists g, make false (CallPauli p [1] [0]) = Ok g) /\
  bits (N.lor (p_bf p) (p_pf p)) = [0; 2; 3] /\ map (pauli_id_of (p_bf p) (p_pf p)) [0; 2; 3] = [3; 2; 1].
Proof. split; [eexists; vm_compute; reflexivity|split; vm_compute; reflexivity]. Qed.

(** C13 *)
Theorem C13_pauli_rotation : forall vf p angle cs vs g n B L psi, p_bf p < 2 ^ 64 -> p_pf p < 2 ^ 64 ->
  make vf (CallPauliRotation p angle cs vs) = Ok g ->
  Forall (fun q => q < n) (bits (N.lor (p_bf p) (p_pf p)) ++ cs) -> sizes_ok n B L ->
  updating n B L g psi (fun x =>
    if ctrl_ok (with_values cs vs) x
    then (Ccos (Cscale (angle / 2)%R (p_coef p)) * psi x
          - Ci * Csin (Cscale (angle / 2)%R (p_coef p))
            * apply_mat (bits (N.lor (p_bf p) (p_pf p))) [] (tensor (map (pauli_id_of (p_bf p) (p_pf p)) (bits (N.lor (p_bf p) (p_pf p))))) psi x)%C
    else psi x).
Proof. exact pauli_rotation_gate_call. Qed.
Print Assumptions C13_pauli_rotation.
Example C13_example : exists g, make false (CallPauliRotation (Pauli C1 12 5) PI [1] [0]) = Ok g.
Proof. eexists. vm_compute. reflexivity. Qed.

(** C19: the gate followed by its inverse, and the inverse followed by the gate, restore the state.  A Pauli gate
    needs coef^2 = 1 and a DenseMatrix declared unitary must be unitary ([call_invertible]). *)
Theorem C19_inverse_partial : forall vf k g g' n B L psi, call_typed k -> make vf k = Ok g -> get_inverse g = Ok g' -> call_invertible k ->
  Forall (fun q => q < n) (call_operands k) -> sizes_ok n B L ->
  (exists phi, updating n B L g psi phi) /\
  (forall r, result n B L g psi r -> updating n B L g' r psi) /\
  (exists phi, updating n B L g' psi phi) /\
  (forall r, result n B L g' psi r -> updating n B L g r psi).
Proof. exact inverse_restores. Qed.
Print Assumptions C19_inverse_partial.
(** get_inverse throws exactly for P0, P1, SparseMatrix and DenseMatrix not declared unitary. *)
Theorem C19_inverse_available : forall vf k g, call_typed k -> make vf k = Ok g ->
  if has_inverse k then exists g', get_inverse g = Ok g' else get_inverse g = Throw.
Proof. exact inverse_available. Qed.
Print Assumptions C19_inverse_available.
(** Without coef^2 = 1 the claim is false: the "inverse" of the Pauli gate 2X is 2X. *)
Theorem C19_inverse_refuted : exists k g g' psi r r', call_typed k /\ make false k = Ok g /\ get_inverse g = Ok g' /\
  Forall (fun q => q < 1) (call_operands k) /\ result 1 1 0 g psi r /\ result 1 1 0 g' r r' /\ r' 0 <> psi 0.
Proof. exact pauli_inverse_wrong. Qed.
Print Assumptions C19_inverse_refuted.
Example C19_example : exists g g', make false (Call1 (GU2 1 2) 1 [0] []) = Ok g /\ get_inverse g = Ok g' /\ g' <> g.
Proof. exact inverse_example. Qed.

(** C21: the squared norm of every element of the batch is unchanged. *)
Theorem C21_norm_preserved : forall vf k g n B L psi, call_typed k -> make vf k = Ok g -> call_unitary k ->
  Forall (fun q => q < n) (call_operands k) -> sizes_ok n B L ->
  (exists phi, updating n B L g psi phi) /\
  forall r b, result n B L g psi r -> b < B -> norm2 n (batch n b r) = norm2 n (batch n b psi).
Proof. exact norm_preserved. Qed.
Print Assumptions C21_norm_preserved.
Example C21_example : call_unitary (CallPauli (Pauli Ci 5 3) [7] []) /\ call_unitary (Call1 (GU3 1 2 3) 0 [1] []) /\
  exists g, make false (CallPauli (Pauli Ci 5 3) [7] []) = Ok g.
Proof. exact norm_example. Qed.

(** C22: the reported matrix on the reported targets under the reported controls is what the update applies. *)
Theorem C22_matrix_is_update : forall vf k g n B L psi, call_typed k -> make vf k = Ok g -> Forall (fun q => q < n) (call_operands k) -> sizes_ok n B L ->
  m_rows (get_matrix g) = 2 ^ N.of_nat (length (gate_target_list g)) /\
  m_cols (get_matrix g) = 2 ^ N.of_nat (length (gate_target_list g)) /\
  updating n B L g psi (apply_mat (gate_target_list g)
    (combine (gate_control_list g) (map (fun v => v =? 1) (gate_control_values g))) (m_at (get_matrix g)) psi).
Proof. exact matrix_update. Qed.
Print Assumptions C22_matrix_is_update.
Theorem C22_reported_operands : forall vf k g, call_typed k -> make vf k = Ok g ->
  Permutation (gate_target_list g) (call_targets k) /\ StronglySorted N.lt (gate_target_list g) /\
  Permutation (combine (gate_control_list g) (map (fun v => v =? 1) (gate_control_values g))) (call_controls k).
Proof. exact reported_operands. Qed.
Print Assumptions C22_reported_operands.
Example C22_example : exists g, make false (CallDense [3; 1] (DMat 4 4 (fun i j => if (i =? 1) && (j =? 2) then C1 else C0)) [4; 0] [1; 0] false) = Ok g /\
  gate_target_list g = [1; 3] /\ gate_control_list g = [0; 4] /\ gate_control_values g = [0; 1] /\ m_at (get_matrix g) 2 1 = C1.
Proof. eexists. split; [vm_compute; reflexivity|]. repeat split; vm_compute; reflexivity. Qed.

(** C27: element b of the result is the result of running the gate on element b alone. *)
Theorem C27_batched_gate : forall vf k g n B L L' psi r b r', call_typed k -> make vf k = Ok g ->
  Forall (fun q => q < n) (call_operands k) -> sizes_ok n B L -> sizes_ok n 1 L' -> b < B ->
  result n B L g psi r -> result n 1 L' g (batch n b psi) r' -> forall i, i < 2 ^ n -> batch n b r i = r' i.
Proof. exact batched_gate. Qed.
Print Assumptions C27_batched_gate.
Example C27_example : sizes_ok 6 3 0 /\ sizes_ok 6 1 8 /\
  forall psi, exists r r', result 6 3 0 (EStd GH (GBase 8 16 16)) psi r /\ result 6 1 8 (EStd GH (GBase 8 16 16)) (batch 6 2 psi) r'.
Proof. exact batched_example. Qed.

(** C37: valid arguments are accepted in every argument evaluation order; ill-formed ones throw. *)
Theorem C37_valid_accepted : forall vf k, call_data k -> call_valid k -> exists g, make vf k = Ok g.
Proof. exact make_complete. Qed.
Print Assumptions C37_valid_accepted.
Theorem C37_accepted_valid_partial : forall vf k g, call_data k -> size_checked k -> make vf k = Ok g -> call_valid k.
Proof. exact make_sound. Qed.
Print Assumptions C37_accepted_valid_partial.
Theorem C37_ill_formed_throws_partial : forall vf k, call_data k -> size_checked k -> few_targets k -> order_ok vf (call_control_list k) ->
  ~ call_valid k -> make vf k = Throw.
Proof. exact make_rejects. Qed.
Print Assumptions C37_ill_formed_throws_partial.
Theorem C37_sparse_operands_throw : forall vf ts Sp cs vs, is_sorted ts = true -> order_ok vf cs -> ~ valid_controls ts cs vs ->
  make vf (CallSparse ts Sp cs vs) = Throw.
Proof. exact sparse_rejects. Qed.
Print Assumptions C37_sparse_operands_throw.
(** SparseMatrix accepts a 4x4 matrix for one target; applying it reads outside the state. *)
Theorem C37_sparse_size_refuted : exists ts Sp g p junk scheds, csr_ok Sp /\ csr_rows Sp <> 2 ^ N.of_nat (length ts) /\
  make false (CallSparse ts Sp [] []) = Ok g /\ update_plan 1 2 0 g = Ok p /\
  run_plan 2 p junk scheds (fun _ => C1) = OutOfBounds.
Proof. exact sparse_size_unchecked. Qed.
Print Assumptions C37_sparse_size_refuted.
(** With the argument order C++ is free to choose, an out-of-range control is undefined behaviour, not an exception. *)
Theorem C37_argument_order_refuted : exists k, call_data k /\ ~ call_valid k /\ make true k = UB /\ make false k = Throw.
Proof. exact argument_order_matters. Qed.
Print Assumptions C37_argument_order_refuted.
Example C37_example : call_valid (CallSwap 3 1 [0; 62] [1; 0]) /\ ~ call_valid (CallSwap 3 1 [0; 3] [1; 0]).
Proof. exact valid_example. Qed.

(** C38: a gate whose operands are not all below n throws and changes nothing ([update_plan] is [Throw]: no loop runs). *)
Theorem C38_out_of_range_throws_partial : forall vf k g n D L, call_typed k -> make vf k = Ok g -> call_checked k -> n < 64 ->
  ~ Forall (fun q => q < n) (call_operands k) -> update_plan n D L g = Throw.
Proof. exact call_out_of_range. Qed.
Print Assumptions C38_out_of_range_throws_partial.
(** Pauli gates are not checked: X on qubit 3 of a one-qubit state accesses memory outside the state. *)
Theorem C38_pauli_refuted : exists k g p junk scheds, call_typed k /\ make false k = Ok g /\ update_plan 1 2 0 g = Ok p /\
  run_plan 2 p junk scheds (fun _ => C1) = OutOfBounds.
Proof. exact pauli_out_of_bounds. Qed.
Print Assumptions C38_pauli_refuted.
(** On a batched state the access may stay inside the memory and mix different elements of the batch. *)
Theorem C38_pauli_batch_refuted : exists k g, call_typed k /\ make false k = Ok g /\ ~ Forall (fun q => q < 1) (call_operands k) /\
  forall psi, exists r, result 1 2 0 g psi r /\ batch 1 0 r 0 = batch 1 1 psi 0.
Proof. exact pauli_mixes_batches. Qed.
Print Assumptions C38_pauli_batch_refuted.
Example C38_example : exists g, make false (Call1 GX 3 [1] []) = Ok g /\ ~ Forall (fun q => q < 3) (call_operands (Call1 GX 3 [1] [])).
Proof. exact out_of_range_example. Qed.
