(** Density matrices: C33 to C36 and C54. *)
From Verif Require Import GateSpec StateSpec DensitySpec.
From Verif Require DensityProofs8.

(** C33: a gate with matrix U turns rho into U rho U^dagger, under every schedule.
    Up to 31 qubits: from 32 on the 2^n x 2^n matrix has more entries than a 64-bit number can count. *)
Theorem C33_update : forall vf k g n w, dm_supported k = true -> make vf k = Ok g -> Forall (fun q => q < n) (call_operands k) -> n < 32 ->
  becomes n (dm_update n g) w (sandwich (2 ^ n) (full_matrix k) (rho w)) (d_herm w).
Proof. exact DensityProofs4.dm_update_call. Qed.
Print Assumptions C33_update.
(** the remaining gates, and operands that are out of range, are refused *)
Theorem C33_refused : forall vf k g n w, make vf k = Ok g -> call_typed k -> n < 64 ->
  dm_supported k = false \/ ~ Forall (fun q => q < n) (call_operands k) -> refuses (dm_update n g) w.
Proof.
  exact (fun vf k g n w H Hty Hn Hor => match Hor with
    | or_introl Hs => DensityProofs4.dm_update_unsupported vf k g n w Hs H
    | or_intror HF => DensityProofs4.dm_update_out_of_range vf k g n w H Hty Hn HF end).
Qed.
Print Assumptions C33_refused.

(** C34: unitary gates keep the trace and the purity; *)
Theorem C34_trace : forall vf k g n w, dm_supported k = true -> make vf k = Ok g -> call_unitary k -> Forall (fun q => q < n) (call_operands k) -> n < 32 ->
  exists t, yields (get_trace n) w t /\ runs (dm_update n g;~ get_trace n) w (done (fun t' _ => t' = t)).
Proof. exact DensityProofs8.update_trace. Qed.
Print Assumptions C34_trace.
Theorem C34_purity : forall vf k g n w, dm_supported k = true -> make vf k = Ok g -> call_unitary k -> Forall (fun q => q < n) (call_operands k) -> n < 32 ->
  d_herm w = true -> hermitian (2 ^ n) (rho w) ->
  exists p, yields (get_purity n) w p /\ runs (dm_update n g;~ get_purity n) w (done (fun p' _ => p' = p)).
Proof. exact DensityProofs8.update_purity. Qed.
Print Assumptions C34_purity.
(** all gates keep a matrix Hermitian and positive semidefinite *)
Theorem C34_hermitian : forall vf k g n w, dm_supported k = true -> make vf k = Ok g -> Forall (fun q => q < n) (call_operands k) -> n < 32 ->
  hermitian (2 ^ n) (rho w) -> runs (dm_update n g) w (done (fun _ w' => hermitian (2 ^ n) (rho w') /\ d_herm w' = d_herm w)).
Proof. exact DensityProofs8.update_hermitian. Qed.
Print Assumptions C34_hermitian.
Theorem C34_positive : forall vf k g n w, dm_supported k = true -> make vf k = Ok g -> Forall (fun q => q < n) (call_operands k) -> n < 32 ->
  psd n (rho w) -> runs (dm_update n g) w (done (fun _ w' => psd n (rho w'))).
Proof. exact DensityProofs8.update_psd. Qed.
Print Assumptions C34_positive.
Example C33_C34_nonvacuous : exists g, make true (CallCX 0 1) = Ok g /\ dm_supported (CallCX 0 1) = true /\ call_unitary (CallCX 0 1) /\
  Forall (fun q => q < 2) (call_operands (CallCX 0 1)) /\
  exists w, hermitian (2 ^ 2) (rho w) /\ psd 2 (rho w) /\ d_herm w = true /\ trace (2 ^ 2) (rho w) = C1.
Proof. exact DensityProofs8.density_example. Qed.

(** C35: the partial trace, *)
Theorem C35_partial_trace : forall n qs w, n < 32 -> NoDup qs -> Forall (fun q => q < n) qs ->
  creates (n - N.of_nat (length qs)) (get_partial_trace n qs) w (ptrace n qs (rho w)) (d_herm w).
Proof. exact DensityProofs7.partial_trace_ok. Qed.
Print Assumptions C35_partial_trace.
Theorem C35_invalid_throws : forall n qs w, n < 64 -> ~ (NoDup qs /\ Forall (fun q => q < n) qs) -> refuses (get_partial_trace n qs) w.
Proof. exact DensityProofs7.partial_trace_throws. Qed.
Print Assumptions C35_invalid_throws.
(** for which: tracing nothing out changes nothing, the order of the qubits does not matter, *)
Theorem C35_empty : forall n M, mat_eq (2 ^ n) (ptrace n [] M) M.
Proof. exact DensityProofs7.ptrace_nil. Qed.
Print Assumptions C35_empty.
Theorem C35_order : forall n qs qs' M, NoDup qs -> Permutation.Permutation qs qs' -> forall i j, ptrace n qs M i j = ptrace n qs' M i j.
Proof. exact DensityProofs7.ptrace_perm. Qed.
Print Assumptions C35_order.
(** trace, hermiticity and positivity are kept, *)
Theorem C35_trace : forall n qs M, NoDup qs -> Forall (fun q => q < n) qs ->
  trace (2 ^ (n - N.of_nat (length qs))) (ptrace n qs M) = trace (2 ^ n) M.
Proof. exact DensityProofs7.ptrace_trace. Qed.
Print Assumptions C35_trace.
Theorem C35_hermitian : forall n qs M, NoDup qs -> Forall (fun q => q < n) qs -> hermitian (2 ^ n) M ->
  hermitian (2 ^ (n - N.of_nat (length qs))) (ptrace n qs M).
Proof. exact DensityProofs7.ptrace_hermitian. Qed.
Print Assumptions C35_hermitian.
Theorem C35_positive : forall n qs M, NoDup qs -> Forall (fun q => q < n) qs -> psd n M -> psd (n - N.of_nat (length qs)) (ptrace n qs M).
Proof. exact DensityProofs7.ptrace_psd. Qed.
Print Assumptions C35_positive.
(** a product leaves its factor, times the trace of the other one, *)
Theorem C35_product : forall n qs M A B, NoDup qs -> Forall (fun q => q < n) qs ->
  (forall i j z z', i < 2 ^ (n - N.of_nat (length qs)) -> j < 2 ^ (n - N.of_nat (length qs)) -> z < 2 ^ N.of_nat (length qs) -> z' < 2 ^ N.of_nat (length qs) ->
     M (joint n qs i z) (joint n qs j z') = (A i j * B z z')%C) ->
  mat_eq (2 ^ (n - N.of_nat (length qs))) (ptrace n qs M) (fun i j => (trace (2 ^ N.of_nat (length qs)) B * A i j)%C).
Proof. exact DensityProofs7.ptrace_product. Qed.
Print Assumptions C35_product.
(** and the diagonal holds the probabilities of the remaining qubits *)
Theorem C35_marginal : forall n qs M i, NoDup qs -> Forall (fun q => q < n) qs -> i < 2 ^ (n - N.of_nat (length qs)) ->
  fst (ptrace n qs M i i) = diag_prob n (fun x => gather (rest_of n qs) x =? i) M.
Proof. exact DensityProofs7.ptrace_marginal. Qed.
Print Assumptions C35_marginal.
(** joint numbers the basis states: each is reached once *)
Theorem C35_joint : forall n qs, NoDup qs -> Forall (fun q => q < n) qs ->
  (forall i z, i < 2 ^ N.of_nat (length (rest_of n qs)) -> z < 2 ^ N.of_nat (length qs) ->
     joint n qs i z < 2 ^ n /\ gather (rest_of n qs) (joint n qs i z) = i /\ gather qs (joint n qs i z) = z) /\
  (forall x, x < 2 ^ n -> joint n qs (gather (rest_of n qs) x) (gather qs x) = x).
Proof.
  exact (fun n qs Hnd HF => conj (fun i z Hi Hz => conj (DensityProofs7.joint_lt n qs i z Hnd HF)
    (conj (DensityProofs7.joint_rest n qs i z Hi) (DensityProofs7.joint_traced n qs i z Hnd Hz))) (fun x Hx => DensityProofs7.joint_split n qs x Hnd Hx)).
Qed.
Print Assumptions C35_joint.
Example C35_nonvacuous : NoDup [2; 0] /\ Forall (fun q => q < 3) [2; 0] /\
  rest_of 3 [2; 0] = [1] /\ joint 3 [2; 0] 1 1 = 6 /\
  (forall (A B : matrix) i j z z', i < 2 -> j < 2 -> z < 4 -> z' < 4 ->
     let M x y := (A (gather [1] x) (gather [1] y) * B (gather [2; 0] x) (gather [2; 0] y))%C in
     M (joint 3 [2; 0] i z) (joint 3 [2; 0] j z') = (A i j * B z z')%C).
Proof. exact DensityProofs8.partial_trace_example. Qed.

(** C36: after loading a state vector the density matrix gives the answers the state vector gives, *)
Theorem C36_same_answers : forall n psi, n < 64 -> forall sv w, (forall x, x < 2 ^ n -> w_amp sv x = psi x) ->
  runs (dm_load_state n n psi) w (done (fun _ d =>
    (forall i j, i < 2 ^ n -> j < 2 ^ n -> yields (get_coherence_at n i j) d (psi i * Cconj (psi j))%C) /\
    (forall q p, q < n -> returns (get_zero_probability n q) sv p -> yields (dm_get_zero_probability n q) d p) /\
    (forall vs p, N.of_nat (length vs) = n -> Forall (fun v => v <= 2) vs -> returns (get_marginal_probability n vs) sv p -> yields (dm_get_marginal_probability n vs) d p) /\
    (forall p, returns (get_computational_basis_entropy n) sv p -> yields (dm_get_entropy n) d p) /\
    (forall p, returns (get_squared_norm n) sv p -> yields (get_trace n) d (RtoC p) /\ yields (get_purity n) d (p * p)%R) /\
    (forall count rounds, dm_sampling n d count rounds = Ok (sampling n psi count rounds)))).
Proof. exact DensityProofs8.same_answers. Qed.
Print Assumptions C36_same_answers.
(** it is Hermitian and positive semidefinite, *)
Theorem C36_density : forall n psi w, runs (dm_load_state n n psi) w (done (fun _ d => mat_eq (2 ^ n) (rho d) (pure psi) /\ d_herm d = true)) /\
  hermitian (2 ^ n) (pure psi) /\ psd n (pure psi).
Proof. exact (fun n psi w => conj (DensityProofs8.load_state_ok n psi w) (conj (DensityProofs6.pure_hermitian (2 ^ n) psi) (DensityProofs6.pure_psd n psi))). Qed.
Print Assumptions C36_density.
(** and updating after loading is loading after updating *)
Theorem C36_evolve : forall vf k g n L psi r w, dm_supported k = true -> make vf k = Ok g -> Forall (fun q => q < n) (call_operands k) -> n < 32 -> lanes_ok L ->
  result n 1 L g psi r -> becomes n (dm_load_state n n psi;~ dm_update n g) w (pure r) true.
Proof. exact DensityProofs8.evolve_then_convert. Qed.
Print Assumptions C36_evolve.

(** C54: any sequence of calls does to the matrix and its flag what the calls say; the first call that throws changes nothing *)
Theorem C54_history : forall n l, n < 32 -> forall w A, mat_eq (2 ^ n) (rho w) A -> dops_ok n l A ->
  runs (run_dops n l) w (fun o => match matrix_ops n l A (d_herm w) with
    | (A', h', true) => exists w', o = HThrown w' /\ mat_eq (2 ^ n) (rho w') A' /\ d_herm w' = h'
    | (A', h', false) => exists w', o = HDone tt w' /\ mat_eq (2 ^ n) (rho w') A' /\ d_herm w' = h'
    end).
Proof. exact DensityProofs5.run_dops_ok. Qed.
Print Assumptions C54_history.
(** a matrix that carries the flag is Hermitian if what the caller claimed is true *)
Theorem C54_flag : forall n l A h A' h' b, all_honest n l A -> (h = true -> hermitian (2 ^ n) A) -> matrix_ops n l A h = (A', h', b) ->
  h' = true -> hermitian (2 ^ n) A'.
Proof. exact DensityProofs6.flags_sound. Qed.
Print Assumptions C54_flag.
(** without the condition on set_coherence_pair_at it need not be *)
Theorem C54_pair_on_diagonal_refuted : exists (n : N) (l : list dop) A',
  dops_ok n l (fun _ _ => C0) /\ matrix_ops n l (fun _ _ => C0) false = (A', true, false) /\ ~ hermitian (2 ^ n) A'.
Proof. exact DensityProofs6.pair_flag_wrong. Qed.
Print Assumptions C54_pair_on_diagonal_refuted.
Example C54_nonvacuous : exists g, make true (Call1 GH 0 [] []) = Ok g /\
  dops_ok 2 [DBasis 2; DGate true (Call1 GH 0 [] []); DMultiply (2, 0)%R; DSetPair 0 1 Ci; DBasis 4] (fun _ _ => C0) /\
  all_honest 2 [DBasis 2; DGate true (Call1 GH 0 [] []); DMultiply (2, 0)%R; DSetPair 0 1 Ci; DBasis 4] (fun _ _ => C0) /\
  snd (matrix_ops 2 [DBasis 2; DGate true (Call1 GH 0 [] []); DMultiply (2, 0)%R; DSetPair 0 1 Ci; DBasis 4] (fun _ _ => C0) false) = true.
Proof. exact DensityProofs8.history_example. Qed.
(** the readings *)
Theorem C54_coherence : forall n r c w, (r < 2 ^ n -> c < 2 ^ n -> yields (get_coherence_at n r c) w (rho w r c)) /\
  (2 ^ n <= r \/ 2 ^ n <= c -> refuses (get_coherence_at n r c) w).
Proof. exact (fun n r c w => conj (DensityProofs5.get_coherence_ok n r c w) (DensityProofs5.get_coherence_throws n r c w)). Qed.
Print Assumptions C54_coherence.
Theorem C54_trace : forall n w, yields (get_trace n) w (trace (2 ^ n) (rho w)).
Proof. exact DensityProofs5.trace_ok. Qed.
Print Assumptions C54_trace.
Theorem C54_normalized : forall n w, trace (2 ^ n) (rho w) <> C0 ->
  runs (dm_normalize n;~ get_trace n) w (done (fun t _ => t = C1)).
Proof. exact DensityProofs8.normalized_one. Qed.
Print Assumptions C54_normalized.
Theorem C54_purity : forall n w, d_herm w = true -> hermitian (2 ^ n) (rho w) ->
  exists p, yields (get_purity n) w p /\ RtoC p = trace (2 ^ n) (mat_mul (2 ^ n) (rho w) (rho w)).
Proof. exact DensityProofs5.purity_square. Qed.
Print Assumptions C54_purity.
Theorem C54_zero_probability : forall n q w, n < 64 -> q < n -> d_herm w = true ->
  yields (dm_get_zero_probability n q) w (diag_prob n (fun x => negb (N.testbit x q)) (rho w)).
Proof. exact DensityProofs5.dm_zero_probability_ok. Qed.
Print Assumptions C54_zero_probability.
Theorem C54_marginal : forall n vs w, n < 64 -> N.of_nat (length vs) = n -> Forall (fun v => v <= 2) vs -> d_herm w = true ->
  yields (dm_get_marginal_probability n vs) w (diag_prob n (shows vs) (rho w)).
Proof. exact DensityProofs5.dm_marginal_ok. Qed.
Print Assumptions C54_marginal.
Theorem C54_entropy : forall n w, d_herm w = true -> yields (dm_get_entropy n) w
  (Rsuml (fun x => if Rlt_dec 0 (fst (rho w x x)) then (- fst (rho w x x) * log2 (fst (rho w x x)))%R else 0%R) (seqN (2 ^ n))).
Proof. exact DensityProofs5.dm_entropy_ok. Qed.
Print Assumptions C54_entropy.
(** samples follow the diagonal *)
Theorem C54_sampling : forall n w count rounds l, (forall draw i, In draw rounds -> (0 <= draw i < 1)%R) ->
  d_herm w = true -> (forall x, x < 2 ^ n -> (0 <= fst (rho w x x))%R) ->
  dm_sampling n w count rounds = Ok (Some l) ->
  length l = N.to_nat count /\ forall x, In x l -> x < 2 ^ n /\ exists draw i, In draw rounds /\ diag_selects (rho w) (draw i) x.
Proof. exact DensityProofs5.dm_sampling_sound. Qed.
Print Assumptions C54_sampling.
Theorem C54_sampling_one_round : forall n w count draw rest, (forall i, 0 <= draw i < diag_prob n (fun _ => true) (rho w))%R ->
  d_herm w = true -> (forall x, x < 2 ^ n -> (0 <= fst (rho w x x))%R) ->
  exists l, dm_sampling n w count (draw :: rest) = Ok (Some l) /\ length l = N.to_nat count /\
    forall k, k < count -> diag_selects (rho w) (draw k) (nth (N.to_nat k) l 0).
Proof. exact DensityProofs5.dm_sampling_one_round. Qed.
Print Assumptions C54_sampling_one_round.
Theorem C54_selects_unique : forall n M r x y, (forall x, x < 2 ^ n -> (0 <= fst (M x x))%R) -> x < 2 ^ n -> y < 2 ^ n ->
  diag_selects M r x -> diag_selects M r y -> x = y.
Proof. exact DensityProofs5.diag_selects_unique. Qed.
Print Assumptions C54_selects_unique.
(** positive semidefinite matrices have such a diagonal *)
Theorem C54_diagonal : forall n M x, psd n M -> x < 2 ^ n -> (0 <= fst (M x x))%R.
Proof. exact DensityProofs5.psd_diag. Qed.
Print Assumptions C54_diagonal.
(** matrices not known to be Hermitian, and invalid arguments, are refused *)
Theorem C54_refused : forall n q vs count rounds w,
  (n <= q \/ d_herm w = false -> refuses (dm_get_zero_probability n q) w) /\
  (N.of_nat (length vs) <> n \/ ~ Forall (fun v => v <= 2) vs \/ d_herm w = false -> refuses (dm_get_marginal_probability n vs) w) /\
  (d_herm w = false -> refuses (get_purity n) w /\ refuses (dm_get_entropy n) w /\ dm_sampling n w count rounds = Throw).
Proof.
  exact (fun n q vs count rounds w => conj (DensityProofs5.dm_zero_probability_throws n q w) (conj (DensityProofs5.dm_marginal_throws n vs w)
    (fun H => conj (DensityProofs5.purity_throws n w H) (conj (DensityProofs5.entropy_throws n w H) (DensityProofs5.dm_sampling_throws n w count rounds H))))).
Qed.
Print Assumptions C54_refused.
Example C54_nonvacuous_readings : (exists w, trace (2 ^ 1) (rho w) <> C0 /\ trace (2 ^ 1) (rho w) <> C1) /\
  exists w, d_herm w = true /\ (forall x, x < 2 ^ 1 -> (0 <= fst (rho w x x))%R) /\
    (forall i : N, 0 <= (fun _ => 1 / 2)%R i < diag_prob 1 (fun _ => true) (rho w))%R.
Proof. exact (conj DensityProofs8.normalize_example DensityProofs8.sampling_example). Qed.
