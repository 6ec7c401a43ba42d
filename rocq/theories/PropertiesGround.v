(** C57: solve_ground_state_by_power_method.
    [solves p w Q]: every execution returns an eigenvalue and a state with Q.  [shift_of o mu]: mu, or by default the sum
    of the absolute values of the coefficients.  [shifted_power o mu k psi] = (A - mu)^k psi.  [energy_at_least] /
    [energy_at_most]: bounds of <phi|A|phi> / <phi|phi> for every phi.  [residual] = |A psi - E psi|^2. *)
From Verif Require Import GroundSpec.
From Verif Require GroundProofs4 GroundProofs9.
Open Scope N_scope.

(** C57: the result is (A - mu)^k psi, normalised, and its energy; *)
Theorem C57_result : forall o n, solvable n o -> o_herm o = true -> forall mu w k,
  let phi := shifted_power o (shift_of o mu) k (w_amp w) in sqnorm n phi <> 0%R ->
  solves (solve_ground_state_by_power_method o n k mu) w (fun E psi =>
    (forall x, x < 2 ^ n -> psi x = if Nat.eqb k 0 then w_amp w x else Cscale (/ sqrt (sqnorm n phi)) (phi x)) /\ E = inner n psi (op_act o psi)).
Proof. exact GroundProofs3.power_result. Qed.
Print Assumptions C57_result.
(** it is not a number when that vector is 0. *)
Theorem C57_zero_vector : forall o n, solvable n o -> o_herm o = true -> forall mu w k, (0 < k)%nat ->
  sqnorm n (shifted_power o (shift_of o mu) k (w_amp w)) = 0%R -> undefined (solve_ground_state_by_power_method o n k mu) w.
Proof. exact GroundProofs3.power_undefined. Qed.
Print Assumptions C57_zero_vector.
Theorem C57_refused : forall o n k mu w, o_terms o = [] \/ o_herm o = false -> throws (solve_ground_state_by_power_method o n k mu) w.
Proof. exact GroundProofs3.power_throws. Qed.
Print Assumptions C57_refused.
(** C57: the default shift is above every energy. *)
Theorem C57_default_shift : forall n o, op_fits n o -> real_coefs o -> energy_at_most n o (coef_sum o) /\ energy_at_least n o (- coef_sum o)%R.
Proof. exact GroundProofs2.default_shift_bounds. Qed.
Print Assumptions C57_default_shift.
(** C57: the eigenvalue is real and never below the ground-state energy. *)
Theorem C57_variational : forall o n, solvable n o -> o_herm o = true -> forall mu w, self_adjoint n (op_act o) -> sqnorm n (w_amp w) = 1%R -> forall k lambda,
  sqnorm n (shifted_power o (shift_of o mu) k (w_amp w)) <> 0%R -> energy_at_least n o lambda ->
  solves (solve_ground_state_by_power_method o n k mu) w (fun E psi => snd E = 0%R /\ (lambda <= fst E)%R /\ sqnorm n psi = 1%R).
Proof. exact GroundProofs3.power_variational. Qed.
Print Assumptions C57_variational.
(** C57: one more iteration never raises it. *)
Theorem C57_never_worse : forall o n, solvable n o -> o_herm o = true -> forall mu w, self_adjoint n (op_act o) -> sqnorm n (w_amp w) = 1%R ->
  forall m, shift_of o mu = RtoC m -> energy_at_most n o m -> forall k, sqnorm n (shifted_power o (shift_of o mu) (S k) (w_amp w)) <> 0%R ->
  solves (solve_ground_state_by_power_method o n k mu) w (fun E _ =>
    solves (solve_ground_state_by_power_method o n (S k) mu) w (fun E' _ => (fst E' <= fst E)%R)).
Proof. exact GroundProofs3.power_never_worse. Qed.
Print Assumptions C57_never_worse.
(** C57: with enough iterations it is as close to the ground-state energy, and the state as close to an eigenstate, as
    wanted, if the start is not orthogonal to a ground state. *)
Theorem C57_converges : forall o n, solvable n o -> o_herm o = true -> forall mu w, self_adjoint n (op_act o) -> sqnorm n (w_amp w) = 1%R ->
  forall m, shift_of o mu = RtoC m -> energy_at_most n o m ->
  forall lambda g, ground_state n o lambda g -> inner n g (w_amp w) <> C0 -> (lambda < m)%R ->
  forall eps, (0 < eps)%R -> exists K, forall k, (K <= k)%nat ->
  solves (solve_ground_state_by_power_method o n k mu) w (fun E psi =>
    snd E = 0%R /\ (lambda <= fst E < lambda + eps)%R /\ sqnorm n psi = 1%R /\ (residual n o E psi < eps)%R).
Proof. exact GroundProofs3.power_converges. Qed.
Print Assumptions C57_converges.
(** C57: an eigenstate is never left, *)
Theorem C57_eigenstate : forall n o mu m e k w, solvable n o -> o_herm o = true -> shift_of o mu = RtoC m -> sqnorm n (w_amp w) = 1%R ->
  eigenstate n o e (w_amp w) -> e <> m -> solves (solve_ground_state_by_power_method o n k mu) w (fun E _ => E = RtoC e).
Proof. exact GroundProofs4.power_stuck. Qed.
Print Assumptions C57_eigenstate.
(** so that from an unlucky start the ground state is not found, *)
Theorem C57_unlucky_start_refuted :
  solvable 2 unlucky /\ o_herm unlucky = true /\ sqnorm 2 (basis 1) = 1%R /\ ground_state 2 unlucky (-3) (basis 3) /\
  forall k, solves (solve_ground_state_by_power_method unlucky 2 k None) (start (basis 1)) (fun E _ => E = RtoC (-1)).
Proof. exact GroundProofs4.unlucky_start. Qed.
Print Assumptions C57_unlucky_start_refuted.
(** nor with a shift that is not above every energy; *)
Theorem C57_small_shift_refuted :
  solvable 1 z_op /\ o_herm z_op = true /\ sqnorm 1 plus = 1%R /\ ground_state 1 z_op (-1) (basis 1) /\ inner 1 (basis 1) plus <> C0 /\
  forall k, solves (solve_ground_state_by_power_method z_op 1 k (Some C0)) (start plus) (fun E _ => E = RtoC 0).
Proof. exact GroundProofs4.small_shift. Qed.
Print Assumptions C57_small_shift_refuted.
(** and for the identity operator, of which every state is a ground state, the result is not a number. *)
Theorem C57_identity_refuted : forall n psi k, 0 < n -> n <= 63 -> (0 < k)%nat ->
  ground_state n one_op 1 (basis 0) /\ undefined (solve_ground_state_by_power_method one_op n k None) (start psi).
Proof. exact GroundProofs4.identity_nan. Qed.
Print Assumptions C57_identity_refuted.

(** The hypotheses are met. *)
Example C57_example : solvable 1 z_op /\ o_herm z_op = true /\ self_adjoint 1 (op_act z_op) /\ real_coefs z_op /\ sqnorm 1 plus = 1%R /\
  shift_of z_op None = RtoC 1 /\ energy_at_most 1 z_op 1 /\ ground_state 1 z_op (-1) (basis 1) /\ inner 1 (basis 1) plus <> C0 /\
  forall k, sqnorm 1 (shifted_power z_op (shift_of z_op None) k plus) <> 0%R.
Proof. exact GroundProofs4.z_example. Qed.

(** C58: solve_ground_state_by_arnoldi_method, for any correct solver of the small eigenvalue problem.
    [krylov o mu psi] = psi, (A - mu) psi, (A - mu)^2 psi, ...; [in_span n f k phi]: phi is a linear combination of the first
    k of f.  [solves_with solver p w Q]: every execution returns an eigenvalue and a state with Q, unless the solver failed,
    and then it throws.  The operator need not be Hermitian. *)
Theorem C58_galerkin : forall o n, solvable n o -> forall solver, solver_correct solver -> forall mu w, sqnorm n (w_amp w) = 1%R -> forall k,
  let P := krylov o (shift_of o mu) (w_amp w) in (0 < k)%nat -> lin_independent n P k ->
  solves_with solver (solve_ground_state_by_arnoldi_method o n solver k mu) w (fun E psi =>
    sqnorm n psi = 1%R /\ in_span n P k psi /\ E = inner n psi (op_act o psi) /\
    forall phi, in_span n P k phi -> inner n phi (fun x => op_act o psi x - E * psi x)%C = C0).
Proof. exact GroundProofs9.arnoldi_galerkin. Qed.
Print Assumptions C58_galerkin.
(** C58: when (A - mu)^k psi adds nothing to the space, the result is an eigenvalue and an eigenvector; *)
Theorem C58_exact : forall o n, solvable n o -> forall solver, solver_correct solver -> forall mu w, sqnorm n (w_amp w) = 1%R -> forall k,
  let P := krylov o (shift_of o mu) (w_amp w) in (0 < k)%nat -> lin_independent n P k -> in_span n P k (P k) ->
  solves_with solver (solve_ground_state_by_arnoldi_method o n solver k mu) w (fun E psi => sqnorm n psi = 1%R /\ forall x, x < 2 ^ n -> op_act o psi x = (E * psi x)%C).
Proof. exact GroundProofs9.arnoldi_exact. Qed.
Print Assumptions C58_exact.
(** it is the ground-state energy and a ground state if the start overlaps one. *)
Theorem C58_ground_state : forall o n, solvable n o -> forall solver, solver_correct solver -> forall mu w, sqnorm n (w_amp w) = 1%R ->
  forall m, shift_of o mu = RtoC m -> self_adjoint n (op_act o) -> forall lambda g, real_coefs o -> ground_state n o lambda g -> inner n g (w_amp w) <> C0 -> forall k,
  let P := krylov o (shift_of o mu) (w_amp w) in (0 < k)%nat -> lin_independent n P k -> in_span n P k (P k) ->
  solves_with solver (solve_ground_state_by_arnoldi_method o n solver k mu) w (fun E psi => E = RtoC lambda /\ ground_state n o lambda psi).
Proof. exact GroundProofs9.arnoldi_ground. Qed.
Print Assumptions C58_ground_state.
(** C58: the eigenvalue of a Hermitian operator is real, no state of the space has a smaller energy, *)
Theorem C58_least : forall o n, solvable n o -> forall solver, solver_correct solver -> forall mu w, sqnorm n (w_amp w) = 1%R ->
  forall m, shift_of o mu = RtoC m -> self_adjoint n (op_act o) -> forall k,
  let P := krylov o (shift_of o mu) (w_amp w) in (0 < k)%nat -> lin_independent n P k ->
  solves_with solver (solve_ground_state_by_arnoldi_method o n solver k mu) w (fun E psi =>
    snd E = 0%R /\ forall phi, in_span n P k phi -> (fst E * sqnorm n phi <= Re (inner n phi (op_act o phi)))%R).
Proof. exact GroundProofs9.arnoldi_least. Qed.
Print Assumptions C58_least.
(** it is not below the ground-state energy, *)
Theorem C58_variational : forall o n, solvable n o -> forall solver, solver_correct solver -> forall mu w, sqnorm n (w_amp w) = 1%R ->
  forall m, shift_of o mu = RtoC m -> self_adjoint n (op_act o) -> forall k lambda,
  (0 < k)%nat -> lin_independent n (krylov o (shift_of o mu) (w_amp w)) k -> energy_at_least n o lambda ->
  solves_with solver (solve_ground_state_by_arnoldi_method o n solver k mu) w (fun E psi => snd E = 0%R /\ (lambda <= fst E)%R).
Proof. exact GroundProofs9.arnoldi_variational. Qed.
Print Assumptions C58_variational.
(** and not above what the power method gives with as many applications of the operator. *)
Theorem C58_beats_power_method : forall o n, solvable n o -> forall solver, solver_correct solver -> forall mu w, sqnorm n (w_amp w) = 1%R ->
  forall m, shift_of o mu = RtoC m -> self_adjoint n (op_act o) -> forall k, o_herm o = true -> lin_independent n (krylov o (shift_of o mu) (w_amp w)) (S k) ->
  solves_with solver (solve_ground_state_by_arnoldi_method o n solver (S k) mu) w (fun E _ =>
    solves (solve_ground_state_by_power_method o n k mu) w (fun E' _ => (fst E <= fst E')%R)).
Proof. exact GroundProofs9.arnoldi_beats_power. Qed.
Print Assumptions C58_beats_power_method.
(** C58 refuted: the vectors need not be independent; then the result is not a number, *)
Theorem C58_dependent_refuted : forall o n, solvable n o -> forall solver, solver_correct solver -> forall mu w, sqnorm n (w_amp w) = 1%R -> forall k,
  ~ lin_independent n (krylov o (shift_of o mu) (w_amp w)) k -> undefined (solve_ground_state_by_arnoldi_method o n solver k mu) w.
Proof. exact GroundProofs9.arnoldi_undefined. Qed.
Print Assumptions C58_dependent_refuted.
(** always with more iterations than the dimension, *)
Theorem C58_too_many_iterations_refuted : forall o n, solvable n o -> forall solver, solver_correct solver -> forall mu w, sqnorm n (w_amp w) = 1%R -> forall k,
  2 ^ n < N.of_nat k -> undefined (solve_ground_state_by_arnoldi_method o n solver k mu) w.
Proof. exact GroundProofs9.arnoldi_too_many. Qed.
Print Assumptions C58_too_many_iterations_refuted.
(** and with two or more iterations from an eigenstate, even the ground state. *)
Theorem C58_eigenstate_start_refuted : forall o n, solvable n o -> forall solver, solver_correct solver -> forall mu w, sqnorm n (w_amp w) = 1%R -> forall e k,
  eigenstate n o e (w_amp w) -> (2 <= k)%nat -> undefined (solve_ground_state_by_arnoldi_method o n solver k mu) w.
Proof. exact GroundProofs9.arnoldi_eigenstate. Qed.
Print Assumptions C58_eigenstate_start_refuted.
(** No iteration gives no result. *)
Theorem C58_no_iteration : forall o n, solvable n o -> forall solver, solver_correct solver -> forall mu w, sqnorm n (w_amp w) = 1%R ->
  runs (solve_ground_state_by_arnoldi_method o n solver 0 mu) w (fun out => match out with HDone _ _ => False | _ => True end).
Proof. exact GroundProofs9.arnoldi_none. Qed.
Print Assumptions C58_no_iteration.
Theorem C58_refused : forall o n solver k mu w, o_terms o = [] -> throws (solve_ground_state_by_arnoldi_method o n solver k mu) w.
Proof. exact GroundProofs9.arnoldi_throws. Qed.
Print Assumptions C58_refused.
(** C58: one iteration from a start of any norm; *)
Theorem C58_one_iteration : forall o n, solvable n o -> forall solver, solver_correct solver -> forall mu w, sqnorm n (w_amp w) <> 0%R ->
  solves_with solver (solve_ground_state_by_arnoldi_method o n solver 1 mu) w (fun E psi =>
    sqnorm n psi = 1%R /\ E = (inner n (w_amp w) (op_act o (w_amp w)) + shift_of o mu * RtoC (1 - sqnorm n (w_amp w)))%C).
Proof. exact GroundProofs9.arnoldi_one_iteration. Qed.
Print Assumptions C58_one_iteration.
(** refuted: a start that is not normalised is not normalised first; the eigenvalue is below the ground-state energy. *)
Theorem C58_unnormalized_start_refuted : solvable 1 z_op /\ ground_state 1 z_op (-1) (basis 1) /\ sqnorm 1 GroundProofs9.two_one = 4%R /\ forall solver, solver_correct solver ->
  solves_with solver (solve_ground_state_by_arnoldi_method z_op 1 solver 1 None) (start GroundProofs9.two_one) (fun E _ => E = RtoC (-7)).
Proof. exact GroundProofs9.unnormalized. Qed.
Print Assumptions C58_unnormalized_start_refuted.
(** Z0 from the uniform superposition meets the hypotheses with one and with two iterations. *)
Example C58_example : let P := krylov z_op (shift_of z_op None) plus in
  solver_correct GroundProofs9.solver1 /\ lin_independent 1 P 1 /\ lin_independent 1 P 2 /\ in_span 1 P 2 (P 2%nat).
Proof. exact GroundProofs9.z_krylov_example. Qed.
